(** Proofs about saving and loading. *)
From Coq Require Import ZArith List Bool Ascii Lia.
From Verif Require Import Base VecModel VecProofs ToolsModel ToolsSpec ToolsProofs MatModel MatProofs DRModel PolyProofs DRProofs IoModel IoProofs SaveModel FrobTop.
Import ListNotations.
Open Scope Z_scope.

(** * the name of the temporary file *)
Lemma put_byte_ok buf i c b : put_byte buf i c = OK b -> (i < length buf)%nat /\ b = upd buf i (Some c).
Proof. unfold put_byte. destruct (Nat.ltb_spec i (length buf)) as [L|L]; [|discriminate]. intros H. injection H as <-. auto. Qed.

Lemma str_write_fits buf at_ s : (at_ + length s < length buf)%nat ->
  exists b, str_write buf at_ s = OK b /\ length b = length buf /\
    forall j, nth j b None = if (Nat.leb at_ j && Nat.leb j (at_ + length s))%bool then Some (nth (j - at_) (s ++ [zero]) zero) else nth j buf None.
Proof.
  intros H. unfold str_write.
  assert (G : forall k, (k <= length s + 1)%nat -> exists b,
    foldM (fun b i => put_byte b (at_ + i) (nth i (s ++ [zero]) zero)) (seq 0 k) buf = OK b /\ length b = length buf /\
    forall j, nth j b None = if (Nat.leb at_ j && Nat.ltb j (at_ + k))%bool then Some (nth (j - at_) (s ++ [zero]) zero) else nth j buf None).
  { induction k as [|k IH]; intros Hk.
    - exists buf. split; [reflexivity|]. split; auto. intros j.
      destruct (Nat.leb_spec at_ j), (Nat.ltb_spec j (at_ + 0)); cbn [andb]; auto; lia.
    - destruct IH as (b & E & L & N); [lia|]. rewrite seq_S, Nat.add_0_l, foldM_app, E. cbn [bind foldM].
      unfold put_byte. destruct (Nat.ltb_spec (at_ + k) (length b)); [|lia]. cbn [bind].
      eexists. split; [reflexivity|]. rewrite upd_length. split; auto. intros j.
      destruct (Nat.eq_dec j (at_ + k)) as [->|Nj].
      + rewrite nth_upd_eq by auto. destruct (Nat.leb_spec at_ (at_ + k)), (Nat.ltb_spec (at_ + k) (at_ + S k)); try lia.
        cbn [andb]. do 2 f_equal. lia.
      + rewrite nth_upd_neq by auto. rewrite N.
        destruct (Nat.leb_spec at_ j), (Nat.ltb_spec j (at_ + k)), (Nat.ltb_spec j (at_ + S k)); cbn [andb]; auto; lia. }
  destruct (G (length s + 1)%nat) as (b & E & L & N); [lia|]. exists b. split; auto. split; auto. intros j. rewrite N.
  destruct (Nat.leb_spec at_ j), (Nat.ltb_spec j (at_ + (length s + 1))), (Nat.leb_spec j (at_ + length s)); cbn [andb]; auto; lia.
Qed.

Lemma put_bytes_len at_ g l : forall buf b,
  foldM (fun b i => put_byte b (at_ + i) (g i)) l buf = OK b -> length b = length buf.
Proof.
  induction l as [|i l IH]; intros buf b; cbn [foldM]; [intros H; now injection H as <-|].
  intros H. apply bind_ok in H. destruct H as (b1 & H1 & H). apply put_byte_ok in H1. destruct H1 as [_ ->].
  apply IH in H. now rewrite upd_length in H.
Qed.

Lemma str_write_over buf at_ s : (length buf <= at_ + length s)%nat -> str_write buf at_ s = Err EUB.
Proof.
  intros H. unfold str_write. rewrite Nat.add_1_r, seq_S, foldM_app, Nat.add_0_l.
  assert (P : forall l b, foldM (fun b i => put_byte b (at_ + i) (nth i (s ++ [zero]) zero)) l b = Err EUB \/
    exists b', foldM (fun b i => put_byte b (at_ + i) (nth i (s ++ [zero]) zero)) l b = OK b').
  { induction l as [|i l IH]; intros b; cbn [foldM]; [eauto|]. unfold put_byte at 1 3.
    destruct (Nat.ltb (at_ + i) (length b)); cbn [bind]; auto. }
  destruct (P (seq 0 (length s)) buf) as [->|(b' & E)]; [reflexivity|]. rewrite E.
  apply put_bytes_len in E. cbn [bind foldM]. unfold put_byte. destruct (Nat.ltb_spec (at_ + length s) (length b')); [lia|reflexivity].
Qed.

(** the buffer content up to the first unwritten byte, as a C string *)
Fixpoint c_string (buf : list (option ascii)) : option text :=
  match buf with
  | Some c :: r => if Ascii.eqb c zero then Some [] else option_map (cons c) (c_string r)
  | _ => None
  end.

Lemma c_string_nth s : forall buf, (length s < length buf)%nat -> Forall (fun c => c <> zero) s ->
  (forall j, (j <= length s)%nat -> nth j buf None = Some (nth j (s ++ [zero]) zero)) -> c_string buf = Some s.
Proof.
  induction s as [|c s IH]; intros buf L F H.
  - destruct buf as [|o buf]; [cbn in L; lia|]. specialize (H 0%nat (le_n _)). cbn in H. subst o. reflexivity.
  - destruct buf as [|o buf]; [cbn in L; lia|]. inversion F as [|? ? F1 F2]; subst.
    pose proof (H 0%nat (Nat.le_0_l _)) as H0. cbn in H0. subst o. cbn [c_string].
    apply Ascii.eqb_neq in F1. rewrite F1. rewrite IH; auto; [cbn in *; lia|].
    intros j Hj. apply (H (S j)). cbn [length]. lia.
Qed.

Lemma swp_name_ok f : (length f <= 7)%nat -> Forall (fun c => c <> zero) f ->
  exists b, swp_name f = OK b /\ c_string b = Some (f ++ dot_swp).
Proof.
  intros L F. unfold swp_name.
  destruct (str_write_fits (repeat None (8 + 4)) 0 f) as (b1 & E1 & L1 & N1); [rewrite repeat_length; lia|].
  rewrite E1. cbn [bind]. rewrite repeat_length in L1.
  destruct (str_write_fits b1 (length f) dot_swp) as (b2 & E2 & L2 & N2); [cbn [length dot_swp]; lia|].
  exists b2. split; auto. apply c_string_nth.
  - rewrite app_length. cbn [length dot_swp]. lia.
  - apply Forall_app. split; auto. repeat constructor; discriminate.
  - intros j Hj. rewrite app_length in Hj. cbn [length dot_swp] in Hj. rewrite N2, N1.
    destruct (Nat.leb_spec (length f) j) as [A|A].
    + destruct (Nat.leb_spec j (length f + length dot_swp)) as [B|B]; [|cbn [length dot_swp] in B; lia].
      cbn [andb]. rewrite <- app_assoc, (app_nth2 f) by lia. reflexivity.
    + cbn [andb]. destruct (Nat.leb_spec 0 j); [|lia]. destruct (Nat.leb_spec j (0 + length f)); [|lia].
      cbn [andb]. rewrite Nat.sub_0_r, <- app_assoc, !app_nth1 by lia. reflexivity.
Qed.

Lemma swp_name_bad f : (7 < length f)%nat -> swp_name f = Err EUB.
Proof.
  intros L. unfold swp_name. destruct (Nat.le_gt_cases 12 (length f)) as [A|A].
  - rewrite str_write_over by (rewrite repeat_length; lia). reflexivity.
  - destruct (str_write_fits (repeat None (8 + 4)) 0 f) as (b1 & E1 & L1 & N1); [rewrite repeat_length; lia|].
    rewrite E1. cbn [bind]. apply str_write_over. rewrite L1, repeat_length. cbn [length dot_swp]. lia.
Qed.

(** * the modulus in frob_ND_flint *)
Lemma fm_use_live big l : foldM (fun (c : cell) (_ : nat) => fm_use big c) l Live = OK Live.
Proof. induction l; auto. Qed.
Lemma fm_use_small l c : foldM (fun (c : cell) (_ : nat) => fm_use false c) l c = OK c.
Proof. induction l; cbn [foldM]; auto. destruct c; cbn [fm_use bind]; auto. Qed.

Lemma fm_run_single modulus terms : fm_run 1 modulus terms <> Err EUB.
Proof.
  unfold fm_run. set (big := 2 ^ 62 <=? modulus).
  assert (G : foldM (fm_step 1 big) terms Live = OK Live).
  { induction terms as [|t terms IH]; auto. cbn [foldM]. unfold fm_step at 1. rewrite fm_use_live. exact IH. }
  rewrite G. cbn [bind]. destruct big; discriminate.
Qed.

Lemma fm_run_ok threads modulus terms : terms <> [] ->
  (exists c, fm_run threads modulus terms = OK c) <-> (threads <= 1)%nat \/ modulus < 2 ^ 62.
Proof.
  intros Ne. unfold fm_run. destruct (Z.leb_spec (2 ^ 62) modulus) as [B|B].
  - unfold fm_step. destruct (Nat.ltb_spec 1 threads) as [T|T].
    + split; [|lia]. intros (c & H). exfalso. destruct terms as [|t terms]; [congruence|]. cbn [foldM] in H.
      rewrite fm_use_live in H. cbn [bind fm_clear] in H. destruct terms as [|t2 terms].
      * discriminate H.
      * cbn [foldM] in H. destruct t2 as [|t2]; discriminate H.
    + split; [auto|]. intros _. exists Freed.
      assert (G : forall l, foldM (fun (c : cell) (terms : nat) => c0 <- foldM (fun (c0 : cell) (_ : nat) => fm_use true c0) (seq 0 terms) c;; OK c0) l Live = OK Live).
      { induction l as [|t l IH]; auto. cbn [foldM]. rewrite fm_use_live. exact IH. }
      rewrite G. reflexivity.
  - split; [auto|]. intros _. exists Live.
    assert (G : foldM (fm_step threads false) terms Live = OK Live).
    { clear Ne. induction terms as [|t l IH]; auto. cbn [foldM]. unfold fm_step at 1. rewrite fm_use_small. cbn [bind fm_clear].
      now destruct (Nat.ltb 1 threads). }
    rewrite G. reflexivity.
Qed.

(** * crash states *)
Lemma run_appends s parts : fops_run (Some s, true) (map Append parts) = (Some (s ++ concat parts), true).
Proof.
  revert s. induction parts as [|t parts IH]; intros s; cbn [map concat]; [now rewrite app_nil_r|].
  unfold fops_run in *. cbn [fold_left fop_run fst snd]. rewrite IH, <- app_assoc. reflexivity.
Qed.

Lemma firstn_In_split {A} k (l : list A) : exists r, l = firstn k l ++ r.
Proof. exists (skipn k l). symmetry. apply firstn_skipn. Qed.

(** after any number of operations of a save whose two files open: without the
    marker the target is the old one (nothing happened) or the complete new one *)
Lemma save_crash old parts k :
  let s := fops_run (old, false) (firstn k (fst (save_ops true true parts))) in
  snd s = false -> s = (old, false) \/ s = (Some (concat parts), false).
Proof.
  intros s Hs. subst s. cbn [save_ops fst andb app] in *. destruct k as [|[|k]]; [left; reflexivity|discriminate|].
  revert Hs. cbn [firstn]. unfold fops_run. cbn [fold_left fop_run fst snd].
  fold (fops_run (Some [], true) (firstn k (map Append parts ++ [RemoveSwp]))). intros Hs.
  assert (C : (k <= length (map Append parts))%nat \/ (length (map Append parts) < k)%nat) by lia. destruct C as [C|C].
  + rewrite firstn_app, (proj2 (Nat.sub_0_le _ _) C) in *. cbn [firstn] in *. rewrite app_nil_r in *.
    rewrite firstn_map in *. rewrite run_appends in Hs. discriminate.
  + right. rewrite firstn_all2 by (rewrite app_length; cbn [length]; lia).
    unfold fops_run. rewrite fold_left_app. fold (fops_run (Some [], true) (map Append parts)). rewrite run_appends. reflexivity.
Qed.
Lemma save_complete old parts :
  fops_run (old, false) (fst (save_ops true true parts)) = (Some (concat parts), false).
Proof.
  cbn [save_ops fst andb app]. unfold fops_run. cbn [fold_left fop_run fst snd]. rewrite fold_left_app.
  fold (fops_run (Some [], true) (map Append parts)). rewrite run_appends. reflexivity.
Qed.

(** * what is loaded *)
(** the terms of f whose coefficient is not divisible by p, with the coefficient
    reduced to [0, p) *)
Definition naive_lift (p : Z) (f : poly) : poly :=
  filter (fun kc => negb (snd kc =? 0)) (map (fun kc => (fst kc, snd kc mod p)) f).
Definition with_f (D : dR) (f : poly) : dR :=
  mk_dR (r_p D) (r_prec D) (r_q D) (r_n D) (r_d D) f (r_tl D) (r_td D) (r_basis D) (r_bdict D).
(** solve pairs have rectangular reduced matrices *)
Definition solver_reduced (q : Z) (slv : solver) : Prop :=
  forall nc T B U, slv nc T = OK (B, U) ->
    Forall (Forall (fun x => x mod q = x)) U /\ exists k, Forall (fun r => length r = k) U.

Lemma naive_sorted n p f : vsorted n f -> vsorted n (naive_lift p f).
Proof.
  unfold naive_lift. induction 1 as [|k v m Hk Hs IH Hlt]; cbn [map filter fst snd]; [constructor|].
  destruct (v mod p =? 0); cbn [negb]; auto. constructor; auto.
  intros k' v' Hin. apply filter_In in Hin. destruct Hin as [Hin _]. apply in_map_iff in Hin.
  destruct Hin as ([k2 v2] & E & Hin). injection E as <- <-. eapply Hlt; eauto.
Qed.

Lemma naive_In p f k c : In (k, c) (naive_lift p f) <-> exists v, In (k, v) f /\ c = v mod p /\ c <> 0.
Proof.
  unfold naive_lift. rewrite filter_In, in_map_iff. cbn [fst snd]. split.
  - intros [([k2 v] & E & H) N]. injection E as <- <-. exists v. split; auto. split; auto.
    destruct (Z.eqb_spec (v mod p) 0); auto; discriminate.
  - intros (v & H & -> & N). split; [exists (k, v); auto|]. destruct (Z.eqb_spec (v mod p) 0); auto.
Qed.

Lemma naive_find n p f k : vsorted n f -> length k = n ->
  vfind k (naive_lift p f) = match vfind k f with Some v => if v mod p =? 0 then None else Some (v mod p) | None => None end.
Proof.
  intros Hs Hk. pose proof (naive_sorted n p f Hs) as Hn.
  destruct (vfind k (naive_lift p f)) as [c|] eqn:E.
  - apply (vfind_In n) in E; auto. apply naive_In in E. destruct E as (v & H & -> & N).
    apply (vfind_In n) in H; auto. rewrite H. destruct (Z.eqb_spec (v mod p) 0); congruence.
  - destruct (vfind k f) as [v|] eqn:E2; auto. destruct (Z.eqb_spec (v mod p) 0) as [|N]; auto. exfalso.
    apply (vfind_In n) in E2; auto. assert (H : In (k, v mod p) (naive_lift p f)) by (apply naive_In; eauto).
    apply (vfind_In n) in H; auto. congruence.
Qed.

Lemma naive_id n p f : vsorted n f -> Forall (fun kc => snd kc mod p = snd kc /\ snd kc <> 0) f -> naive_lift p f = f.
Proof.
  intros Hs F. apply (vsorted_find_ext n); auto using naive_sorted. intros k Hk. rewrite (naive_find n) by auto.
  destruct (vfind k f) as [v|] eqn:E; auto. apply (vfind_In n) in E; auto. rewrite Forall_forall in F. specialize (F _ E).
  cbn [snd] in F. destruct F as [-> N]. destruct (Z.eqb_spec v 0); congruence.
Qed.

Section Load.
  Variables (slv : solver) (p prec q : Z) (f : poly) (D : dR).
  Hypothesis HI : init slv q p prec f = OK D.
  Hypothesis HW : wf_poly (r_n D) (r_d D) f.
  Hypothesis HQ : q = p ^ prec.
  Hypothesis HR : solver_reduced q slv.

  Lemma init_fields : init_tuples (r_n D) (r_d D) = OK (r_tl D) /\ r_td D = map tuple_index (r_tl D) /\ r_prec D = prec /\ r_p D = p.
  Proof.
    generalize HI. unfold init. destruct f as [|[a0 c0] f0]; [discriminate|].
    intros H. repeat (apply bind_ok in H; destruct H as (? & ? & H)). injection H as <-. cbn [r_n r_d r_tl r_td r_prec r_p]. auto.
  Qed.

  Let n := r_n D.
  Let d := r_d D.
  Let Ed := enum (S n) (Z.to_nat d).

  Lemma inv : dr_inv slv D.
  Proof. now destruct (init_inv _ _ _ _ _ _ HI HW). Qed.
  Lemma rq : r_q D = q. Proof. now destruct (init_inv _ _ _ _ _ _ HI HW) as (_ & ? & _). Qed.
  Lemma rf : r_f D = f. Proof. now destruct (init_inv _ _ _ _ _ _ HI HW) as (_ & _ & ?). Qed.
  Lemma d_pos : 0 < d.
  Proof. pose proof (inv_nd _ _ inv). unfold d. lia. Qed.
  Lemma d_range : 0 <= d <= (Z.of_nat n + 1) * d.
  Proof. pose proof d_pos. nia. Qed.

  (** the vector of coefficients *)
  Definition fv_ok (fv : list Z) : Prop :=
    length fv = length Ed /\ forall j, (j < length Ed)%nat ->
      nth j fv 0 = match vfind (nth j Ed []) f with Some c => c mod p | None => 0 end.

  Lemma fbar_vector_ok : exists fv, fbar_vector p D = OK fv /\ fv_ok fv.
  Proof.
    unfold fbar_vector. fold d. rewrite (inv_tl _ _ inv _ d_range), (inv_td _ _ inv _ d_range), rf. cbn [bind].
    fold n d. fold Ed.
    destruct (tuple_index_spec (S n) Ed) as [TS TI].
    { intros t. apply enum_len. } { apply enum_NoDup. }
    destruct HW as [W1 W2]. fold n in W1. fold n d in W2.
    set (step := fun v (kc : vec * Z) => _).
    assert (G : forall pre suf, f = pre ++ suf -> exists v, foldM step pre (repeat 0 (length Ed)) = OK v /\ length v = length Ed /\
      forall j, (j < length Ed)%nat ->
        (forall c, In (nth j Ed [], c) pre -> nth j v 0 = c mod p) /\
        ((forall c, ~ In (nth j Ed [], c) pre) -> nth j v 0 = 0)).
    { induction pre as [|[k c] pre IH] using rev_ind; intros suf Hf.
      - exists (repeat 0 (length Ed)). split; [reflexivity|]. split; [apply repeat_length|]. intros j Hj. split; [intros ? []|].
        intros _. apply nth_repeat.
      - rewrite <- app_assoc in Hf. destruct (IH _ Hf) as (v & E & L & N). rewrite foldM_app, E. cbn [bind foldM]. unfold step at 1.
        cbn [fst snd]. assert (Hin : In (k, c) f) by (rewrite Hf; apply in_app_iff; right; now left).
        pose proof (W2 _ _ Hin) as T. rewrite <- (Z2Nat.id d) in T by (pose proof d_pos; lia).
        destruct (enum_idx _ _ _ T) as (i & Ei & Li & Ni). fold Ed in Ei, Li, Ni. unfold dget in Ei.
        destruct (vfind k (tuple_index Ed)) as [i'|]; [|discriminate]. injection Ei as ->.
        unfold check. rewrite L. destruct (Nat.ltb_spec i (length Ed)); [|lia]. cbn [bind].
        eexists. split; [reflexivity|]. rewrite upd_length. split; auto. intros j Hj.
        destruct (Nat.eq_dec j i) as [->|Nj].
        + rewrite nth_upd_eq by lia. rewrite Ni. split.
          * intros c' Hc'. assert (In (k, c') f).
            { rewrite Hf. rewrite app_assoc. apply in_app_iff. now left. }
            apply (vfind_In (S n)) in Hin; auto; [|apply T]. apply (vfind_In (S n)) in H0; auto; [|apply T]. congruence.
          * intros H0. exfalso. apply (H0 c). apply in_app_iff. right. now left.
        + rewrite nth_upd_neq by auto. destruct (N j Hj) as [N1 N2]. split.
          * intros c' Hc'. apply in_app_iff in Hc'. destruct Hc' as [Hc'|[Hc'|[]]]; [auto|].
            injection Hc' as E1 _. exfalso. apply Nj. apply (enum_nth_inj n (Z.to_nat d)); auto. fold Ed. congruence.
          * intros H0. apply N2. intros c' Hc'. apply (H0 c'). apply in_app_iff. now left. }
    destruct (G f [] (eq_sym (app_nil_r f))) as (v & E & L & N). exists v. split; auto. split; auto.
    intros j Hj. destruct (N j Hj) as [N1 N2]. pose proof (enum_nth_tuple n (Z.to_nat d) j Hj) as T. fold Ed in T.
    destruct (vfind (nth j Ed []) f) as [c|] eqn:F.
    - apply N1. apply (vfind_In (S n)) in F; auto. apply T.
    - apply N2. intros c Hc. apply (vfind_In (S n)) in Hc; auto; [congruence|apply T].
  Qed.

  (** the polynomial rebuilt from it *)
  Lemma rebuild_f fv : fv_ok fv ->
    fold_left (fun g i => if nth i fv 0 =? 0 then g else vinsert (nth i Ed []) (nth i fv 0) g) (seq 0 (length fv)) [] = naive_lift p f.
  Proof.
    intros [L N]. destruct HW as [W1 W2]. fold n in W1. fold n d in W2.
    set (step := fun g i => _).
    assert (G : forall m, (m <= length fv)%nat -> vsorted (S n) (fold_left step (seq 0 m) []) /\
      forall k, length k = S n -> vfind k (fold_left step (seq 0 m) []) =
        if in_dec (list_eq_dec Z.eq_dec) k (firstn m Ed) then vfind k (naive_lift p f) else None).
    { induction m as [|m IH]; intros Hm.
      - split; [constructor|]. reflexivity.
      - destruct IH as [S1 S2]; [lia|]. rewrite seq_S, fold_left_app, Nat.add_0_l. cbn [fold_left]. unfold step at 1 3.
        assert (Hm' : (m < length Ed)%nat) by lia.
        pose proof (enum_nth_tuple n (Z.to_nat d) m Hm') as T. fold Ed in T.
        assert (Fs : firstn (S m) Ed = firstn m Ed ++ [nth m Ed []]).
        { clear - Hm'. revert m Hm'. generalize Ed as l. induction l as [|x l IH]; intros [|m] H; cbn in *; try lia; auto.
          rewrite <- IH by lia. reflexivity. }
        assert (Nin : ~ In (nth m Ed []) (firstn m Ed)).
        { intros Hin. destruct (In_nth _ _ [] Hin) as (i & Li & Ei). rewrite firstn_length in Li.
          assert (i = m); [|lia]. apply (enum_nth_inj n (Z.to_nat d)); fold Ed; [lia|lia|]. rewrite <- Ei.
          rewrite <- (firstn_skipn m Ed) at 1. rewrite app_nth1; auto. rewrite firstn_length. lia. }
        split.
        + destruct (_ =? 0); auto. apply vinsert_sorted; auto. apply T.
        + intros k Hk. rewrite Fs. destruct (list_eq_dec Z.eq_dec k (nth m Ed [])) as [->|Nk].
          * destruct (in_dec _ _ _) as [_|J]; [|exfalso; apply J, in_app_iff; right; now left].
            rewrite (naive_find (S n)) by auto. pose proof (N m Hm') as Nm. destruct (Z.eqb_spec (nth m fv 0) 0) as [Z0|Z0].
            { rewrite S2 by auto. destruct (in_dec _ _ _) as [J|_]; [contradiction|].
              destruct (vfind (nth m Ed []) f) as [c|]; auto. rewrite <- Nm, Z0. reflexivity. }
            { rewrite (vfind_insert_eq (S n)) by auto. destruct (vfind (nth m Ed []) f) as [c|]; [|congruence].
              rewrite <- Nm. destruct (Z.eqb_spec (nth m fv 0) 0); congruence. }
          * assert (R : vfind k (if nth m fv 0 =? 0 then fold_left step (seq 0 m) [] else vinsert (nth m Ed []) (nth m fv 0) (fold_left step (seq 0 m) []))
              = vfind k (fold_left step (seq 0 m) [])).
            { destruct (_ =? 0); auto. apply (vfind_insert_neq (S n)); auto. apply T. }
            rewrite R, S2 by auto. destruct (in_dec _ k (firstn m Ed)) as [J|J]; destruct (in_dec _ k (_ ++ _)) as [J'|J']; auto.
            { exfalso. apply J', in_app_iff. now left. }
            { exfalso. apply in_app_iff in J'. destruct J' as [J'|[J'|[]]]; congruence. } }
    destruct (G (length fv) (le_n _)) as [S1 S2]. apply (vsorted_find_ext (S n)); auto; [now apply naive_sorted|].
    intros k Hk. rewrite S2 by auto. rewrite L, firstn_all. destruct (in_dec _ _ _) as [|J]; auto.
    destruct (vfind k (naive_lift p f)) as [c|] eqn:F; auto. exfalso. apply J. apply (vfind_In (S n)) in F; auto using naive_sorted.
    apply naive_In in F. destruct F as (v & F & _). apply W2 in F. apply enum_In; [lia|].
    rewrite Z2Nat.id by (pose proof d_pos; lia). exact F.
  Qed.

  Definition conv (BU : list nat * mat) : list Z * mat := (map Z.of_nat (fst BU), snd BU).

  Lemma parse_pair_slv nc M BU rest : slv nc M = OK BU ->
    parse_pair q (print_pair BU ++ rest) = OK (conv BU, c_nl :: rest) /\
    parse_pair q (c_nl :: print_pair BU ++ rest) = OK (conv BU, c_nl :: rest).
  Proof.
    intros E. destruct BU as [B U].
    destruct (HR _ _ _ _ E) as [R1 (k & R2)].
    assert (H : parse_pair q (print_pair (B, U) ++ rest) = OK (conv (B, U), c_nl :: rest)).
    { unfold parse_pair, print_pair, line. cbn [fst snd]. rewrite <- !app_assoc.
      destruct (print_vec_read _ _ _ print_Z_read (map Z.of_nat B)) as [_ P1]; [apply Forall_forall; auto|].
      rewrite P1 by reflexivity. cbn [bind fst snd app].
      assert (Sk : forall s, parse_mat (parse_mod q) (c_nl :: s) = parse_mat (parse_mod q) s) by reflexivity. rewrite Sk.
      destruct (print_mat_read _ _ _ (print_mod_read q) k U (conj R1 R2)) as [_ P2].
      rewrite P2 by reflexivity. reflexivity. }
    split; exact H.
  Qed.

  Lemma parse_pair_ok l BU rest : get_solve_J slv D l = OK BU ->
    parse_pair q (print_pair BU ++ rest) = OK (conv BU, c_nl :: rest) /\
    parse_pair q (c_nl :: print_pair BU ++ rest) = OK (conv BU, c_nl :: rest).
  Proof.
    intros E. unfold get_solve_J in E. apply bind_ok in E. destruct E as (cM & _ & E). eapply parse_pair_slv. exact E.
  Qed.

  Lemma load_levels is : forall bs tab0 bas0 rest,
    mapM (init_basis_level slv D (hilbert_J n d)) is = OK bs ->
    exists ps, mapM (fun i => get_solve_J slv D ((i + 1) * d - (Z.of_nat n + 1))) is = OK ps /\
      foldM (load_level q (Z.of_nat n) d (hilbert_J n d) (r_tl D)) is (tab0, bas0, c_nl :: flat_map print_pair ps ++ rest) =
      OK (tab0 ++ combine (map (fun i => (i + 1) * d - (Z.of_nat n + 1)) is) (map conv ps), bas0 ++ concat bs, c_nl :: rest).
  Proof.
    induction is as [|i is IH]; intros bs tab0 bas0 rest H.
    - injection H as <-. exists []. split; [reflexivity|]. cbn [foldM map combine concat flat_map app]. now rewrite !app_nil_r.
    - cbn [mapM] in H. apply bind_ok in H. destruct H as (b & Hb & H). apply bind_ok in H. destruct H as (bs' & H & H1).
      injection H1 as <-. unfold init_basis_level in Hb. fold n d in Hb. apply bind_ok in Hb. destruct Hb as (BU & Hs & Hb).
      apply bind_ok in Hb. destruct Hb as (h & Hh & Hb). apply bind_ok in Hb. destruct Hb as (? & Hc & Hb).
      apply bind_ok in Hb. destruct Hb as (tll & Ht & Hb).
      destruct (IH bs' (tab0 ++ [((i + 1) * d - (Z.of_nat n + 1), conv BU)]) (bas0 ++ b) rest H) as (ps & E1 & E2).
      exists (BU :: ps). split; [cbn [mapM]; rewrite Hs; cbn [bind]; rewrite E1; reflexivity|].
      cbn [foldM flat_map]. rewrite <- app_assoc. unfold load_level at 1, read_level at 1.
      rewrite (proj2 (parse_pair_ok _ _ (flat_map print_pair ps ++ rest) Hs)). cbn [bind fst snd conv]. rewrite Hh. cbn [bind].
      unfold zlen in *. rewrite map_length. rewrite Hc. cbn [bind]. rewrite Ht. cbn [bind].
      replace (mapM (get_at tll) (map Z.of_nat (fst BU))) with (OK b).
      2:{ rewrite <- Hb. clear. generalize (fst BU) as l. induction l as [|x l IH]; auto. cbn [map mapM]. now rewrite IH. }
      cbn [bind]. fold (conv BU). etransitivity; [exact E2|]. do 3 f_equal.
      + cbn [map combine]. now rewrite <- app_assoc.
      + cbn [concat]. now rewrite app_assoc.
  Qed.

  Lemma mapM_app_ok {A B} (g : A -> res B) l1 l2 r1 r2 : mapM g l1 = OK r1 -> mapM g l2 = OK r2 -> mapM g (l1 ++ l2) = OK (r1 ++ r2).
  Proof.
    revert r1. induction l1 as [|x l1 IH]; intros r1 H1 H2; cbn [mapM app] in *.
    - injection H1 as <-. exact H2.
    - apply bind_ok in H1. destruct H1 as (b & Hb & H1). apply bind_ok in H1. destruct H1 as (bs & Hbs & H1). injection H1 as <-.
      rewrite Hb. cbn [bind]. rewrite (IH _ Hbs H2). reflexivity.
  Qed.
  Lemma mapM_map {A B C} (g : B -> res C) (h : A -> B) l : mapM g (map h l) = mapM (fun x => g (h x)) l.
  Proof. induction l as [|x l IH]; auto. cbn [map mapM]. now rewrite IH. Qed.

  Lemma save_load vb sm : exists s tab, save_text slv D vb sm = OK s /\
    mapM (get_solve_J slv D) (saved_degs D) = OK tab /\
    forall rest, load_part p q (s ++ rest) =
      OK (with_f D (naive_lift p f), hilbert_J n d, combine (saved_degs D) (map conv tab), vb, sm, c_nl :: rest).
  Proof.
    destruct fbar_vector_ok as (fv & Ef & Hfv).
    destruct (inv_basis _ _ inv) as (bs & Ebs & Eb). fold n d in Ebs.
    destruct (inv_top _ _ inv) as (Ut & Et).
    destruct (load_levels _ bs [] [] (print_pair ([], Ut)) Ebs) as (ps & Eps & Efold).
    destruct init_fields as (F1 & F2 & F3 & F4).
    assert (Etab : mapM (get_solve_J slv D) (saved_degs D) = OK (ps ++ [([], Ut)])).
    { unfold saved_degs. apply mapM_app_ok; [rewrite mapM_map; exact Eps|]. cbn [mapM]. rewrite Et. reflexivity. }
    eexists _, _. split; [|split; [exact Etab|]].
    { unfold save_text. rewrite F4, Ef. cbn [bind]. rewrite Etab. cbn [bind]. reflexivity. }
    intros rest. unfold line. rewrite <- !app_assoc.
    destruct (load_levels _ bs [] [] (print_pair ([], Ut) ++ rest) Ebs) as (ps' & Eps' & Efold').
    assert (ps' = ps) by congruence. subst ps'. clear Efold Eps'.
    unfold load_part.
    assert (SZ : forall s, parse_Z (c_nl :: s) = parse_Z s) by reflexivity.
    assert (SB : forall s, parse_bool (c_nl :: s) = parse_bool s) by reflexivity.
    assert (SV : forall (pe : text -> res (Z * text)) s, parse_vec pe (c_nl :: s) = parse_vec pe s) by reflexivity.
    assert (PZ : forall x s, stop s -> parse_Z (print_Z x ++ s) = OK (x, s)) by (intros; now apply print_Z_read).
    assert (PB : forall x s, stop s -> parse_bool (print_bool x ++ s) = OK (x, s)) by (intros; now apply print_bool_read).
    assert (PV : forall l s, stop s -> parse_vec parse_Z (print_vec print_Z l ++ s) = OK (l, s)).
    { intros. apply (print_vec_read _ _ _ print_Z_read); auto. apply Forall_forall; auto. }
    rewrite PZ by reflexivity. cbn [bind fst snd app]. unfold check at 1. rewrite Z.eqb_refl. cbn [bind].
    rewrite SZ, PZ by reflexivity. cbn [bind fst snd]. unfold check at 1. rewrite F3, HQ, Z.eqb_refl, <- HQ. cbn [bind].
    rewrite SB, PB by reflexivity. cbn [bind fst snd]. rewrite SB, PB by reflexivity. cbn [bind fst snd].
    rewrite SZ, PZ by reflexivity. cbn [bind fst snd]. rewrite SZ, PZ by reflexivity. cbn [bind fst snd].
    rewrite SV, PV by reflexivity. cbn [bind fst snd]. rewrite SV.
    rewrite (proj2 (print_vec_read _ _ _ (print_mod_read p) fv ltac:(
      apply Forall_forall; intros x Hx; destruct (In_nth _ _ 0 Hx) as (j & Lj & <-);
      destruct Hfv as [L N]; rewrite N by lia; destruct (vfind _ f); [apply mod_mod_any|apply Zmod_0_l]))) by reflexivity.
    cbn [bind fst snd]. rewrite Nat2Z.id. rewrite F1. cbn [bind]. fold d.
    rewrite (inv_tl _ _ inv _ d_range). cbn [bind]. fold n d. fold Ed. unfold check at 1. rewrite (proj1 Hfv), Nat.eqb_refl. cbn [bind].
    rewrite flat_map_app. cbn [flat_map]. rewrite app_nil_r, <- app_assoc. fold n d. fold n d in Efold'. match type of Efold' with ?l = _ => match goal with |- context [foldM ?a ?b ?c] => change (foldM a b c) with l end end. rewrite Efold'. cbn [bind].
    rewrite (proj2 (parse_pair_ok _ _ rest Et)). cbn [bind fst snd app].
    rewrite <- (proj1 Hfv), rebuild_f by auto. unfold with_f. rewrite F4, F3, rq, F2, (inv_bdict _ _ inv), Eb.
    do 5 f_equal. unfold saved_degs. rewrite map_app.
    assert (Lc : forall {A B} (l1 l1' : list A) (l2 l2' : list B), length l1 = length l2 -> combine (l1 ++ l1') (l2 ++ l2') = combine l1 l2 ++ combine l1' l2').
    { clear. induction l1 as [|a l1 IH]; intros l1' [|b l2] l2' L; try discriminate; auto. cbn [app combine]. rewrite IH; auto. }
    rewrite Lc; [reflexivity|]. rewrite !map_length. apply mapM_ok in Eps. clear - Eps. fold n.
    revert Eps. generalize (zseq 0 (Z.of_nat n)) as l. intros l H. induction H; cbn [length]; auto.
  Qed.

  Lemma save_load_text vb sm : exists s tab, save_text slv D vb sm = OK s /\
    mapM (get_solve_J slv D) (saved_degs D) = OK tab /\
    forall rest, load_text p q (s ++ rest) =
      OK (with_f D (naive_lift p f), hilbert_J n d, combine (saved_degs D) (map conv tab), vb, sm).
  Proof.
    destruct (save_load vb sm) as (s & tab & E1 & E2 & E3). exists s, tab. split; [exact E1|]. split; [exact E2|].
    intros rest. unfold load_text. rewrite E3. reflexivity.
  Qed.
End Load.
