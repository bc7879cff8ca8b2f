(** The change of variables by the identity matrix changes no coefficient: it only
    adds monomials with coefficient zero. *)
From Coq Require Import ZArith List Bool Lia.
From Verif Require Import Base VecModel VecSpec VecProofs ToolsModel ToolsSpec ToolsProofs PolyProofs MatModel MatProofs DRModel DRSpec DRProofs NDSpec ChangeModel ChangeSpec SolveSpec.
Import ListNotations.
Open Scope Z_scope.

Definition phi (F : vec -> Z) (f : poly) : Z := sumf (fun t => snd t * F (fst t)) f.

Lemma phi_cons F t f : phi F (t :: f) = snd t * F (fst t) + phi F f.
Proof. reflexivity. Qed.
Lemma phi_vinsert n F f k c : (forall k' c', In (k', c') f -> length k' = n) -> length k = n ->
  phi F (vinsert k c f) + (match vfind k f with Some w => w | None => 0 end) * F k = phi F f + c * F k.
Proof.
  intros Hf Hk. induction f as [|[k' c'] f IH].
  - cbn. lia.
  - unfold vinsert, vfind in *. cbn [minsert mfind].
    destruct (vltb k k') eqn:E1; [|destruct (vltb k' k) eqn:E2]; rewrite ?phi_cons; cbn [fst snd].
    + lia.
    + assert (IH' := IH ltac:(intros; eapply Hf; simpl; eauto)). lia.
    + assert (k = k'). { eapply (vltb_total n); eauto. eapply Hf. left; reflexivity. }
      subst. lia.
Qed.
Lemma phi_vaccum n q F k c f : poly_ok n f -> length k = n -> cong q (phi F (vaccum (fun a b => (a + b) mod q) k c f)) (phi F f + c * F k).
Proof.
  intros [Hs _] Hk. unfold vaccum. assert (Hl : forall k' c', In (k', c') f -> length k' = n) by (intros; eapply vsorted_len; eauto).
  destruct (vfind k f) as [w|] eqn:E.
  - pose proof (phi_vinsert n F f k ((w + c) mod q) Hl Hk) as HH. rewrite E in HH.
    replace (phi F (vinsert k ((w + c) mod q) f)) with (phi F f + ((w + c) mod q - w) * F k) by lia. rewrite cong_mod. apply cong_of_eq. ring.
  - pose proof (phi_vinsert n F f k c Hl Hk) as HH. rewrite E in HH. apply cong_of_eq. lia.
Qed.
Lemma phi_padd n q F H : forall acc, poly_ok n acc -> (forall k c, In (k, c) H -> length k = n /\ nonneg k) ->
  cong q (phi F (padd_into q H acc)) (phi F acc + phi F H).
Proof.
  induction H as [|[k c] H IH]; intros acc Ha HH; cbn [padd_into fold_left fst snd].
  - apply cong_of_eq. unfold phi at 3. rewrite sumf_nil. lia.
  - destruct (HH k c (or_introl eq_refl)) as [H1 H2]. fold (padd_into q H (vaccum (fun a b => (a + b) mod q) k c acc)). rewrite IH.
    + rewrite (phi_vaccum n) by auto. rewrite phi_cons. cbn [fst snd]. apply cong_of_eq. ring.
    + now apply (vaccum_ok n q k c acc []).
    + intros k0 c0 I. apply (HH k0 c0). now right.
Qed.

Section Ident.
  Variables (q : Z) (n : nat).
  Notation row i := (cov_row n (nth i (ident n) [])).

  Lemma ident_row i : (i < n)%nat -> nth i (ident n) [] = map (fun j => if Nat.eqb i j then 1 else 0) (seq 0 n).
  Proof. intros H. unfold ident. rewrite (nth_indep _ [] (map (fun j => if Nat.eqb n j then 1 else 0) (seq 0 n))) by now rewrite map_length, seq_length.
    rewrite (map_nth (fun i => map (fun j => if Nat.eqb i j then 1 else 0) (seq 0 n))). now rewrite seq_nth. Qed.

  Lemma phi_row F i : (i < n)%nat -> phi F (row i) = F (unit_vec n i).
  Proof.
    intros Hi. rewrite ident_row by auto. set (r := map _ _). unfold cov_row.
    assert (G : forall k, (k <= n)%nat -> phi F (fold_left (fun m j => vinsert (unit_vec n j) (nth j r 0) m) (seq 0 k) []) =
      sumf (fun j => nth j r 0 * F (unit_vec n j)) (seq 0 k)).
    { induction k as [|k IH]; intros Hk; [reflexivity|]. rewrite seq_S, fold_left_app. cbn [fold_left Nat.add].
      destruct (cov_row_prefix n r k ltac:(lia)) as (I1 & I2 & _). cbv zeta in I1, I2. specialize (IH ltac:(lia)).
      match type of I1 with poly_ok _ ?mm => set (m := mm) in * end.
      pose proof (phi_vinsert n F m (unit_vec n k) (nth k r 0)) as HP. rewrite sumf_app, sumf_cons, sumf_nil, <- IH.
      destruct (vfind (unit_vec n k) m) as [w|] eqn:E.
      { apply (vfind_In n) in E; [|apply I1|apply unit_vec_length]. apply I2 in E. destruct E as (j & Hj & E & _). apply unit_vec_inj in E; lia. }
      assert (X := HP ltac:(intros; eapply vsorted_len; [apply I1|eauto]) (unit_vec_length n k)). lia. }
    rewrite G by auto. rewrite (sumf_ext _ (fun j => if Nat.eqb i j then F (unit_vec n i) else 0)).
    - rewrite (sumf_seq_single _ 0 n i); [now rewrite Nat.eqb_refl|lia|].
      intros j _ Hj. destruct (Nat.eqb_spec i j); congruence.
    - intros j Hj. apply in_seq in Hj. unfold r. rewrite (nth_indep _ 0 (if Nat.eqb i n then 1 else 0)) by (rewrite map_length, seq_length; lia).
      rewrite (map_nth (fun j => if Nat.eqb i j then 1 else 0)), seq_nth by lia. cbn [Nat.add]. destruct (Nat.eqb_spec i j); subst; lia.
  Qed.

  Lemma row_ok i : (i < n)%nat -> poly_ok n (row i).
  Proof. intros Hi. apply (cov_row_ok n _ (repeat 0 n)); [rewrite ident_row by auto; now rewrite map_length, seq_length|apply repeat_length]. Qed.

  Lemma phi_pmul F H i : (i < n)%nat -> poly_ok n H -> cong q (phi F (pmul q H (row i))) (phi (fun k => F (vadd k (unit_vec n i))) H).
  Proof.
    intros Hi HH. unfold pmul. rewrite pmul_into_padd. rewrite (phi_padd n).
    - unfold phi at 1. rewrite sumf_nil, Z.add_0_l. clear HH. induction H as [|[k c] H IH]; [apply cong_refl|]. cbn [flat_map]. unfold phi at 1. rewrite sumf_app.
      rewrite phi_cons. apply cong_add; [|exact IH]. cbn [fst snd]. rewrite sumf_map. cbn [fst snd].
      apply cong_trans with (c * phi (fun e => F (vadd k e)) (row i)).
      + unfold phi. rewrite <- sumf_scal. apply cong_sumf. intros t _. rewrite cong_mod. apply cong_of_eq. ring.
      + rewrite phi_row by auto. apply cong_refl.
    - split; [apply vsorted_nil|intros ? ? []].
    - intros k c I. apply in_flat_map in I. destruct I as ([k1 c1] & I1 & I). apply in_map_iff in I. destruct I as ([k2 c2] & E & I2).
      cbn [fst snd] in E. injection E as <- _. destruct (row_ok i Hi) as (R1 & R2). assert (L2 : length k2 = n) by (eapply vsorted_len; eauto).
      assert (L1 : length k1 = n) by (eapply vsorted_len; [apply HH|eauto]). split; [now apply vadd_length|]. apply nonneg_vadd; [exact (proj2 HH _ _ I1)|exact (R2 _ _ I2)].
  Qed.

  Fixpoint shift (k : nat) (i : nat) (e : vec) : vec := match k with O => e | S k => shift k i (vadd e (unit_vec n i)) end.

  Lemma phi_pow i k : (i < n)%nat -> forall F H, poly_ok n H -> cong q (phi F (cov_pow q k (row i) H)) (phi (fun e => F (shift k i e)) H).
  Proof.
    intros Hi. induction k as [|k IH]; intros F H HH; cbn [cov_pow shift]; [apply cong_refl|].
    rewrite IH by now apply pmul_ok; [|apply row_ok]. now rewrite phi_pmul.
  Qed.

  Definition shifts (e : vec) (k : nat) (z : vec) : vec := fold_left (fun z i => shift (Z.to_nat (nth i e 0)) i z) (rev (seq 0 k)) z.

  Lemma shift_nth k : forall i e j, (i < n)%nat -> length e = n -> length (shift k i e) = n /\ nth j (shift k i e) 0 = nth j e 0 + if Nat.eqb i j then Z.of_nat k else 0.
  Proof.
    induction k as [|k IH]; intros i e j Hi He; cbn [shift]; [split; auto; destruct (Nat.eqb i j); lia|].
    assert (L : length (vadd e (unit_vec n i)) = n). { apply vadd_length; auto. apply unit_vec_length. }
    destruct (IH i (vadd e (unit_vec n i)) j Hi L) as (E1 & E2). split; auto. rewrite E2.
    destruct (Nat.lt_ge_cases j n) as [Hj|Hj].
    - rewrite vadd_nth by (rewrite ?unit_vec_length; lia). rewrite unit_vec_nth by auto. destruct (Nat.eqb_spec i j); lia.
    - rewrite !nth_overflow by lia. destruct (Nat.eqb_spec i j); lia.
  Qed.

  Lemma phi_term e c : length e = n -> nonneg e -> forall F, cong q (phi F (cov_term q n (map (cov_row n) (ident n)) e c)) (c * F e).
  Proof.
    intros He Hn F. unfold cov_term.
    assert (LI : length (ident n) = n) by (unfold ident; now rewrite map_length, seq_length).
    assert (G : forall k, (k <= n)%nat ->
      let T := fold_left (fun H i => cov_pow q (Z.to_nat (nth i e 0)) (nth i (map (cov_row n) (ident n)) []) H) (seq 0 k) [(repeat 0 n, c)] in
      poly_ok n T /\ forall F, cong q (phi F T) (c * F (map (fun i => if Nat.ltb i k then nth i e 0 else 0) (seq 0 n)))).
    { clear F. induction k as [|k IH]; intros Hk; cbv zeta.
      - cbn [seq fold_left]. split.
        + split; [constructor; [apply repeat_length|constructor|intros ? ? []]|]. intros k c' [E|[]]. injection E as <- _. clear. unfold nonneg. induction n; constructor; auto; lia.
        + intros F. unfold phi. rewrite sumf_cons, sumf_nil. cbn [fst snd]. apply cong_of_eq. rewrite Z.add_0_r. do 2 f_equal.
          clear. change (fun i : nat => if (i <? 0)%nat then nth i e 0 else 0) with (fun _ : nat => 0). generalize 0%nat. induction n; intros a; cbn [repeat seq map]; [auto|]. now rewrite <- IHn0.
      - rewrite seq_S, fold_left_app. cbn [fold_left Nat.add]. destruct (IH ltac:(lia)) as (I1 & I2). clear IH.
        match type of I1 with poly_ok _ ?mm => set (T := mm) in * end.
        rewrite nth_poly_rows, LI. destruct (Nat.ltb_spec k n); [|lia]. split.
        + apply cov_pow_ok; [now apply row_ok|auto].
        + intros F. rewrite phi_pow by auto. rewrite I2. apply cong_of_eq. do 2 f_equal.
          set (z := map _ (seq 0 n)). assert (Lz : length z = n) by (unfold z; now rewrite map_length, seq_length).
          apply (nth_ext _ _ 0 0).
          { rewrite map_length, seq_length. now apply shift_nth. }
          intros j Hj. rewrite (proj1 (shift_nth (Z.to_nat (nth k e 0)) k z 0%nat H Lz)) in Hj.
          rewrite (proj2 (shift_nth (Z.to_nat (nth k e 0)) k z j H Lz)). unfold z.
          assert (NM : forall g : nat -> Z, nth j (map g (seq 0 n)) 0 = g j).
          { intros g. rewrite (nth_indep _ 0 (g n)) by (rewrite map_length, seq_length; lia). rewrite map_nth, seq_nth by lia. reflexivity. }
          rewrite !NM. pose proof (nonneg_nth e k Hn). destruct (Nat.ltb_spec j k), (Nat.ltb_spec j (S k)), (Nat.eqb_spec k j); subst; lia. }
    destruct (G n (le_n _)) as (_ & G2). cbv zeta in G2. rewrite G2. apply cong_of_eq. do 2 f_equal.
    apply (nth_ext _ _ 0 0); [now rewrite map_length, seq_length|]. intros j Hj. rewrite map_length, seq_length in Hj.
    assert (NM : forall g : nat -> Z, nth j (map g (seq 0 n)) 0 = g j).
    { intros g. rewrite (nth_indep _ 0 (g n)) by (rewrite map_length, seq_length; lia). rewrite map_nth, seq_nth by lia. reflexivity. }
    rewrite NM. destruct (Nat.ltb_spec j n); [auto|lia].
  Qed.

  Lemma phi_ident f g : (forall k c, In (k, c) f -> length k = n /\ nonneg k) -> change_of_variables q f (ident n) = OK g ->
    forall F, cong q (phi F g) (phi F f).
  Proof.
    intros Hf E F. assert (LI : length (ident n) = n) by (unfold ident; now rewrite map_length, seq_length).
    assert (HM : forall r, In r (ident n) -> length r = length (ident n)).
    { intros r Hr. rewrite LI. unfold ident in Hr. apply in_map_iff in Hr. destruct Hr as (i & <- & _). now rewrite map_length, seq_length. }
    unfold change_of_variables in E. destruct (negb _); [discriminate|]. destruct (negb _); [discriminate|]. injection E as <-. rewrite LI in *.
    assert (G : forall l acc, (forall k c, In (k, c) l -> length k = n /\ nonneg k) -> poly_ok n acc ->
      cong q (phi F (fold_left (fun acc t => padd_into q (cov_term q n (map (cov_row n) (ident n)) (fst t) (snd t)) acc) l acc)) (phi F acc + phi F l)).
    { induction l as [|[e c] l IH]; intros acc Hl Ha; cbn [fold_left fst snd].
      - apply cong_of_eq. unfold phi at 3. rewrite sumf_nil. lia.
      - destruct (Hl e c (or_introl eq_refl)) as [He1 He2].
        destruct (cov_term_ok q (ident n) e c (repeat 0 n)) as (T1 & _ & _); try rewrite LI; auto; [apply repeat_length|]. rewrite LI in T1.
        assert (HT : forall k c', In (k, c') (cov_term q n (map (cov_row n) (ident n)) e c) -> length k = n /\ nonneg k).
        { intros k c' I. split; [eapply vsorted_len; [apply T1|eauto]|eapply (proj2 T1); eauto]. }
        rewrite IH; [|intros; eapply Hl; right; eauto|now apply padd_into_ok].
        rewrite (phi_padd n) by auto. rewrite phi_term by auto. rewrite phi_cons. cbn [fst snd]. apply cong_of_eq. ring. }
    rewrite G; auto; [|split; [apply vsorted_nil|intros ? ? []]]. unfold phi at 1. rewrite sumf_nil. apply cong_refl.
  Qed.
End Ident.

(** smoothness, non-degeneracy and coefficients depend on the functionals only *)
Lemma phi_dx f i s t : coef_dx f i s t = phi (fun a => if list_eq_dec Z.eq_dec (eminus (eplus s a) i) t then nth i a 0 else 0) f.
Proof. unfold coef_dx, phi. apply sumf_ext. intros a _. destruct (list_eq_dec _ _ _); lia. Qed.
Lemma phi_xdx f i s t : coef_xdx f i s t = phi (fun a => if list_eq_dec Z.eq_dec (eplus s a) t then nth i a 0 else 0) f.
Proof. unfold coef_xdx, phi. apply sumf_ext. intros a _. destruct (list_eq_dec _ _ _); lia. Qed.
Lemma smooth_phi p n d f g l : (forall F, cong p (phi F f) (phi F g)) -> (forall G, in_jacobian p n d f l G) -> forall G, in_jacobian p n d g l G.
Proof.
  intros H S G. destruct (S G) as (h & Hh). exists h. intros t Ht. rewrite Hh by auto.
  apply cong_sumf. intros i _. apply cong_sumf. intros s _. apply cong_mul; [apply cong_refl|]. rewrite !phi_dx. apply H.
Qed.
Lemma nd_phi p n d f g : (forall F, cong p (phi F f) (phi F g)) -> non_degenerate p n d f -> non_degenerate p n d g.
Proof.
  intros H S G. destruct (S G) as (h & Hh). exists h. intros t Ht. rewrite Hh by auto.
  apply cong_sumf. intros i _. apply cong_sumf. intros s _. apply cong_mul; [apply cong_refl|]. rewrite !phi_xdx. apply H.
Qed.
Lemma phi_coef f e : coef f e = phi (fun a => if list_eq_dec Z.eq_dec a e then 1 else 0) f.
Proof. unfold coef, phi. apply sumf_ext. intros a _. destruct (list_eq_dec _ _ _); lia. Qed.
