(** Proofs: inclusion and final reduction matrices (C22). *)
From Coq Require Import ZArith List Lia Bool.
From Verif Require Import Base VecModel VecSpec VecProofs ToolsModel ToolsSpec ToolsProofs PolyProofs
  MatModel MatProofs DRModel DRSpec DRProofs DRRed DRStep.
Import ListNotations.
Open Scope Z_scope.

Lemma NoDup_concat_key {A} (key : A -> Z) is bs :
  Forall2 (fun i b => NoDup b /\ forall x, In x b -> key x = i) is bs -> NoDup is -> NoDup (concat bs).
Proof.
  induction 1 as [|i b is bs [H1 H2] HF IH]; intros N; cbn [concat]; [constructor|].
  inversion N as [|? ? N1 N2]; subst. apply NoDup_app_intro; auto.
  intros x Hx Hy. apply in_concat in Hy. destruct Hy as (b' & Hb' & Hx').
  apply N1. rewrite <- (H2 x Hx). clear - HF Hb' Hx'.
  induction HF as [|j c is bs [A1 A2] HF IH]; [destruct Hb'|]. destruct Hb' as [->|Hb'].
  - left. symmetry. auto.
  - right. auto.
Qed.

Lemma Forall2_impl {A B} (P Q : A -> B -> Prop) l1 l2 :
  (forall a b, In a l1 -> P a b -> Q a b) -> Forall2 P l1 l2 -> Forall2 Q l1 l2.
Proof.
  intros H F. induction F; constructor.
  - apply H; auto. now left.
  - apply IHF. intros; apply H; auto. now right.
Qed.

Lemma sumf_upd_weight (f : nat -> Z) n : sumf f (seq 0 n) = sumf (fun i => f i) (seq 0 n).
Proof. reflexivity. Qed.

Section INCL.
  Variables (slv : solver) (D : dR).
  Hypothesis inv : dr_inv slv D.
  Notation n := (r_n D).
  Notation d := (r_d D).
  Notation q := (r_q D).
  Notation E l := (enum (S n) (Z.to_nat l)).
  Notation LG := (E (degG D)).
  Notation LH := (E (degG D - 1)).
  Hypothesis Hn : (1 <= n)%nat.
  Variable u : vec.
  Hypothesis Hu : length u = S n.
  Hypothesis Hus : zsum u = Z.of_nat n.

  Let up (cg : nat * vec) : list (nat * nat * Z) :=
    if positive (vadd (snd cg) u) then [(pos n (Z.to_nat (degG D - 1)) (epred (vadd (snd cg) u)), fst cg, 1)] else [].

  Lemma incl_key gm : is_tuple (S n) (degG D) gm -> positive (vadd gm u) = true ->
    is_tuple (S n) (Z.of_nat (Z.to_nat (degG D - 1))) (epred (vadd gm u)).
  Proof.
    intros (G1 & G2 & G3) P. pose proof (inv_nd _ _ inv) as ND.
    assert (1 <= degG D) by (unfold degG; nia).
    assert (L : length (vadd gm u) = S n) by now apply vadd_length.
    split; [now rewrite epred_length|]. split.
    - apply nonneg_iff. rewrite epred_length. intros i Hi. rewrite epred_nth by auto.
      pose proof (proj1 (positive_iff _) P i Hi). lia.
    - rewrite epred_sum, L, zsum_vadd by congruence. lia.
  Qed.

  Lemma inclusion_ok : exists M, get_inclusion_matrix_J D u = OK M /\
    shape M (length LH) (length LG) /\
    forall (X : vec -> Z) c, (c < length LG)%nat ->
      sumf (fun r => mget M r c * X (nth r LH [])) (seq 0 (length LH)) =
      if positive (vadd (nth c LG []) u) then X (epred (vadd (nth c LG []) u)) else 0.
  Proof.
    pose proof (inv_nd _ _ inv) as ND.
    assert (HG : 1 <= degG D <= (Z.of_nat n + 1) * d) by (unfold degG; nia).
    unfold get_inclusion_matrix_J. rewrite sumf_nth_zsum by auto. rewrite Hus.
    unfold check at 1. rewrite Z.eqb_refl. cbn [bind].
    rewrite (inv_tl _ _ inv) by lia. cbn [bind]. rewrite (inv_td _ _ inv) by lia. cbn [bind].
    assert (HLH : forall t, In t LH -> length t = S n) by (intros; eapply enum_len; eauto).
    rewrite (tuple_index_length (S n) LH HLH (enum_NoDup _ _)).
    assert (Hc : forall c gm, In (c, gm) (combine (seq 0 (length LG)) LG) -> (c < length LG)%nat /\ is_tuple (S n) (degG D) gm /\ gm = nth c LG []).
    { intros c gm Hin. apply combine_seq_In in Hin. split.
      - apply nth_error_Some. rewrite Hin. discriminate.
      - split; [|symmetry; now apply nth_error_nth].
        apply nth_error_In in Hin. apply enum_tuple in Hin; auto. lia. }
    rewrite (mapM_total _ up).
    2:{ intros [c gm] Hin. cbn [fst snd]. destruct (Hc c gm Hin) as (C1 & C2 & _).
        rewrite vec_add_ok by (rewrite Hu; apply C2). cbn [bind]. rewrite dec_all_spec. unfold up. cbn [fst snd].
        destruct (positive (vadd gm u)) eqn:P; auto.
        rewrite (proj1 (pos_ok _ _ _ (incl_key gm C2 P))). reflexivity. }
    cbn [bind].
    assert (Hups : ups_ok (length LH) (length LG) (concat (map up (combine (seq 0 (length LG)) LG)))).
    { intros r c x Hin. apply in_concat in Hin. destruct Hin as (l0 & Hl0 & Hin).
      apply in_map_iff in Hl0. destruct Hl0 as ([c0 gm] & <- & Hcg).
      destruct (Hc c0 gm Hcg) as (C1 & C2 & _). unfold up in Hin. cbn [fst snd] in Hin.
      destruct (positive (vadd gm u)) eqn:P; [|destruct Hin]. destruct Hin as [Hin|[]]. injection Hin as <- <- <-.
      split; auto. apply (pos_ok _ _ _ (incl_key gm C2 P)). }
    unfold check. rewrite (proj2 (in_range_ok _ _ _) Hups). cbn [bind].
    eexists. split; [reflexivity|].
    set (ups := concat _) in *.
    assert (ND1 : NoDup (map fst ups)).
    { unfold ups.
      assert (NG : NoDup (map fst (combine (seq 0 (length LG)) LG))).
      { enough (G : forall (l : list vec) k, NoDup (map fst (combine (seq k (length l)) l))) by apply G.
        induction l as [|y l IH]; intros k; cbn; [constructor|]. constructor; auto.
        intros Hin. apply in_map_iff in Hin. destruct Hin as ([a b] & <- & Hin). apply in_combine_l in Hin.
        apply in_seq in Hin. cbn in Hin. lia. }
      clear - NG. induction (combine (seq 0 (length LG)) LG) as [|[c gm] L IH]; cbn [map concat]; [constructor|].
      cbn [map fst] in NG. inversion NG as [|? ? N1 N2]; subst. rewrite map_app. apply NoDup_app_intro; auto.
      - unfold up. cbn [fst snd]. destruct (positive _); repeat constructor; auto.
      - intros [r c'] H1 H2. apply N1.
        assert (c' = c).
        { unfold up in H1. cbn [fst snd] in H1. destruct (positive _); [|destruct H1]. destruct H1 as [H1|[]].
          injection H1 as _ <-. auto. }
        subst c'. apply in_map_iff in H2. destruct H2 as ([[r' c'] x] & H2 & H3). injection H2 as -> ->.
        apply in_concat in H3. destruct H3 as (l0 & H4 & H5). apply in_map_iff in H4. destruct H4 as ([c2 gm2] & <- & H4).
        unfold up in H5. cbn [fst snd] in H5. destruct (positive _); [|destruct H5]. destruct H5 as [H5|[]].
        injection H5 as _ <- _. apply in_map_iff. exists (c2, gm2). auto. }
    pose proof (fun w => mset_all_wsum ups (mzero (length LH) (length LG)) _ _ w (shape_mzero _ _) Hups ND1
      (fun _ _ _ _ => mget_mzero _ _ _ _)) as W.
    split; [apply (W (fun _ _ => 0))|].
    intros X c HcL. destruct (W (fun r c' => if Nat.eqb c' c then X (nth r LH []) else 0)) as [_ W2].
    rewrite wsum_mzero, Z.add_0_l in W2. unfold wsum in W2.
    transitivity (sumf (fun i => sumf (fun j => (if Nat.eqb j c then X (nth i LH []) else 0) * mget (mset_all ups (mzero (length LH) (length LG))) i j) (seq 0 (length LG))) (seq 0 (length LH))).
    { apply sumf_ext. intros r _. rewrite (sumf_seq_single _ 0 (length LG) c); [|lia|].
      - rewrite Nat.eqb_refl. ring.
      - intros k _ Hk. apply Nat.eqb_neq in Hk. rewrite Hk. ring. }
    rewrite W2. unfold ups. rewrite sumf_concat, sumf_map, (sumf_combine_seq _ LG []).
    rewrite (sumf_seq_single _ 0 (length LG) c); [|lia|].
    - unfold up. cbn [fst snd]. destruct (positive _) eqn:P; [|reflexivity].
      rewrite sumf_cons, sumf_nil. cbn [fst snd]. rewrite Nat.eqb_refl.
      assert (C2 : is_tuple (S n) (degG D) (nth c LG [])) by (apply enum_tuple; [lia|now apply nth_In]).
      destruct (pos_ok _ _ _ (incl_key _ C2 P)) as (_ & _ & E3). rewrite E3. ring.
    - intros k _ Hk. unfold up. cbn [fst snd]. destruct (positive _); [|reflexivity].
      rewrite sumf_cons, sumf_nil. cbn [fst snd]. apply Nat.eqb_neq in Hk. rewrite Hk. ring.
  Qed.

  Lemma inclusion_class phi G : length G = length LG -> exists M w, get_inclusion_matrix_J D u = OK M /\
    shape M (length LH) (length LG) /\ mat_vec q M G = OK w /\ length w = length LH /\
    cong q (ev_poly phi (Z.of_nat n) LH w) (ev phi (Z.of_nat n) u LG G).
  Proof.
    intros HG. destruct inclusion_ok as (M & E1 & E2 & E3).
    destruct (mat_vec_ok q M G (length LH)) as (w & W1 & W2 & W3); [now rewrite HG|].
    exists M, w. repeat (split; [auto|]); auto.
    unfold ev_poly, ev.
    transitivity (sumf (fun r => sumf (fun c => mget M r c * nth c G 0) (seq 0 (length LG)) * phi (Z.of_nat n) (nth r LH [])) (seq 0 (length LH))).
    { apply cong_sumf. intros r Hr. apply in_seq in Hr. rewrite W3 by apply Hr. rewrite HG, cong_mod. reflexivity. }
    apply cong_of_eq.
    transitivity (sumf (fun r => sumf (fun c => mget M r c * nth c G 0 * phi (Z.of_nat n) (nth r LH [])) (seq 0 (length LG))) (seq 0 (length LH))).
    { apply sumf_ext. intros. now rewrite sumf_scal_r. }
    rewrite sumf_swap. apply sumf_ext. intros c Hc. apply in_seq in Hc.
    pose proof (E3 (phi (Z.of_nat n)) c (proj2 Hc)) as E4.
    transitivity (nth c G 0 * sumf (fun r => mget M r c * phi (Z.of_nat n) (nth r LH [])) (seq 0 (length LH))).
    { rewrite <- sumf_scal. apply sumf_ext. intros. ring. }
    rewrite E4. f_equal. unfold phi_div. rewrite eplus_vadd.
    assert (Lc : length (nth c LG []) = S n) by (eapply enum_len; apply nth_In; apply Hc).
    rewrite (vadd_comm u) by congruence. reflexivity.
  Qed.
End INCL.

Section FINAL.
  Variables (slv : solver) (D : dR).
  Hypothesis inv : dr_inv slv D.
  Hypothesis Hslv : solver_ok (r_q D) slv.
  Notation n := (r_n D).
  Notation d := (r_d D).
  Notation q := (r_q D).
  Notation zn := (Z.of_nat (r_n D)).
  Notation E l := (enum (S n) (Z.to_nat l)).
  Notation bas := (r_basis D).
  Hypothesis Hq : 2 <= q.

  Definition lev (i : Z) : Z := (i + 1) * d - (zn + 1).

  Lemma lev_range i : 0 <= i < zn -> 0 <= lev i <= (zn + 1) * d.
  Proof. pose proof (inv_nd _ _ inv). unfold lev. nia. Qed.

  Lemma matrix_J_any l : 0 <= l <= (zn + 1) * d -> exists nc T, matrix_J D l = OK (nc, T) /\ shape T (length (E l)) nc.
  Proof.
    intros Hl. destruct (Z_lt_ge_dec l (d - 1)) as [H|H].
    - unfold matrix_J. rewrite (inv_tl _ _ inv) by lia. cbn [bind].
      replace (l <? d - 1) with true by (symmetry; apply Z.ltb_lt; lia).
      eexists _, _. split; [reflexivity|apply shape_mzero].
    - destruct (matrix_J_weighted slv D inv l) as (T & E1 & E2 & _); [lia|]. eauto.
  Qed.

  Lemma level_ok i b : 0 <= i < zn -> init_basis_level slv D (hilbert_J n d) i = OK b ->
    exists nc T B U, matrix_J D (lev i) = OK (nc, T) /\ shape T (length (E (lev i))) nc /\
      get_solve_J slv D (lev i) = OK (B, U) /\
      solves q (length (E (lev i))) nc (mget T) B (mget U) /\ shape U (nc + length B) (length (E (lev i))) /\
      b = map (fun k => nth k (E (lev i)) []) B.
  Proof.
    intros Hi H. unfold init_basis_level in H. fold (lev i) in H.
    apply bind_ok in H. destruct H as ([B U] & H1 & H). cbn [fst snd] in H.
    apply bind_ok in H. destruct H as (h & _ & H).
    apply bind_ok in H. destruct H as ([] & _ & H).
    rewrite (inv_tl _ _ inv) in H by now apply lev_range. cbn [bind] in H.
    destruct (matrix_J_any (lev i) (lev_range i Hi)) as (nc & T & M1 & M2).
    assert (H1' := H1). unfold get_solve_J in H1'. rewrite M1 in H1'. cbn [bind fst snd] in H1'.
    destruct (Hslv _ _ _ _ _ M2 H1') as [S1 S2].
    exists nc, T, B, U. repeat (split; [auto|]).
    destruct S1 as (S1a & S1b & _).
    rewrite (mapM_total _ (fun k => nth k (E (lev i)) [])) in H.
    - injection H as <-. reflexivity.
    - intros k Hk. apply get_at_ok. split; [lia|]. rewrite Nat2Z.id. apply nth_error_nth'. auto.
  Qed.

  Lemma basis_levels : exists bs, Forall2 (fun i b => init_basis_level slv D (hilbert_J n d) i = OK b) (zseq 0 zn) bs /\
    bas = concat bs.
  Proof. destruct (inv_basis _ _ inv) as (bs & H1 & H2). exists bs. split; auto. now apply mapM_ok. Qed.

  Lemma level_elem i B U nc T b : 0 <= i < zn ->
    solves q (length (E (lev i))) nc T B U ->
    In b (map (fun k => nth k (E (lev i)) []) B) -> is_tuple (S n) (lev i) b.
  Proof.
    intros Hi (_ & S2 & _) Hb. apply in_map_iff in Hb. destruct Hb as (k & <- & Hk).
    apply enum_tuple; [apply (lev_range i Hi)|]. apply nth_In. auto.
  Qed.

  Lemma basis_elem b : In b bas -> exists i, 0 <= i < zn /\ is_tuple (S n) (lev i) b.
  Proof.
    destruct basis_levels as (bs & F & ->). intros Hb. apply in_concat in Hb. destruct Hb as (l & Hl & Hb).
    assert (X : exists i, In i (zseq 0 zn) /\ init_basis_level slv D (hilbert_J n d) i = OK l).
    { clear Hb. induction F as [|i b0 is bs H F IH]; [destruct Hl|]. destruct Hl as [->|Hl].
      - exists i. split; auto. now left.
      - destruct (IH Hl) as (i' & I1 & I2). exists i'. split; auto. now right. }
    destruct X as (i & Hi & HX). apply zseq_In in Hi.
    destruct (level_ok i l Hi HX) as (nc & T & B & U & _ & _ & _ & S1 & _ & ->).
    exists i. split; auto. eapply level_elem; eauto.
  Qed.

  Lemma basis_len b : In b bas -> length b = S n.
  Proof. intros H. apply basis_elem in H. destruct H as (i & _ & (H & _)). auto. Qed.

  Lemma pole_lev i b : 0 <= i < zn -> is_tuple (S n) (lev i) b -> pole_of n d b = i + 1.
  Proof.
    intros Hi (_ & _ & H). unfold pole_of. rewrite H. unfold lev.
    pose proof (inv_nd _ _ inv).
    replace ((i + 1) * d - (zn + 1) + zn + 1) with ((i + 1) * d) by lia.
    apply Z.div_mul. lia.
  Qed.

  Lemma strict_inc_NoDup (B : list nat) :
    (forall i j, (i < j < length B)%nat -> (nth i B O < nth j B O)%nat) -> NoDup B.
  Proof.
    intros H. apply (NoDup_nth B O). intros i j Hi Hj Hij.
    destruct (Nat.lt_trichotomy i j) as [L|[L|L]]; auto; exfalso.
    - specialize (H i j ltac:(lia)). lia.
    - specialize (H j i ltac:(lia)). lia.
  Qed.

  Lemma basis_NoDup : NoDup bas.
  Proof.
    destruct basis_levels as (bs & F & ->).
    apply (NoDup_concat_key (fun b => pole_of n d b - 1) (zseq 0 zn)); [|apply zseq_NoDup].
    eapply Forall2_impl; [|exact F]. cbn beta. intros i b Hi H. apply zseq_In in Hi.
    destruct (level_ok i b Hi H) as (nc & T & B & U & _ & _ & _ & S1 & _ & ->).
    split.
    - apply NoDup_map_on.
      + apply strict_inc_NoDup. apply S1.
      + intros x y Hx Hy. apply enum_nth_inj; apply S1; auto.
    - intros x Hx. rewrite (pole_lev i); [lia|auto|]. eapply level_elem; eauto.
  Qed.

  Lemma bdict_ok b : In b bas -> exists j, dget (r_bdict D) b = OK j /\ (j < length bas)%nat /\ nth j bas [] = b.
  Proof.
    intros Hb. rewrite (inv_bdict _ _ inv).
    destruct (tuple_index_spec (S n) bas basis_len basis_NoDup) as [_ S2].
    destruct (In_nth bas b [] Hb) as (j & Hj & Ej).
    exists j. split; auto. unfold dget. specialize (S2 b (basis_len b Hb) j).
    rewrite (proj2 S2); auto. rewrite <- Ej. now apply nth_error_nth'.
  Qed.

  (** the data of the level of pole order i + 1 *)
  Lemma level_data i : 0 <= i < zn -> exists nc T B U, matrix_J D (lev i) = OK (nc, T) /\
      shape T (length (E (lev i))) nc /\ get_solve_J slv D (lev i) = OK (B, U) /\
      solves q (length (E (lev i))) nc (mget T) B (mget U) /\ shape U (nc + length B) (length (E (lev i))) /\
      forall k, In k B -> In (nth k (E (lev i)) []) bas.
  Proof.
    intros Hi. destruct basis_levels as (bs & F & Hb).
    destruct (Forall2_nth_error _ _ _ (Z.to_nat i) i F) as (b & Hb1 & Hb2).
    { unfold zseq. rewrite zrange_nth_error by lia. f_equal. lia. }
    destruct (level_ok i b Hi Hb2) as (nc & T & B & U & H1 & H2 & H3 & H4 & H5 & ->).
    exists nc, T, B, U. repeat (split; [auto|]). intros k Hk. rewrite Hb. apply in_concat.
    eexists. split; [eapply nth_error_In; exact Hb1|]. apply in_map_iff. eauto.
  Qed.

  (** functionals *)
  Variable phi : Z -> list Z -> Z.
  Variable psi : list Z -> Z.
  Hypothesis Hphi : GD q n d (r_f D) phi.
  Hypothesis Hpsi : basis_val q n d bas phi psi.

  Definition colval (M : mat) (c : nat) : Z :=
    sumf (fun b => mget M b c * psi (nth b bas [])) (seq 0 (length bas)).

  Lemma basis_phi i b : 0 <= i < zn -> is_tuple (S n) (lev i) b -> In b bas ->
    cong q (phi (i + 1) b) (zfact i * psi b).
  Proof.
    intros Hi Ht Hb. pose proof (Hpsi b Hb) as H. rewrite (pole_lev i b Hi Ht) in H.
    replace (i + 1 - 1) with i in H by lia. exact H.
  Qed.

  Lemma final_one_ok : (1 <= n)%nat -> let L := E (lev 0) in
    shape (final_one D L) (length bas) (length L) /\
    forall c, (c < length L)%nat -> cong q (colval (final_one D L) c) (phi 1 (nth c L [])).
  Proof.
    intros Hn L. assert (H0 : 0 <= 0 < zn) by lia.
    destruct (level_data 0 H0) as (nc & T & B & U & H1 & H2 & H3 & (H4 & H5 & H6) & H7 & H8). fold L in H5, H6, H8.
    assert (Hnc : nc = 0%nat).
    { unfold matrix_J in H1. rewrite (inv_tl _ _ inv) in H1 by now apply lev_range. cbn [bind] in H1.
      replace (lev 0 <? d - 1) with true in H1 by (symmetry; apply Z.ltb_lt; unfold lev; lia).
      injection H1 as <- _. reflexivity. }
    subst nc.
    assert (Hall : forall c, (c < length L)%nat -> In (nth c L []) bas).
    { intros c Hc. apply H8. specialize (H6 c c Hc Hc). cbn [seq] in H6. rewrite sumf_nil, Nat.eqb_refl in H6.
      destruct (in_dec Nat.eq_dec c B) as [|N]; auto. exfalso.
      rewrite (sumf_zero (fun k => if Nat.eqb (nth k B O) c then mget U (0 + k) c else 0)) in H6.
      - destruct H6 as [x H6]. assert (q * -x = 1) by lia.
        assert (q = 1 \/ q = -1) by (apply Z.eq_mul_1 with (-x); lia). lia.
      - intros k Hk. apply in_seq in Hk. destruct (Nat.eqb_spec (nth k B O) c) as [X|]; auto.
        exfalso. apply N. rewrite <- X. apply nth_In. lia. }
    split.
    - split; [unfold final_one; now rewrite map_length|]. apply Forall_forall. intros row Hrow.
      unfold final_one in Hrow. apply in_map_iff in Hrow. destruct Hrow as (b & <- & _). now rewrite map_length.
    - intros c Hc. pose proof (Hall c Hc) as Hin. destruct (In_nth bas _ [] Hin) as (j & Hj & Ej).
      unfold colval. rewrite (sumf_seq_single _ 0 (length bas) j); [|lia|].
      + unfold mget, final_one. rewrite (nth_map_lt _ _ _ _ []) by auto.
        rewrite (nth_map_lt _ _ _ _ []) by auto. rewrite Ej.
        destruct (list_eq_dec Z.eq_dec (nth c L []) (nth c L [])) as [_|N]; [|congruence].
        assert (Ht : is_tuple (S n) (lev 0) (nth c L [])).
        { apply enum_tuple; [apply (lev_range 0 H0)|]. now apply nth_In. }
        pose proof (basis_phi 0 _ H0 Ht Hin) as P. change (0 + 1) with 1 in P. rewrite P, zfact_0. reflexivity.
      + intros k Hk Hne. unfold mget, final_one. rewrite (nth_map_lt _ _ _ _ []) by lia.
        rewrite (nth_map_lt _ _ _ _ []) by auto.
        destruct (list_eq_dec Z.eq_dec (nth c L []) (nth k bas [])) as [X|]; [|lia].
        exfalso. apply Hne. apply (proj1 (NoDup_nth bas []) basis_NoDup); try lia. now rewrite <- X, Ej.
  Qed.

  (** one step of the recursion *)
  Section REC.
    Variable k : nat.
    Hypothesis Hk : (1 <= k)%nat.
    Hypothesis Hkn : (S k <= n)%nat.
    Notation zk := (Z.of_nat k).
    Notation LG := (E (lev zk)).
    Notation LF := (E (lev zk - (d - 1))).
    Notation LH := (E (lev zk - d)).
    Variable Mlow : mat.
    Hypothesis Mshape : shape Mlow (length bas) (length LH).
    Hypothesis Mval : forall c, (c < length LH)%nat -> cong q (colval Mlow c) (phi zk (nth c LH [])).
    Variables (nc : nat) (T : mat) (B : list nat) (U : mat).
    Hypothesis HT : matrix_J D (lev zk) = OK (nc, T).
    Hypothesis HS : solves q (length LG) nc (mget T) B (mget U).
    Hypothesis HU : shape U (nc + length B) (length LG).
    Hypothesis HB : forall b, In b B -> In (nth b LG []) bas.

    Lemma lev_k : d - 1 <= lev zk /\ 0 <= lev zk - d /\ lev zk <= (zn + 1) * d /\ lev zk - d = lev (zk - 1) /\
      lev zk - (d - 1) = d * zk - zn /\ 0 <= lev zk - (d - 1).
    Proof. pose proof (inv_nd _ _ inv). unfold lev. nia. Qed.

    Notation prs := (list_prod (seq 0 (S n)) (seq 0 (length LF))).

    Let hup (F : list Z) (ik : nat * nat) : list (nat * Z) :=
      let i := fst ik in let j := snd ik in let s := nth j LF [] in
      if 0 <? nth i s 0 then
        [(pos n (Z.to_nat (lev zk - d)) (eminus s i), (nth i s 0 * nth (i * length LF + j) F 0) mod q)] else [].

    Lemma LFt j : (j < length LF)%nat -> is_tuple (S n) (lev zk - (d - 1)) (nth j LF []).
    Proof. intros H. apply enum_tuple; [apply lev_k|]. now apply nth_In. Qed.

    Lemma hkey i j : (i <= n)%nat -> (j < length LF)%nat -> 0 < nth i (nth j LF []) 0 ->
      is_tuple (S n) (Z.of_nat (Z.to_nat (lev zk - d))) (eminus (nth j LF []) i).
    Proof.
      intros Hi Hj Hp. destruct lev_k as (L1 & L2 & L3 & L4 & L5 & L6).
      destruct (LFt j Hj) as (A1 & A2 & A3). split; [now rewrite eminus_length|]. split.
      - apply nonneg_iff. rewrite eminus_length. intros x Hx. rewrite eminus_nth by lia.
        pose proof (nonneg_nth _ x A2). destruct (Nat.eqb_spec i x); subst; lia.
      - rewrite eminus_sum by lia. lia.
    Qed.

    Lemma prs_in i j : In (i, j) prs <-> (i <= n)%nat /\ (j < length LF)%nat.
    Proof. rewrite in_prod_iff, !in_seq. lia. Qed.

    Lemma final_column_ok c : (c < length LG)%nat ->
      exists col, final_column D (Z.of_nat (S k)) Mlow LG LF LH (tuple_index LH) B U c = OK col /\
        length col = length bas /\
        cong q (sumf (fun b => nth b col 0 * psi (nth b bas [])) (seq 0 (length bas))) (phi (zk + 1) (nth c LG [])).
    Proof.
      intros Hc. destruct lev_k as (L1 & L2 & L3 & L4 & L5 & L6).
      destruct (matrix_J_weighted slv D inv (lev zk)) as (T' & W1 & W2 & W3); [lia|].
      rewrite HT in W1.
      assert (Enc : nc = (S n * length LF)%nat) by congruence. assert (ET : T' = T) by congruence. subst T'. clear W1.
      unfold final_column. set (F := map (fun row => nth c row 0) U).
      assert (HF : forall j, (j < nc + length B)%nat -> nth j F 0 = mget U j c).
      { intros j Hj. unfold F. rewrite (nth_map_lt _ _ _ _ []) by (destruct HU as [-> _]; lia). reflexivity. }
      assert (HFl : length F = (nc + length B)%nat) by (unfold F; rewrite map_length; apply HU).
      unfold check at 1. replace (Nat.leb (S n * length LF + length B) (length F)) with true.
      2:{ symmetry. apply Nat.leb_le. rewrite HFl, Enc. lia. }
      cbn [bind].
      rewrite (mapM_total _ (hup F)).
      2:{ intros [i j] Hij. apply prs_in in Hij. destruct Hij as [Hi Hj]. cbn [fst snd]. unfold hup. cbn [fst snd].
          destruct (Z.ltb_spec 0 (nth i (nth j LF []) 0)) as [Hp|]; auto.
          destruct (LFt j Hj) as (A1 & _). rewrite vec_diff_pos by (auto; lia). cbn [bind].
          rewrite (proj1 (pos_ok _ _ _ (hkey i j Hi Hj Hp))). reflexivity. }
      cbn [bind]. set (us := concat (map (hup F) prs)).
      assert (Hus : forall r x, In (r, x) us -> (r < length LH)%nat).
      { intros r x Hin. unfold us in Hin. apply in_concat in Hin. destruct Hin as (l0 & Hl0 & Hin).
        apply in_map_iff in Hl0. destruct Hl0 as ([i j] & <- & Hij). apply prs_in in Hij. destruct Hij as [Hi Hj].
        unfold hup in Hin. cbn [fst snd] in Hin. destruct (Z.ltb_spec 0 (nth i (nth j LF []) 0)) as [Hp|]; [|destruct Hin].
        destruct Hin as [Hin|[]]. injection Hin as <- _. apply (pos_ok _ _ _ (hkey i j Hi Hj Hp)). }
      unfold check at 1. replace (forallb _ us) with true.
      2:{ symmetry. apply forallb_forall. intros [r x] Hin. cbn [fst]. apply Nat.ltb_lt. eauto. }
      cbn [bind]. set (H := vadd_all q us (repeat 0 (length LH))).
      assert (HHl : length H = length LH) by (unfold H; now rewrite vadd_all_length, repeat_length).
      destruct (mat_vec_ok q Mlow H (length bas)) as (row & R1 & R2 & R3); [now rewrite HHl|].
      rewrite R1. cbn [bind].
      destruct HS as (S1 & S2 & S3).
      set (bpos := fun ib : nat * nat => match dget (r_bdict D) (nth (snd ib) LG []) with OK j => j | Err _ => O end).
      assert (HIB : forall i b, In (i, b) (combine (seq 0 (length B)) B) -> (i < length B)%nat /\ In b B /\ nth i B O = b).
      { intros i b Hin. apply combine_seq_In in Hin. split; [|split].
        - apply nth_error_Some. rewrite Hin. discriminate.
        - eapply nth_error_In; eauto.
        - now apply nth_error_nth. }
      assert (HBP : forall b, In b B -> dget (r_bdict D) (nth b LG []) = OK (bpos (0%nat, b)) /\
                 (bpos (0%nat, b) < length bas)%nat /\ nth (bpos (0%nat, b)) bas [] = nth b LG []).
      { intros b Hb. destruct (bdict_ok _ (HB b Hb)) as (j & J1 & J2 & J3). unfold bpos. cbn [snd]. rewrite J1. auto. }
      rewrite (mapM_total _ (fun ib => (bpos (0%nat, snd ib), (zfact (Z.of_nat (S k) - 1) * nth (S n * length LF + fst ib) F 0) mod q))).
      2:{ intros [i b] Hin. destruct (HIB i b Hin) as (_ & Hb & _). cbn [fst snd].
          replace (get_at LG (Z.of_nat b)) with (OK (nth b LG [])).
          - cbn [bind]. rewrite (proj1 (HBP b Hb)). reflexivity.
          - symmetry. apply get_at_ok. split; [lia|]. rewrite Nat2Z.id. apply nth_error_nth'. auto. }
      cbn [bind]. set (bs := map _ (combine (seq 0 (length B)) B)).
      assert (Hbs : forall i x, In (i, x) bs -> (i < length row)%nat).
      { intros i x Hin. unfold bs in Hin. apply in_map_iff in Hin. destruct Hin as ([i' b] & Hin & Hib).
        injection Hin as <- _. destruct (HIB i' b Hib) as (_ & Hb & _). rewrite R2. apply (HBP b Hb). }
      unfold check. replace (forallb _ bs) with true.
      2:{ symmetry. apply forallb_forall. intros [i x] Hin. cbn [fst]. apply Nat.ltb_lt. eauto. }
      cbn [bind]. eexists. split; [reflexivity|]. split; [now rewrite vadd_all_length|].
      (* value *)
      pose proof (vadd_all_wsum q bs row (fun b => psi (nth b bas [])) Hbs) as V. rewrite R2 in V.
      transitivity (sumf (fun i => psi (nth i bas []) * nth i (vadd_all q bs row) 0) (seq 0 (length bas))).
      { apply cong_of_eq, sumf_ext. intros. ring. }
      rewrite V. clear V.
      (* the low part *)
      assert (Low : cong q (sumf (fun i => psi (nth i bas []) * nth i row 0) (seq 0 (length bas)))
         (sumf (fun ij => nth (fst ij * length LF + snd ij) F 0 *
             (nth (fst ij) (nth (snd ij) LF []) 0 * phi zk (eminus (nth (snd ij) LF []) (fst ij)))) prs)).
      { transitivity (sumf (fun x => nth x H 0 * colval Mlow x) (seq 0 (length LH))).
        { transitivity (sumf (fun i => psi (nth i bas []) * sumf (fun j => mget Mlow i j * nth j H 0) (seq 0 (length LH))) (seq 0 (length bas))).
          - apply cong_sumf. intros i Hi. apply in_seq in Hi. rewrite R3 by lia. rewrite HHl, cong_mod. reflexivity.
          - apply cong_of_eq. transitivity (sumf (fun i => sumf (fun j => psi (nth i bas []) * (mget Mlow i j * nth j H 0)) (seq 0 (length LH))) (seq 0 (length bas))).
            + apply sumf_ext. intros. now rewrite sumf_scal.
            + rewrite sumf_swap. apply sumf_ext. intros x _. unfold colval. rewrite <- sumf_scal. apply sumf_ext. intros. ring. }
        transitivity (sumf (fun x => phi zk (nth x LH []) * nth x H 0) (seq 0 (length LH))).
        { apply cong_sumf. intros x Hx. apply in_seq in Hx. rewrite (Mval x (proj2 Hx)). apply cong_of_eq. ring. }
        assert (Hus' : forall i x, In (i, x) us -> (i < length (repeat 0%Z (length LH)))%nat) by (rewrite repeat_length; exact Hus).
        pose proof (vadd_all_wsum q us (repeat 0 (length LH)) (fun x => phi zk (nth x LH [])) Hus') as V.
        rewrite repeat_length in V. fold H in V. rewrite V. clear V.
        rewrite (sumf_zero (fun i => phi zk (nth i LH []) * nth i (repeat 0 (length LH)) 0)).
        2:{ intros i _. rewrite nth_repeat_any. destruct (Nat.ltb _ _); ring. }
        rewrite Z.add_0_l. unfold us. rewrite sumf_concat, sumf_map. apply cong_sumf. intros [i j] Hij.
        apply prs_in in Hij. destruct Hij as [Hi Hj]. unfold hup. cbn [fst snd].
        destruct (Z.ltb_spec 0 (nth i (nth j LF []) 0)) as [Hp|Hp].
        - rewrite sumf_cons, sumf_nil. cbn [fst snd].
          destruct (pos_ok _ _ _ (hkey i j Hi Hj Hp)) as (_ & _ & P3). rewrite P3, cong_mod. apply cong_of_eq. ring.
        - rewrite sumf_nil. destruct (LFt j Hj) as (_ & A2 & _). pose proof (nonneg_nth _ i A2).
          replace (nth i (nth j LF []) 0) with 0 by lia. apply cong_of_eq. ring. }
      rewrite Low. clear Low.
      (* the Griffiths-Dwork relation *)
      transitivity (sumf (fun ij => nth (fst ij * length LF + snd ij) F 0 *
           sumf (fun r => mget T r (fst ij * length LF + snd ij) * phi (zk + 1) (nth r LG [])) (seq 0 (length LG))) prs +
         sumf (fun b => nth (nc + b) F 0 * phi (zk + 1) (nth (nth b B O) LG [])) (seq 0 (length B))).
      { apply cong_add.
        - apply cong_sumf. intros [i j] Hij. apply prs_in in Hij. destruct Hij as [Hi Hj]. cbn [fst snd].
          rewrite (W3 (phi (zk + 1)) i j Hi Hj). apply cong_mul; [reflexivity|].
          assert (Ht : is_tuple (S n) (d * zk - zn) (nth j LF [])) by (rewrite <- L5; now apply LFt).
          pose proof (Hphi zk i (nth j LF []) Hi Ht) as R. rewrite <- R. apply cong_sumf. intros [a cc] Ha. cbn [fst snd].
          pose proof (inv_h _ _ inv _ _ Ha) as (_ & T2 & _). pose proof (nonneg_nth a i T2).
          destruct (Z.ltb_spec 0 (nth i a 0)).
          + rewrite cong_mod. reflexivity.
          + replace (nth i a 0) with 0 by lia. apply cong_of_eq. ring.
        - unfold bs. rewrite sumf_map. cbn [fst snd]. rewrite (sumf_combine_seq _ B O). cbn [fst snd].
          apply cong_sumf. intros b Hb. apply in_seq in Hb.
          assert (Hin : In (nth b B O) B) by (apply nth_In; lia).
          destruct (HBP _ Hin) as (_ & _ & P3). rewrite P3.
          assert (Hz : 0 <= zk < zn) by lia.
          pose proof (basis_phi zk (nth (nth b B O) LG []) Hz) as P.
          rewrite P; [| |now apply HB].
          + rewrite cong_mod. replace (Z.of_nat (S k) - 1) with zk by lia. rewrite Enc. apply cong_of_eq. ring.
          + apply enum_tuple; [clear - L1 L2 inv; pose proof (inv_nd _ _ inv); lia|]. apply nth_In. auto. }
      (* exchange and use T U = I *)
      transitivity (sumf (fun r => (sumf (fun x => mget T r x * mget U x c) (seq 0 nc) +
          sumf (fun b => if Nat.eqb (nth b B O) r then mget U (nc + b) c else 0) (seq 0 (length B))) * phi (zk + 1) (nth r LG [])) (seq 0 (length LG))).
      { apply cong_of_eq.
        transitivity (sumf (fun r => sumf (fun x => mget T r x * mget U x c) (seq 0 nc) * phi (zk + 1) (nth r LG [])) (seq 0 (length LG)) +
            sumf (fun r => sumf (fun b => if Nat.eqb (nth b B O) r then mget U (nc + b) c else 0) (seq 0 (length B)) * phi (zk + 1) (nth r LG [])) (seq 0 (length LG))).
        2:{ rewrite <- sumf_plus. apply sumf_ext. intros. ring. }
        f_equal.
        - transitivity (sumf (fun x => mget U x c * sumf (fun r => mget T r x * phi (zk + 1) (nth r LG [])) (seq 0 (length LG))) (seq 0 nc)).
          + rewrite Enc. rewrite (sumf_prod_seq (fun x => mget U x c * sumf (fun r => mget T r x * phi (zk + 1) (nth r LG [])) (seq 0 (length LG))) (S n) (length LF)).
            apply sumf_ext. intros [i j] Hij. apply prs_in in Hij. cbn [fst snd]. rewrite HF; [reflexivity|]. rewrite Enc. nia.
          + transitivity (sumf (fun x => sumf (fun r => mget T r x * mget U x c * phi (zk + 1) (nth r LG [])) (seq 0 (length LG))) (seq 0 nc)).
            * apply sumf_ext. intros. rewrite <- sumf_scal. apply sumf_ext. intros. ring.
            * rewrite sumf_swap. apply sumf_ext. intros. now rewrite sumf_scal_r.
        - transitivity (sumf (fun b => sumf (fun r => (if Nat.eqb (nth b B O) r then mget U (nc + b) c else 0) * phi (zk + 1) (nth r LG [])) (seq 0 (length LG))) (seq 0 (length B))).
          + apply sumf_ext. intros b Hb. apply in_seq in Hb. rewrite HF by lia.
            rewrite (sumf_seq_single _ 0 (length LG) (nth b B O)).
            * now rewrite Nat.eqb_refl.
            * split; [lia|]. apply S2. apply nth_In. lia.
            * intros r _ Hne. destruct (Nat.eqb_spec (nth b B O) r); [congruence|ring].
          + rewrite sumf_swap. apply sumf_ext. intros. now rewrite sumf_scal_r. }
      rewrite (cong_sumf q _ (fun r => (if Nat.eqb r c then 1 else 0) * phi (zk + 1) (nth r LG []))).
      2:{ intros r Hr. apply in_seq in Hr. rewrite (S3 r c (proj2 Hr) Hc). reflexivity. }
      rewrite (sumf_seq_single _ 0 (length LG) c); [|lia|].
      - rewrite Nat.eqb_refl, Z.mul_1_l. reflexivity.
      - intros r _ Hne. apply Nat.eqb_neq in Hne. rewrite Hne. ring.
    Qed.
  End REC.

  Lemma final_ok k : (1 <= k <= n)%nat -> let L := E (lev (Z.of_nat k - 1)) in
    exists M, final_reduction slv D k = OK M /\ shape M (length bas) (length L) /\
      forall c, (c < length L)%nat -> cong q (colval M c) (phi (Z.of_nat k) (nth c L [])).
  Proof.
    induction k as [|k IH]; intros Hk L; [lia|].
    assert (Ed : Z.of_nat (S k) * d - (zn + 1) = lev (Z.of_nat k)) by (unfold lev; lia).
    assert (EL : L = E (lev (Z.of_nat k))) by (unfold L; f_equal; f_equal; f_equal; lia).
    clearbody L. subst L.
    assert (Hz : 0 <= Z.of_nat k < zn) by lia.
    cbn [final_reduction]. rewrite Ed. rewrite (inv_tl _ _ inv) by now apply lev_range. cbn [bind].
    destruct k as [|k].
    - destruct (final_one_ok ltac:(lia)) as [F1 F2]. eexists. split; [reflexivity|]. split; auto.
    - specialize (IH ltac:(lia)). cbv zeta in IH. destruct IH as (Mlow & I1 & I2 & I3).
      rewrite I1. cbn [bind].
      assert (Hk1 : (1 <= S k)%nat) by lia. assert (Hk2 : (S (S k) <= n)%nat) by lia.
      destruct (lev_k (S k) Hk1 Hk2) as (L1 & L2 & L3 & L4 & L5 & L6).
      pose proof (inv_nd _ _ inv) as ND.
      rewrite (inv_tl _ _ inv) by lia. cbn [bind]. rewrite (inv_tl _ _ inv) by lia. cbn [bind].
      rewrite (inv_td _ _ inv) by lia. cbn [bind].
      destruct (level_data _ Hz) as (nc & T & B & U & D1 & D2 & D3 & D4 & D5 & D6).
      rewrite D3. cbn [bind fst snd].
      rewrite <- L4 in I2, I3.
      pose proof (fun c Hc => final_column_ok (S k) Hk1 Hk2 Mlow I2 I3 nc T B U D1 D4 D5 D6 c Hc) as FC.
      set (fc := final_column D (Z.of_nat (S (S k))) Mlow _ _ _ _ B U) in *.
      set (L := E (lev (Z.of_nat (S k)))) in *.
      assert (HM : exists cols, mapM fc (seq 0 (length L)) = OK cols /\ length cols = length L /\
        forall c, (c < length L)%nat -> length (nth c cols []) = length bas /\
          cong q (sumf (fun b => nth b (nth c cols []) 0 * psi (nth b bas [])) (seq 0 (length bas))) (phi (Z.of_nat (S k) + 1) (nth c L []))).
      { rewrite (mapM_total fc (fun c => match fc c with OK col => col | Err _ => [] end)).
        - eexists. split; [reflexivity|]. split; [now rewrite map_length, seq_length|].
          intros c Hc. rewrite (nth_map_lt _ _ _ _ O) by (now rewrite seq_length). rewrite seq_nth by auto. cbn [Nat.add].
          destruct (FC c Hc) as (col & C1 & C2 & C3). rewrite C1. auto.
        - intros c Hc. apply in_seq in Hc. destruct (FC c (proj2 Hc)) as (col & C1 & _). now rewrite C1. }
      destruct HM as (cols & M1 & M2 & M3). rewrite M1. cbn [bind].
      eexists. split; [reflexivity|]. split; [apply transpose_shape|].
      intros c Hc. destruct (M3 c Hc) as [M4 M5]. unfold colval.
      replace (Z.of_nat (S (S k))) with (Z.of_nat (S k) + 1) by lia. rewrite <- M5.
      apply cong_of_eq, sumf_ext. intros b Hb. apply in_seq in Hb. rewrite transpose_get by lia. reflexivity.
  Qed.

  Lemma final_class k H : 1 <= k <= zn -> let L := E (k * d - (zn + 1)) in length H = length L ->
    exists M w, get_final_reduction_matrix_J slv D k = OK M /\ shape M (length bas) (length L) /\
      mat_vec q M H = OK w /\ length w = length bas /\
      cong q (ev_basis psi bas w) (ev_poly phi k L H).
  Proof.
    intros Hk L HL. destruct (final_ok (Z.to_nat k)) as (M & F1 & F2 & F3); [lia|].
    assert (EL : E (lev (Z.of_nat (Z.to_nat k) - 1)) = L).
    { unfold L, lev. f_equal. f_equal. rewrite Z2Nat.id by lia. lia. }
    rewrite EL in F2, F3. rewrite Z2Nat.id in F3 by lia.
    destruct (mat_vec_ok q M H (length bas)) as (w & W1 & W2 & W3); [now rewrite HL|].
    exists M, w. split.
    { unfold get_final_reduction_matrix_J, check.
      replace (k <=? zn) with true by (symmetry; apply Z.leb_le; lia). cbn [bind].
      replace (0 <? k) with true by (symmetry; apply Z.ltb_lt; lia). exact F1. }
    split; auto. split; auto. split; auto. unfold ev_basis, ev_poly.
    transitivity (sumf (fun i => sumf (fun j => mget M i j * nth j H 0) (seq 0 (length L)) * psi (nth i bas [])) (seq 0 (length bas))).
    { apply cong_sumf. intros i Hi. apply in_seq in Hi. rewrite W3 by lia. rewrite HL, cong_mod. reflexivity. }
    transitivity (sumf (fun j => nth j H 0 * colval M j) (seq 0 (length L))).
    { apply cong_of_eq. transitivity (sumf (fun i => sumf (fun j => mget M i j * nth j H 0 * psi (nth i bas [])) (seq 0 (length L))) (seq 0 (length bas))).
      - apply sumf_ext. intros. now rewrite sumf_scal_r.
      - rewrite sumf_swap. apply sumf_ext. intros j _. unfold colval. rewrite <- sumf_scal. apply sumf_ext. intros. ring. }
    apply cong_sumf. intros j Hj. apply in_seq in Hj. rewrite (F3 j (proj2 Hj)). reflexivity.
  Qed.
End FINAL.
