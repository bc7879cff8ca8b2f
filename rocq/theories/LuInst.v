(** A textbook LU decomposition, row echelon form and inverse over F_p meeting
    the specification of SolveSpec.v: the hypotheses made there about FLINT and
    NTL can be satisfied.  Not a model of code in /repo (nmod_mat_lu and gauss
    are library functions); it follows the classical algorithm documented for
    nmod_mat_lu_classical. *)
From Coq Require Import ZArith List Bool Lia Znumtheory Permutation.
From Verif Require Import Base VecModel ToolsModel MatModel MatProofs DRModel MpzSpec MpzProofs LinAlg SolveModel SolveSpec SolveProofs.
Import ListNotations.
Open Scope Z_scope.

Definition zinv (p x : Z) : Z :=
  match find (fun y => (x * y) mod p =? 1) (map Z.of_nat (seq 0 (Z.to_nat p))) with Some y => y | None => 0 end.
Definition swp (r i0 i : nat) : nat := if Nat.eqb i r then i0 else if Nat.eqb i i0 then r else i.
Definition lu_step (p : Z) (m n : nat) (st : nat * mat * list nat) (col : nat) : nat * mat * list nat :=
  let '(r, M, P) := st in
  match find (fun i => negb (mget M i col =? 0)) (seq r (m - r)) with
  | None => (r, M, P)
  | Some i0 =>
      let d := zinv p (mget M i0 col) in
      (S r, tab m n (fun i j =>
         if Nat.leb i r then mget M (swp r i0 i) j
         else let e := (mget M (swp r i0 i) col * d) mod p in
              if Nat.eqb j r then e
              else if Nat.eqb j col then 0
              else if Nat.ltb col j then (mget M (swp r i0 i) j - e * mget M i0 j) mod p
              else mget M (swp r i0 i) j),
       map (fun i => nth (swp r i0 i) P O) (seq 0 m))
  end.
Definition lu_inst : ech_fun := fun p m n A =>
  let '(r, M, _) := fold_left (lu_step p m n) (seq 0 n) (O, A, seq 0 m) in (r, M).

Lemma zinv_ok p x : prime p -> 0 <= x < p -> x <> 0 -> cong p (x * zinv p x) 1.
Proof.
  intros Pp Hx Nx. pose proof (prime_ge_2 p Pp) as P2. unfold zinv.
  destruct (find _ _) as [y|] eqn:F.
  - apply find_some in F. destruct F as [_ F]. apply Z.eqb_eq in F. apply cong_iff_mod; [lia|]. rewrite F. symmetry. apply Z.mod_small. lia.
  - exfalso. destruct (prime_inv p x Pp) as (e & He).
    { intros C. rewrite cong_0 in C. apply Z.divide_pos_le in C; lia. }
    assert (B : 0 <= e mod p < p) by (apply Z.mod_pos_bound; lia).
    assert (In (e mod p) (map Z.of_nat (seq 0 (Z.to_nat p)))) as Hin.
    { apply in_map_iff. exists (Z.to_nat (e mod p)). split; [lia|]. apply in_seq. lia. }
    apply (find_none _ _ F) in Hin. apply Z.eqb_neq in Hin. apply Hin.
    rewrite Z.mul_mod_idemp_r by lia. apply cong_iff_mod in He; [|lia]. rewrite He. apply Z.mod_small. lia.
Qed.

Definition Lf (M : mat) (i a : nat) : Z := if Nat.ltb a i then mget M i a else if Nat.eqb a i then 1 else 0.
Definition Uf (M : mat) (a j : nat) : Z := if Nat.leb a j then mget M a j else 0.

Definition lu_inv (p : Z) (m n : nat) (A : mat) (col : nat) (st : nat * mat * list nat) : Prop :=
  let '(r, M, P) := st in
  shape M m n /\ mreduced p M /\ (r <= m)%nat /\ (r <= col)%nat /\ Permutation P (seq 0 m) /\
  (exists c, length c = r /\ (forall i j, (i < j < r)%nat -> (nth i c O < nth j c O)%nat) /\
     (forall i, (i < r)%nat -> (nth i c O < col)%nat) /\ (forall i, (i < r)%nat -> mget M i (nth i c O) <> 0) /\
     (forall i j, (i < r)%nat -> (i <= j < nth i c O)%nat -> mget M i j = 0)) /\
  (forall i j, (r <= i < m)%nat -> (r <= j < col)%nat -> mget M i j = 0) /\
  (forall i j, (i < m)%nat -> (j < n)%nat ->
     cong p (mget A (nth i P O) j)
            (mm r (Lf M) (Uf M) i j + (if Nat.leb r i && Nat.leb col j then mget M i j else 0))).

Lemma swp_lt r i0 i m : (r <= i0 < m)%nat -> (i < m)%nat -> (swp r i0 i < m)%nat.
Proof. intros. unfold swp. destruct (Nat.eqb_spec i r), (Nat.eqb_spec i i0); lia. Qed.
Lemma swp_low r i0 i : (r <= i0)%nat -> (i < r)%nat -> swp r i0 i = i.
Proof. intros. unfold swp. destruct (Nat.eqb_spec i r), (Nat.eqb_spec i i0); lia. Qed.
Lemma swp_high r i0 i : (r <= i0)%nat -> (r <= i)%nat -> (r <= swp r i0 i)%nat.
Proof. intros. unfold swp. destruct (Nat.eqb_spec i r), (Nat.eqb_spec i i0); lia. Qed.
Lemma swp_inv r i0 i : swp r i0 (swp r i0 i) = i.
Proof.
  unfold swp. destruct (Nat.eqb_spec i r); [destruct (Nat.eqb_spec i0 r); [lia|rewrite Nat.eqb_refl; lia]|].
  destruct (Nat.eqb_spec i i0); [rewrite Nat.eqb_refl; lia|]. destruct (Nat.eqb_spec i r); [lia|]. destruct (Nat.eqb_spec i i0); lia.
Qed.

Lemma lu_step_inv p m n A col st : prime p -> (col < n)%nat -> lu_inv p m n A col st ->
  lu_inv p m n A (S col) (lu_step p m n st col).
Proof.
  intros Pp Hcol. destruct st as [[r M] P]. unfold lu_step. intros (HS & HR & Hrm & Hrc & HP & (c & C1 & C2 & C3 & C4 & C5) & HZ & HA).
  pose proof (prime_ge_2 p Pp) as P2.
  destruct (find _ _) as [i0|] eqn:F.
  - apply find_some in F. destruct F as [F1 F2]. apply in_seq in F1. rewrite negb_true_iff, Z.eqb_neq in F2.
    assert (Hi0 : (r <= i0 < m)%nat) by lia. clear F1.
    set (d := zinv p (mget M i0 col)). set (sw := swp r i0).
    assert (Hd : cong p (mget M i0 col * d) 1).
    { apply zinv_ok; auto. eapply mreduced_get; eauto. lia. }
    set (F := fun i j => _). set (M2 := tab m n F).
    assert (G : forall i j, (i < m)%nat -> (j < n)%nat -> mget M2 i j = F i j) by (intros; now apply tab_get).
    assert (swlt : forall i, (i < m)%nat -> (sw i < m)%nat) by (intros; now apply swp_lt).
    assert (Grow : forall i j, (i < r)%nat -> (j < n)%nat -> mget M2 i j = mget M i j).
    { intros i j Hi Hj. rewrite G by lia. unfold F. destruct (Nat.leb_spec i r); [|lia]. unfold sw. now rewrite swp_low by lia. }
    assert (Gr : forall j, (j < n)%nat -> mget M2 r j = mget M i0 j).
    { intros j Hj. rewrite G by lia. unfold F. destruct (Nat.leb_spec r r); [|lia]. unfold sw, swp. now rewrite Nat.eqb_refl. }
    assert (Ghi : forall i j, (r < i < m)%nat -> (j < n)%nat -> mget M2 i j =
      let e := (mget M (sw i) col * d) mod p in
      if Nat.eqb j r then e else if Nat.eqb j col then 0
      else if Nat.ltb col j then (mget M (sw i) j - e * mget M i0 j) mod p else mget M (sw i) j).
    { intros i j Hi Hj. rewrite G by lia. unfold F. destruct (Nat.leb_spec i r); [lia|]. reflexivity. }
    assert (swhi : forall i, (r <= i)%nat -> (r <= sw i)%nat) by (intros; apply swp_high; lia).
    split; [apply tab_shape|]. split.
    { apply mreduced_tab. intros i j Hi Hj. unfold F. destruct (Nat.leb_spec i r).
      - eapply mreduced_get; eauto.
      - cbv zeta. destruct (Nat.eqb j r); [apply Z.mod_pos_bound; lia|]. destruct (Nat.eqb j col); [lia|].
        destruct (Nat.ltb col j); [apply Z.mod_pos_bound; lia|]. eapply mreduced_get; eauto. }
    split; [lia|]. split; [lia|]. split.
    { assert (LP : length P = m) by (rewrite (Permutation_length HP); apply seq_length).
      transitivity P; [|exact HP]. apply NoDup_Permutation.
      - apply DRProofs.NoDup_map_on; [apply seq_NoDup|]. intros x y Hx Hy E. apply in_seq in Hx, Hy.
        assert (ND : NoDup P) by (eapply Permutation_NoDup; [symmetry; exact HP|apply seq_NoDup]).
        apply (proj1 (NoDup_nth P O) ND) in E; try (rewrite LP; apply swlt; lia).
        unfold sw in E. rewrite <- (swp_inv r i0 x), <- (swp_inv r i0 y). now rewrite E.
      - eapply Permutation_NoDup; [symmetry; exact HP|apply seq_NoDup].
      - intros x. rewrite in_map_iff. split.
        + intros (i & <- & Hi). apply in_seq in Hi. apply nth_In. rewrite LP. apply swlt. lia.
        + intros Hx. destruct (In_nth _ _ O Hx) as (i & Li & <-). exists (sw i). unfold sw. rewrite swp_inv. split; auto.
          apply in_seq. split; [lia|]. apply swlt. lia. }
    split.
    { exists (c ++ [col]). split; [rewrite app_length; cbn; lia|]. 
      assert (N1 : forall i, (i < r)%nat -> nth i (c ++ [col]) O = nth i c O) by (intros; apply app_nth1; lia).
      assert (N2 : nth r (c ++ [col]) O = col) by (rewrite app_nth2, C1, Nat.sub_diag by lia; reflexivity).
      split; [|split; [|split]].
      - intros i j Hij. destruct (Nat.eq_dec j r) as [->|N].
        + rewrite N2, N1 by lia. apply C3. lia.
        + rewrite !N1 by lia. apply C2. lia.
      - intros i Hi. destruct (Nat.eq_dec i r) as [->|N]; [rewrite N2; lia|]. rewrite N1 by lia. specialize (C3 i ltac:(lia)). lia.
      - intros i Hi. destruct (Nat.eq_dec i r) as [->|N]; [rewrite N2, Gr by lia; auto|]. rewrite N1 by lia.
        specialize (C3 i ltac:(lia)). rewrite Grow by lia. apply C4. lia.
      - intros i j Hi Hj. destruct (Nat.eq_dec i r) as [->|N].
        + rewrite N2 in Hj. rewrite Gr by lia. apply HZ; lia.
        + rewrite N1 in Hj by lia. specialize (C3 i ltac:(lia)). rewrite Grow by lia. apply C5; lia. }
    split.
    { intros i j Hi Hj. rewrite Ghi by lia. cbv zeta. destruct (Nat.eqb_spec j r); [lia|]. destruct (Nat.eqb_spec j col); auto.
      destruct (Nat.ltb_spec col j); [lia|]. apply HZ; [|lia]. specialize (swhi i ltac:(lia)). specialize (swlt i ltac:(lia)). lia. }
    intros i j Hi Hj.
    assert (EP : nth i (map (fun i => nth (sw i) P O) (seq 0 m)) O = nth (sw i) P O).
    { rewrite nth_indep with (d' := nth (sw O) P O) by (rewrite map_length, seq_length; auto).
      rewrite (map_nth (fun i => nth (sw i) P O)). now rewrite seq_nth by auto. }
    fold sw. rewrite EP. eapply cong_trans; [apply HA; auto|].
    (* the sum over the previous pivots *)
    assert (Lsum : mm (S r) (Lf M2) (Uf M2) i j = mm r (Lf M) (Uf M) (sw i) j + Lf M2 i r * Uf M2 r j).
    { unfold mm. rewrite seq_S, sumf_app, sumf_cons, sumf_nil, Nat.add_0_l, Z.add_0_r. f_equal. apply sumf_ext. intros a Ha. apply in_seq in Ha.
      f_equal.
      - unfold Lf. destruct (Nat.lt_ge_cases i r) as [Li|Li].
        + unfold sw. rewrite swp_low by lia. destruct (Nat.ltb_spec a i); auto. rewrite Grow by lia. reflexivity.
        + specialize (swhi i Li). destruct (Nat.ltb_spec a i); [|lia]. destruct (Nat.ltb_spec a (sw i)); [|lia].
          destruct (Nat.eq_dec i r) as [->|N].
          * rewrite Gr by lia. unfold sw, swp. now rewrite Nat.eqb_refl.
          * rewrite Ghi by lia. cbv zeta. destruct (Nat.eqb_spec a r); [lia|]. destruct (Nat.eqb_spec a col); [lia|].
            destruct (Nat.ltb_spec col a); [lia|]. reflexivity.
      - unfold Uf. destruct (Nat.leb_spec a j); auto. now rewrite Grow by lia. }
    rewrite Lsum. rewrite <- Z.add_assoc. apply cong_add; [apply cong_refl|].
    assert (Ur : Uf M2 r j = if Nat.leb col j then mget M i0 j else 0).
    { unfold Uf. destruct (Nat.leb_spec r j), (Nat.leb_spec col j); try lia; auto. rewrite Gr by auto. apply HZ; lia. }
    rewrite Ur. unfold Lf. destruct (Nat.lt_trichotomy i r) as [Li|[Li|Li]].
    + unfold sw. rewrite swp_low by lia. destruct (Nat.leb_spec r i); [lia|]. destruct (Nat.leb_spec (S r) i); [lia|].
      destruct (Nat.ltb_spec r i); [lia|]. destruct (Nat.eqb_spec r i); [lia|]. cbn [andb]. apply cong_of_eq. ring.
    + subst i. unfold sw, swp. rewrite Nat.eqb_refl, Nat.ltb_irrefl. destruct (Nat.leb_spec (S r) r); [lia|].
      destruct (Nat.leb_spec r i0); [|lia]. cbn [andb]. apply cong_of_eq. ring.
    + specialize (swhi i ltac:(lia)). destruct (Nat.leb_spec r (sw i)); [|lia]. destruct (Nat.ltb_spec r i); [|lia].
      destruct (Nat.leb_spec (S r) i); [|lia]. cbn [andb].
      rewrite (Ghi i r) by lia. cbv zeta. rewrite Nat.eqb_refl. set (e := (mget M (sw i) col * d) mod p).
      assert (He : cong p e (mget M (sw i) col * d)) by apply cong_mod_any.
      destruct (Nat.leb_spec col j).
      * destruct (Nat.leb_spec (S col) j).
        -- rewrite Ghi by lia. cbv zeta. destruct (Nat.eqb_spec j r); [lia|]. destruct (Nat.eqb_spec j col); [lia|].
           destruct (Nat.ltb_spec col j); [|lia]. fold e. apply cong_sym.
           eapply cong_trans; [apply cong_add; [apply cong_refl|apply cong_mod_any]|]. apply cong_of_eq. ring.
        -- assert (j = col) by lia. subst j. rewrite Z.add_0_r. apply cong_sym.
           eapply cong_trans; [apply cong_mul; [exact He|apply cong_refl]|].
           replace (mget M (sw i) col * d * mget M i0 col) with (mget M (sw i) col * (mget M i0 col * d)) by ring.
           eapply cong_trans; [apply cong_mul; [apply cong_refl|exact Hd]|]. apply cong_of_eq. ring.
      * destruct (Nat.leb_spec (S col) j); [lia|]. apply cong_of_eq. ring.
  - split; [exact HS|]. split; [exact HR|]. split; [lia|]. split; [lia|]. split; [exact HP|]. split.
    { exists c. repeat split; auto. intros i Hi. specialize (C3 i Hi). lia. }
    assert (Zc : forall i, (r <= i < m)%nat -> mget M i col = 0).
    { intros i Hi. apply (find_none _ _ F i) in F || idtac.
      assert (Hin : In i (seq r (m - r))) by (apply in_seq; lia). pose proof (find_none _ _ F i Hin) as X. cbn in X.
      apply negb_false_iff, Z.eqb_eq in X. exact X. }
    split.
    { intros i j Hi Hj. destruct (Nat.eq_dec j col) as [->|]; [auto|]. apply HZ; lia. }
    intros i j Hi Hj. eapply cong_trans; [apply HA; auto|]. apply cong_add; [apply cong_refl|].
    destruct (Nat.leb_spec r i); cbn [andb]; [|apply cong_refl].
    destruct (Nat.leb_spec col j), (Nat.leb_spec (S col) j); try lia; try apply cong_refl.
    replace j with col by lia. rewrite Zc by lia. apply cong_refl.
Qed.

Lemma lu_inst_ok p m n A : prime p -> shape A m n -> mreduced p A ->
  lu_result p m n A (fst (lu_inst p m n A)) (snd (lu_inst p m n A)).
Proof.
  intros Pp HS HR. pose proof (prime_ge_2 p Pp) as P2.
  assert (G : forall k, (k <= n)%nat -> lu_inv p m n A k (fold_left (lu_step p m n) (seq 0 k) (O, A, seq 0 m))).
  { induction k as [|k IH]; intros Hk.
    - cbn [seq fold_left]. unfold lu_inv. split; [exact HS|]. split; [exact HR|]. split; [lia|]. split; [lia|]. split; [reflexivity|]. split.
      { exists []. repeat split; intros; lia. }
      split; [intros; lia|]. intros i j Hi Hj. rewrite seq_nth by auto. cbn [Nat.leb andb Nat.add]. unfold mm. cbn [seq]. rewrite sumf_nil. apply cong_refl.
    - rewrite seq_S, fold_left_app, Nat.add_0_l. cbn [fold_left]. apply lu_step_inv; auto. apply IH. lia. }
  specialize (G n ltac:(lia)). unfold lu_inst. destruct (fold_left _ _ _) as [[r M] P]. cbn [fst snd].
  destruct G as (G1 & G2 & G3 & G4 & G5 & (c & C1 & C2 & C3 & C4 & C5) & G6 & G7).
  split; [exact G1|]. split; [exact G2|]. split; [exact G3|]. exists P, c. split; [exact G5|]. cbv zeta. split; [|split].
  - split; [exact C1|]. split; [exact C2|]. split; [exact C3|]. split.
    + intros i Hi. pose proof (incr_ge c r C2 i Hi). destruct (Nat.leb_spec i (nth i c O)); [|lia].
      intros X. rewrite cong_0 in X. specialize (C4 i Hi). specialize (C3 i Hi).
      pose proof (mreduced_get p M m n i (nth i c O) G1 G2 ltac:(lia) C3). apply Z.divide_pos_le in X; lia.
    + intros i j Hi Hj. destruct (Nat.leb_spec i j); auto.
  - exact G6.
  - intros i j Hi Hj. eapply cong_trans; [apply G7; auto|]. destruct (Nat.leb_spec n j); [lia|]. rewrite andb_false_r, Z.add_0_r. apply cong_refl.
Qed.

(** inverse by search, column by column *)
Fixpoint all_vecs (p : Z) (m : nat) : list (list Z) :=
  match m with
  | O => [[]]
  | S m => flat_map (fun v => map (fun x => x :: v) (map Z.of_nat (seq 0 (Z.to_nat p)))) (all_vecs p m)
  end.
Definition inv_col (p : Z) (m : nat) (Y : mat) (j : nat) : list Z :=
  match find (fun x => forallb (fun i => (sumf (fun a => mget Y i a * nth a x 0) (seq 0 m) - delta i j) mod p =? 0) (seq 0 m)) (all_vecs p m) with
  | Some x => x | None => [] end.
Definition inv_inst : inv_fun := fun p m Y =>
  let cols := map (inv_col p m Y) (seq 0 m) in tab m m (fun i j => nth i (nth j cols []) 0).

Lemma all_vecs_In p m v : 0 < p -> In v (all_vecs p m) <-> length v = m /\ Forall (fun x => 0 <= x < p) v.
Proof.
  intros Hp. revert v. induction m as [|m IH]; intros v; cbn [all_vecs].
  - split.
    + intros [<-|[]]. split; auto.
    + intros [L _]. left. destruct v; [auto|discriminate].
  - rewrite in_flat_map. split.
    + intros (w & Hw & Hv). apply IH in Hw. apply in_map_iff in Hv. destruct Hv as (x & <- & Hx).
      apply in_map_iff in Hx. destruct Hx as (k & <- & Hk). apply in_seq in Hk. split; [cbn; f_equal; tauto|]. constructor; [lia|tauto].
    + intros [L F]. destruct v as [|x v]; [discriminate|]. inversion F; subst. exists v. split; [apply IH; auto|].
      apply in_map_iff. exists x. split; auto. apply in_map_iff. exists (Z.to_nat x). split; [lia|]. apply in_seq. lia.
Qed.

Lemma inv_inst_ok p : prime p -> inv_spec p inv_inst.
Proof.
  intros Pp m Y HS HR (W & HW). pose proof (prime_ge_2 p Pp) as P2.
  assert (C : forall j, (j < m)%nat -> length (inv_col p m Y j) = m /\ Forall (fun x => 0 <= x < p) (inv_col p m Y j) /\
    forall i, (i < m)%nat -> cong p (sumf (fun a => mget Y i a * nth a (inv_col p m Y j) 0) (seq 0 m)) (delta i j)).
  { intros j Hj. unfold inv_col. destruct (find _ _) as [x|] eqn:F.
    - apply find_some in F. destruct F as [F1 F2]. apply all_vecs_In in F1; [|lia]. split; [tauto|]. split; [tauto|].
      intros i Hi. rewrite forallb_forall in F2. specialize (F2 i ltac:(apply in_seq; lia)). apply Z.eqb_eq in F2.
      apply Z.mod_divide; [lia|exact F2].
    - exfalso. set (x := map (fun a => W a j mod p) (seq 0 m)).
      assert (Nx : forall a, (a < m)%nat -> nth a x 0 = W a j mod p).
      { intros a Ha. unfold x. rewrite nth_indep with (d' := W O j mod p) by (rewrite map_length, seq_length; auto).
        rewrite (map_nth (fun a => W a j mod p)). now rewrite seq_nth by auto. }
      assert (Hin : In x (all_vecs p m)).
      { apply all_vecs_In; [lia|]. unfold x. rewrite map_length, seq_length. split; auto. apply Forall_forall. intros y Hy.
        apply in_map_iff in Hy. destruct Hy as (a & <- & _). apply Z.mod_pos_bound. lia. }
      pose proof (find_none _ _ F x Hin) as X. cbv beta in X. apply Bool.not_true_iff_false in X. apply X. apply forallb_forall.
      intros i Hi. apply in_seq in Hi. apply Z.eqb_eq. apply Z.mod_divide; [lia|]. change (cong p (sumf (fun a => mget Y i a * nth a x 0) (seq 0 m)) (delta i j)).
      eapply cong_trans; [|apply (HW i j); lia]. apply cong_eq_sumf. intros a Ha. apply in_seq in Ha. rewrite Nx by lia.
      apply cong_mul; [apply cong_refl|apply cong_mod_any]. }
  unfold inv_inst. split; [apply tab_shape|].
  assert (Nc : forall j, (j < m)%nat -> nth j (map (inv_col p m Y) (seq 0 m)) [] = inv_col p m Y j).
  { intros j Hj. rewrite nth_indep with (d' := inv_col p m Y O) by (rewrite map_length, seq_length; auto).
    rewrite map_nth. now rewrite seq_nth by auto. }
  split.
  - apply mreduced_tab. intros i j Hi Hj. rewrite Nc by auto. destruct (C j Hj) as (L & F & _). rewrite Forall_forall in F. apply F, nth_In. lia.
  - intros i j Hi Hj. destruct (C j Hj) as (_ & _ & X). eapply cong_trans; [|apply (X i Hi)]. apply cong_of_eq. apply sumf_ext.
    intros a Ha. apply in_seq in Ha. rewrite tab_get by lia. now rewrite Nc.
Qed.

Lemma lu_inst_spec p : prime p -> ech_spec p lu_inst.
Proof. intros Pp. left. intros. now apply lu_inst_ok. Qed.

(** row echelon form by row operations, read off the LU decomposition *)
Definition gauss_inst : ech_fun := fun p m n A =>
  let '(r, M) := lu_inst p m n A in
  (r, tab m n (fun i j => if Nat.ltb i r && Nat.leb i j then mget M i j else 0)).

Lemma lu_gauss p m n A r M : prime p -> lu_result p m n A r M ->
  gauss_result p m n A r (tab m n (fun i j => if Nat.ltb i r && Nat.leb i j then mget M i j else 0)).
Proof.
  intros Pp (HS & HR & Hr & P & c & HP & HE & HZ & HA). cbv zeta in HE, HA. pose proof (prime_ge_2 p Pp) as P2.
  set (F := fun i j => if Nat.ltb i r && Nat.leb i j then mget M i j else 0).
  set (L := fun i a => if Nat.ltb a i then (if Nat.ltb a r then mget M i a else 0) else delta i a).
  destruct (tri_inv p m (trm L)) as (V0 & V1 & V2).
  { intros i j Hij. unfold trm, L. destruct (Nat.ltb_spec i j); [lia|]. rewrite delta_diff by lia. apply cong_refl. }
  { intros i Hi. exists 1. unfold trm, L. rewrite Nat.ltb_irrefl, delta_same. apply cong_refl. }
  set (V := trm V0).
  assert (W1 : mmeq p m m (mm m V L) delta).
  { intros i j Hi Hj. specialize (V1 j i Hj Hi). unfold delta. rewrite Nat.eqb_sym. eapply cong_trans; [|exact V1].
    apply cong_of_eq. apply sumf_ext. intros a _. unfold V, trm. ring. }
  assert (W2 : mmeq p m m (mm m L V) delta).
  { intros i j Hi Hj. specialize (V2 j i Hj Hi). unfold delta. rewrite Nat.eqb_sym. eapply cong_trans; [|exact V2].
    apply cong_of_eq. apply sumf_ext. intros a _. unfold V, trm. ring. }
  assert (LP : length P = m) by (rewrite (Permutation_length HP); apply seq_length).
  assert (ND : NoDup P) by (eapply Permutation_NoDup; [symmetry; exact HP|apply seq_NoDup]).
  assert (IN : forall x, (x < m)%nat -> exists i, (i < m)%nat /\ nth i P O = x).
  { intros x Hx. assert (In x P) by (eapply Permutation_in; [symmetry; exact HP|]; apply in_seq; lia).
    destruct (In_nth _ _ O H) as (i & Li & E). exists i. split; auto. lia. }
  set (idx := fun x => match find (fun i => Nat.eqb (nth i P O) x) (seq 0 m) with Some i => i | None => O end).
  assert (IX : forall i, (i < m)%nat -> idx (nth i P O) = i).
  { intros i Hi. unfold idx. destruct (find _ _) as [k|] eqn:Fd.
    - apply find_some in Fd. destruct Fd as [F1 F2]. apply in_seq in F1. apply Nat.eqb_eq in F2.
      apply (proj1 (NoDup_nth P O) ND); auto; lia.
    - exfalso. eapply find_none in Fd; [|apply in_seq; split; [apply Nat.le_0_l|exact Hi]]. now rewrite Nat.eqb_refl in Fd. }
  assert (PE : forall g : nat -> Z, sumf g (seq 0 m) = sumf (fun i => g (nth i P O)) (seq 0 m)).
  { intros g. transitivity (sumf g P).
    - unfold sumf. clear - HP. induction HP; cbn; lia.
    - rewrite (sumf_nth _ P O), LP. reflexivity. }
  split; [apply tab_shape|]. split.
  { apply mreduced_tab. intros i j Hi Hj. unfold F. destruct (Nat.ltb i r && Nat.leb i j); [|lia]. eapply mreduced_get; eauto. }
  split; [exact Hr|].
  exists (fun a x => V a (idx x)), (fun x a => L (idx x) a), c. split; [|split; [|split; [|split]]].
  - intros a b Ha Hb. eapply cong_trans; [|apply (W1 a b Ha Hb)]. apply cong_of_eq. unfold mm. rewrite PE. apply sumf_ext.
    intros i Hi. apply in_seq in Hi. now rewrite IX by lia.
  - intros x y Hx Hy. destruct (IN x Hx) as (i & Hi & <-). destruct (IN y Hy) as (j & Hj & <-).
    eapply cong_trans; [|eapply cong_trans; [apply (W2 i j Hi Hj)|]].
    + apply cong_of_eq. unfold mm. now rewrite !IX by auto.
    + apply cong_of_eq. unfold delta. destruct (Nat.eqb_spec i j) as [->|N]; [now rewrite Nat.eqb_refl|].
      destruct (Nat.eqb_spec (nth i P O) (nth j P O)) as [E|]; auto. exfalso. apply N. apply (proj1 (NoDup_nth P O) ND); auto; lia.
  - intros a j Ha Hj. apply cong_sym.
    apply cong_trans with (mm m V (fun i j => mget A (nth i P O) j) a j).
    { apply cong_of_eq. unfold mm. rewrite PE. apply sumf_ext. intros i Hi. apply in_seq in Hi. now rewrite IX by lia. }
    apply cong_trans with (mm m V (mm m L F) a j).
    { apply mm_cong; [intros; apply cong_refl|]. intros i Hi. eapply cong_trans; [apply HA; auto|]. apply cong_of_eq. unfold mm.
      replace m with (r + (m - r))%nat by lia. rewrite seq_app, sumf_app, Nat.add_0_l, (sumf_zero _ (seq r (m - r))).
      - rewrite Z.add_0_r. apply sumf_ext. intros b Hb. apply in_seq in Hb. unfold L, F, delta. destruct (Nat.ltb_spec b r); [|lia]. cbn [andb].
        rewrite (Nat.eqb_sym i b). reflexivity.
      - intros b Hb. apply in_seq in Hb. unfold F. destruct (Nat.ltb_spec b r); [lia|]. cbn [andb]. ring. }
    rewrite mm_assoc. apply cong_trans with (mm m delta F a j).
    { apply mm_cong; [|intros; apply cong_refl]. intros b Hb. apply W1; auto. }
    rewrite mm_delta_l by auto. rewrite tab_get by auto. apply cong_refl.
  - destruct HE as (E1 & E2 & E3 & E4 & E5). split; [exact E1|]. split; [exact E2|]. split; [exact E3|]. split.
    + intros i Hi. rewrite tab_get by (auto; lia). unfold F. destruct (Nat.ltb_spec i r); [|lia]. cbn [andb]. auto.
    + intros i j Hi Hj. specialize (E3 i Hi). rewrite tab_get by lia. unfold F. destruct (Nat.ltb_spec i r); [|lia]. cbn [andb]. auto.
  - intros i j Hi Hj. rewrite tab_get by lia. unfold F. destruct (Nat.ltb_spec i r); [lia|]. reflexivity.
Qed.
Lemma gauss_inst_spec p : prime p -> ech_spec p gauss_inst.
Proof.
  intros Pp. right. intros m n A HS HR. pose proof (lu_inst_ok p m n A Pp HS HR) as H. unfold gauss_inst.
  destruct (lu_inst p m n A) as [r M]. now apply lu_gauss.
Qed.
