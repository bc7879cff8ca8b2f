(** Proofs about the parameter logic of zeta_function. *)
From Coq Require Import ZArith List Bool Lia Znumtheory.
From Verif Require Import Base VecModel ToolsModel ToolsSpec ToolsProofs PolyProofs MatModel FrobTop CharSpec ArgsModel ArgsProofs ZetaModel.
Import ListNotations.
Open Scope Z_scope.

Lemma working_prec_ok p i r N : prime p -> 0 <= p * (i + N) - 1 ->
  exists v, working_prec p i r N = OK (r + Z.max 0 (v - i)) /\ val_exact p (zfact (p * (i + N) - 1)) v.
Proof.
  intros Hp H. destruct (vof_exact p (p * (i + N) - 1) Hp H) as (v & E & V).
  exists v. unfold working_prec. rewrite E. auto.
Qed.

(** the working precision covers column i with relative precision r *)
Definition covers (p pr i r N : Z) : Prop :=
  exists v, val_exact p (zfact (p * (i + N) - 1)) v /\ r + Z.max 0 (v - i) <= pr.

Lemma covers_le p pr pr' i r N : covers p pr i r N -> pr <= pr' -> covers p pr' i r N.
Proof. intros (v & V & L) H. exists v. split; auto. lia. Qed.

Section LOOPS.
  Variables (p n abs pr0 : Z) (N0 : list Z).
  Hypothesis Hp : prime p.
  Hypothesis Hn : 1 <= n.
  Hypothesis Habs : 0 < abs.
  Hypothesis HN : Z.of_nat (length N0) = n.

  Notation nn := (Z.to_nat n).
  Definition r0 (k : nat) : Z := nth k N0 0 + (Z.of_nat k + 1) - n.
  Definition rinit : list Z := map r0 (seq 0 nn).

  Lemma p2 : 2 <= p.
  Proof. destruct Hp. lia. Qed.

  Lemma rinit_nth k : (k < nn)%nat -> nth k rinit 0 = r0 k.
  Proof.
    intros H. unfold rinit. rewrite (nth_indep _ 0 (r0 0%nat)) by (now rewrite map_length, seq_length).
    rewrite map_nth, seq_nth by auto. reflexivity.
  Qed.

  (** raising *)
  Definition inc_inv (k : nat) (st : Z * list Z * list Z) : Prop :=
    let '(pr, r, N) := st in
    length r = nn /\ length N = nn /\ pr0 <= pr /\
    (forall j, (j < nn)%nat -> if Nat.ltb j k
       then nth j r 0 = Z.max (r0 j) (abs - (n - 1) + Z.of_nat j) /\ nth j N 0 = Z.max (nth j N0 0) abs /\
            covers p pr (Z.of_nat j) (nth j r 0) (nth j N 0)
       else nth j r 0 = r0 j /\ nth j N 0 = nth j N0 0).

  Lemma inc_step_ok k st : (k < nn)%nat -> inc_inv k st -> exists st', inc_step p n abs st k = OK st' /\ inc_inv (S k) st'.
  Proof.
    intros Hk. destruct st as [[pr r] N]. intros (L1 & L2 & L3 & J). unfold inc_step.
    pose proof (J k Hk) as Jk. rewrite (proj2 (Nat.ltb_ge k k) (le_n k)) in Jk. destruct Jk as [Er EN].
    rewrite Er, EN. set (ri := Z.max (r0 k) (abs - (n - 1) + Z.of_nat k)).
    assert (Eri : ri + n - (Z.of_nat k + 1) = Z.max (nth k N0 0) abs) by (unfold ri, r0; lia).
    rewrite Eri. unfold check. destruct (Z.leb_spec (nth k N0 0) (Z.max (nth k N0 0) abs)); [|lia]. cbn [bind].
    destruct (working_prec_ok p (Z.of_nat k) ri (Z.max (nth k N0 0) abs) Hp) as (v & E & V).
    { pose proof p2. nia. }
    rewrite E. cbn [bind]. eexists. split; [reflexivity|].
    split; [now rewrite upd_length|]. split; [now rewrite upd_length|]. split; [lia|].
    intros j Hj. destruct (Nat.ltb_spec j (S k)) as [Lt|Ge].
    - destruct (Nat.eq_dec j k) as [->|Ne].
      + rewrite !nth_upd_eq by lia. split; [reflexivity|]. split; [reflexivity|]. exists v. split; auto. lia.
      + rewrite !nth_upd_neq by lia. specialize (J j Hj). destruct (Nat.ltb_spec j k); [|lia].
        destruct J as (A & B & C). split; [auto|]. split; [auto|]. eapply covers_le; eauto. lia.
    - rewrite !nth_upd_neq by lia. specialize (J j Hj). destruct (Nat.ltb_spec j k); [lia|]. exact J.
  Qed.

  Lemma inc_loop_ok k st : (k <= nn)%nat -> inc_inv 0 st -> exists st', foldM (inc_step p n abs) (seq 0 k) st = OK st' /\ inc_inv k st'.
  Proof.
    intros Hk H0. induction k as [|k IH]; [exists st; auto|].
    destruct (IH ltac:(lia)) as (s1 & E1 & J1). destruct (inc_step_ok k s1 ltac:(lia) J1) as (s2 & E2 & J2).
    exists s2. split; auto. rewrite seq_S, foldM_app, E1, Nat.add_0_l. cbn [bind foldM]. now rewrite E2.
  Qed.

  (** replacing *)
  Definition set_inv (k : nat) (st : Z * bool * list Z * list Z) : Prop :=
    let '(pr, lift, r, N) := st in
    length r = nn /\ length N = nn /\ 1 <= pr /\
    (lift = true <-> forall j, (j < k)%nat -> nth j N0 0 <= abs) /\
    (forall j, (j < nn)%nat -> if Nat.ltb j k
       then nth j r 0 = Z.max 0 (abs - (n - 1) + Z.of_nat j) /\
            nth j N 0 = (if abs <=? n - 1 - Z.of_nat j then 0 else abs) /\
            (n - 1 - Z.of_nat j < abs -> covers p pr (Z.of_nat j) (nth j r 0) (nth j N 0))
       else nth j r 0 = r0 j /\ nth j N 0 = nth j N0 0).

  Lemma set_step_ok k st : (k < nn)%nat -> set_inv k st -> exists st', set_step p n abs st k = OK st' /\ set_inv (S k) st'.
  Proof.
    intros Hk. destruct st as [[[pr lift] r] N]. intros (L1 & L2 & L3 & Li & J). unfold set_step.
    pose proof (J k Hk) as Jk. rewrite (proj2 (Nat.ltb_ge k k) (le_n k)) in Jk. destruct Jk as [Er EN].
    rewrite Er. set (rel := abs - (n - 1) + Z.of_nat k).
    assert (Li' : lift && (r0 k <=? rel) = true <-> forall j, (j < S k)%nat -> nth j N0 0 <= abs).
    { rewrite andb_true_iff, Z.leb_le, Li. unfold rel, r0. split.
      - intros [A B] j Hj. destruct (Nat.eq_dec j k) as [->|]; [lia|apply A; lia].
      - intros A. split; [intros j Hj; apply A; lia|]. specialize (A k ltac:(lia)). lia. }
    assert (Old : forall j pr', (j < nn)%nat -> j <> k -> pr <= pr' -> if Nat.ltb j (S k)
       then nth j r 0 = Z.max 0 (abs - (n - 1) + Z.of_nat j) /\
            nth j N 0 = (if abs <=? n - 1 - Z.of_nat j then 0 else abs) /\
            (n - 1 - Z.of_nat j < abs -> covers p pr' (Z.of_nat j) (nth j r 0) (nth j N 0))
       else nth j r 0 = r0 j /\ nth j N 0 = nth j N0 0).
    { intros j pr' Hj Ne Le. specialize (J j Hj). destruct (Nat.ltb_spec j (S k)); destruct (Nat.ltb_spec j k); try lia; auto.
      destruct J as (A & B & C). split; [auto|]. split; [auto|]. intros D. eapply covers_le; eauto. }
    destruct (Z.leb_spec rel 0) as [Le|Gt].
    - eexists. split; [reflexivity|]. split; [now rewrite upd_length|]. split; [now rewrite upd_length|]. split; [lia|].
      split; [exact Li'|]. intros j Hj. destruct (Nat.eq_dec j k) as [->|Ne].
      + rewrite !nth_upd_eq by lia. destruct (Nat.ltb_spec k (S k)); [|lia].
        destruct (Z.leb_spec abs (n - 1 - Z.of_nat k)); [|unfold rel in *; lia].
        split; [unfold rel in *; lia|]. split; [auto|]. unfold rel in *; lia.
      + rewrite !nth_upd_neq by lia. apply Old; auto; lia.
    - assert (Eri : rel + n - (Z.of_nat k + 1) = abs) by (unfold rel; lia). rewrite Eri.
      destruct (working_prec_ok p (Z.of_nat k) rel abs Hp) as (v & E & V). { pose proof p2. nia. }
      rewrite E. cbn [bind]. eexists. split; [reflexivity|].
      split; [now rewrite upd_length|]. split; [now rewrite upd_length|]. split; [lia|].
      split; [exact Li'|]. intros j Hj. destruct (Nat.eq_dec j k) as [->|Ne].
      + rewrite !nth_upd_eq by lia. destruct (Nat.ltb_spec k (S k)); [|lia].
        destruct (Z.leb_spec abs (n - 1 - Z.of_nat k)); [unfold rel in *; lia|].
        split; [unfold rel in *; lia|]. split; [auto|]. intros _. exists v. split; auto. lia.
      + rewrite !nth_upd_neq by lia. apply Old; auto; lia.
  Qed.

  Lemma set_loop_ok k st : (k <= nn)%nat -> set_inv 0 st -> exists st', foldM (set_step p n abs) (seq 0 k) st = OK st' /\ set_inv k st'.
  Proof.
    intros Hk H0. induction k as [|k IH]; [exists st; auto|].
    destruct (IH ltac:(lia)) as (s1 & E1 & J1). destruct (set_step_ok k s1 ltac:(lia) J1) as (s2 & E2 & J2).
    exists s2. split; auto. rewrite seq_S, foldM_app, E1, Nat.add_0_l. cbn [bind foldM]. now rewrite E2.
  Qed.
End LOOPS.

Lemma covers_r p pr i r N : covers p pr i r N -> r <= pr.
Proof. intros (v & _ & L). lia. Qed.

(** the relative precisions the code compares p with *)
Definition rel_new (increase : bool) (n abs : Z) (N : list Z) (k : nat) : Z :=
  let rel := abs - (n - 1) + Z.of_nat k in
  if increase then Z.max (nth k N 0 + (Z.of_nat k + 1) - n) rel else Z.max 0 rel.

Theorem zeta_args_ok p n d abs (increase : bool) pr N c : prime p -> 3 <= p -> 0 < abs ->
  default_args p n d = OK (pr, N, c) ->
  exists pr' N' lift m,
    In m (map (rel_new increase n abs N) (seq 0 (Z.to_nat n))) /\
    (forall x, In x (map (rel_new increase n abs N) (seq 0 (Z.to_nat n))) -> x <= m) /\
    zeta_args p n d abs increase = (if p <? 2 * n + m then Err EAbort else OK (pr', N', c, lift)) /\
    abs <= pr' /\ Z.of_nat (length N') = n /\
    (forall k, (k < Z.to_nat n)%nat ->
       nth k N' 0 = (if increase then Z.max (nth k N 0) abs else if abs <=? n - 1 - Z.of_nat k then 0 else abs) /\
       (nth k N' 0 <> 0 -> covers p pr' (Z.of_nat k) (rel_new increase n abs N k) (nth k N' 0))) /\
    (increase = true -> lift = true /\ pr <= pr') /\
    (increase = false -> (lift = true <-> forall k, (k < Z.to_nat n)%nat -> nth k N 0 <= abs)).
Proof.
  intros Hp Hp3 Habs D. pose proof (default_args_ok p n d _ Hp3 D) as (R1 & R2 & R3 & R4 & R5 & R6).
  assert (Hn : 1 <= n).
  { apply default_args_cases in D. repeat destruct D as [D|D]; destruct D as (-> & _); lia. }
  unfold zeta_args. rewrite D. cbn [bind]. destruct (Z.ltb_spec 0 abs); [|lia].
  set (nn := Z.to_nat n) in *.
  assert (Rl : length (rinit n N) = nn) by (unfold rinit; now rewrite map_length, seq_length).
  change (map _ (seq 0 nn)) with (rinit n N) at 3 4.
  destruct increase.
  - destruct (inc_loop_ok p n abs pr N Hp Hn Habs nn (pr, rinit n N, N) (le_n _)) as (st & E & J).
    { split; [exact Rl|]. split; [lia|]. split; [lia|]. intros j Hj. cbn [Nat.ltb Nat.leb].
      split; [apply rinit_nth; auto|reflexivity]. }
    rewrite E. cbn [bind]. destruct st as [[pr' r'] N']. cbn [bind]. destruct J as (L1 & L2 & L3 & J).
    assert (Er : r' = map (rel_new true n abs N) (seq 0 nn)).
    { apply (nth_ext _ _ 0 0); [now rewrite map_length, seq_length, L1|]. intros j Hj. rewrite L1 in Hj.
      specialize (J j Hj). destruct (Nat.ltb_spec j nn); [|lia]. destruct J as (-> & _).
      rewrite (nth_indep _ 0 (rel_new true n abs N 0)) by (now rewrite map_length, seq_length).
      now rewrite map_nth, seq_nth by auto. }
    assert (Ne : r' <> []) by (intros ->; cbn in L1; lia).
    assert (A : abs <= pr').
    { specialize (J (nn - 1)%nat ltac:(lia)). destruct (Nat.ltb_spec (nn - 1) nn); [|lia].
      destruct J as (B1 & _ & B2). apply covers_r in B2. lia. }
    unfold check. destruct (Z.leb_spec abs pr'); [|lia]. cbn [bind].
    destruct (vmax_ok r' Ne) as (m & Em & M1 & M2). rewrite Em. cbn [bind].
    exists pr', N', true, m. split; [now rewrite <- Er|]. split; [now rewrite <- Er|].
    split; [now destruct (p <? 2 * n + m)|]. split; [auto|]. split; [lia|].
    split; [|split; [auto|discriminate]]. intros k Hk. specialize (J k Hk).
    destruct (Nat.ltb_spec k nn); [|lia]. destruct J as (B1 & B2 & B3). split; [auto|]. intros _.
    unfold rel_new. cbv zeta. unfold r0 in B1. rewrite <- B1. exact B3.
  - destruct (set_loop_ok p n abs N Hp Hn Habs nn (1, true, rinit n N, N) (le_n _)) as (st & E & J).
    { split; [exact Rl|]. split; [lia|]. split; [lia|]. split; [split; [lia|auto]|]. intros j Hj. cbn [Nat.ltb Nat.leb].
      split; [apply rinit_nth; auto|reflexivity]. }
    rewrite E. cbn [bind]. destruct st as [[[pr' lift] r'] N']. cbn [bind]. destruct J as (L1 & L2 & L3 & Li & J).
    assert (Er : r' = map (rel_new false n abs N) (seq 0 nn)).
    { apply (nth_ext _ _ 0 0); [now rewrite map_length, seq_length, L1|]. intros j Hj. rewrite L1 in Hj.
      specialize (J j Hj). destruct (Nat.ltb_spec j nn); [|lia]. destruct J as (-> & _).
      rewrite (nth_indep _ 0 (rel_new false n abs N 0)) by (now rewrite map_length, seq_length).
      now rewrite map_nth, seq_nth by auto. }
    assert (Ne : r' <> []) by (intros ->; cbn in L1; lia).
    assert (A : abs <= pr').
    { specialize (J (nn - 1)%nat ltac:(lia)). destruct (Nat.ltb_spec (nn - 1) nn); [|lia].
      destruct J as (B1 & _ & B2). specialize (B2 ltac:(lia)). apply covers_r in B2. lia. }
    unfold check. destruct (Z.leb_spec abs pr'); [|lia]. cbn [bind].
    destruct (vmax_ok r' Ne) as (m & Em & M1 & M2). rewrite Em. cbn [bind].
    exists pr', N', lift, m. split; [now rewrite <- Er|]. split; [now rewrite <- Er|].
    split; [now destruct (p <? 2 * n + m)|]. split; [auto|]. split; [lia|].
    split; [|split; [discriminate|auto]]. intros k Hk. specialize (J k Hk).
    destruct (Nat.ltb_spec k nn); [|lia]. destruct J as (B1 & B2 & B3). split; [auto|]. intros Nz.
    unfold rel_new. cbv zeta. rewrite <- B1. apply B3. rewrite B2 in Nz. destruct (Z.leb_spec abs (n - 1 - Z.of_nat k)); [congruence|lia].
Qed.

(** ** the table's own working precision *)
Lemma digsum_small p m : 2 <= p -> 0 <= m < p -> digsum p m = m.
Proof.
  intros Hp Hm. destruct (Z.eq_dec m 0) as [->|Hm0]; [apply digsum_0|].
  rewrite digsum_step by lia. rewrite Z.mod_small, Z.div_small, digsum_0 by lia. lia.
Qed.
Lemma vof_large p m : 2 <= p -> 1 <= m <= p -> valuation_of_factorial (p * m - 1) p = OK (m - 1).
Proof.
  intros Hp Hm. rewrite vof_sum by nia. f_equal.
  pose proof (legendre_sum p (p * m - 1) Hp ltac:(nia)) as L.
  rewrite (digsum_step p (p * m - 1)) in L by nia.
  replace (p * m - 1) with ((p - 1) + (m - 1) * p) in L at 2 3 4 by ring.
  rewrite Z.mod_add, Z.div_add, Z.mod_small, Z.div_small, (digsum_small p) in L by lia.
  nia.
Qed.

(** the check done once per row: either the bracket ends below the range, or
    the precision of the table is at least that of the formula *)
Definition row_prec (hi n : Z) (a : args) : bool :=
  let '(pr, N, c) := a in
  let r := fun k => nth k N 0 + (Z.of_nat k + 1) - n in
  existsb (fun k => hi <=? 2 * n + r k) (seq 0 (Z.to_nat n)) ||
  forallb (fun k => (nth k N 0 =? 0) || (r k + (nth k N 0 - 1) <=? pr)) (seq 0 (Z.to_nat n)).

Definition table_prec (p n : Z) (a : args) : Prop :=
  let '(pr, N, c) := a in
  (forall k, (k < Z.to_nat n)%nat -> 2 * n + (nth k N 0 + (Z.of_nat k + 1) - n) <= p) ->
  forall k, (k < Z.to_nat n)%nat -> nth k N 0 <> 0 ->
    covers p pr (Z.of_nat k) (nth k N 0 + (Z.of_nat k + 1) - n) (nth k N 0).

Lemma row_prec_sound hi n a p : prime p -> p < hi -> 1 <= n -> (forall x, In x (snd (fst a)) -> 0 <= x) ->
  Z.of_nat (length (snd (fst a))) = n ->
  row_prec hi n a = true -> table_prec p n a.
Proof.
  destruct a as [[pr N] c]. cbn [fst snd]. intros Hp Hh Hn HN HL. unfold row_prec, table_prec. rewrite orb_true_iff, existsb_exists, forallb_forall.
  intros [(k & Hk & E)|H] Hr.
  - apply Z.leb_le in E. apply in_seq in Hk. specialize (Hr k ltac:(lia)). lia.
  - intros k Hk Nz. specialize (H k). rewrite in_seq, orb_true_iff, Z.eqb_eq, Z.leb_le in H.
    destruct (H ltac:(lia)) as [H0|H0]; [congruence|]. specialize (Hr k Hk).
    assert (0 <= nth k N 0) by (apply HN, nth_In; lia).
    assert (p2 : 2 <= p) by (destruct Hp; lia).
    destruct (vof_exact p (p * (Z.of_nat k + nth k N 0) - 1) Hp ltac:(nia)) as (v & E & V).
    rewrite vof_large in E by lia. injection E as <-. exists (Z.of_nat k + nth k N 0 - 1). split; [exact V|]. lia.
Qed.
Lemma row_parts p n d a : row_spec p n d a -> Z.of_nat (length (snd (fst a))) = n /\ forall x, In x (snd (fst a)) -> 0 <= x.
Proof. destruct a as [[pr N] c]. unfold row_spec. cbn [fst snd]. tauto. Qed.

Lemma args_2_3_prec p : prime p -> 3 <= p -> table_prec p 2 (args_2_3 p).
Proof.
  intros Pr Hp. destruct (row_parts _ _ _ _ (args_2_3_ok p Hp)) as [HL HN].
  assert (W : forall hi, p < hi -> row_prec hi 2 (args_2_3 p) = true -> table_prec p 2 (args_2_3 p)).
  { intros hi H. apply row_prec_sound; auto; lia. }
  clear HL HN. revert W. unfold args_2_3.
  destruct (Z.ltb_spec p 5); [intros W; apply (W 5); [lia|now vm_compute]|].
  destruct (Z.leb_spec 5 p); [|lia]. destruct (Z.ltb_spec p 17); cbn [andb]; [intros W; apply (W 17); [lia|now vm_compute]|].
  intros W. apply (W (p + 1)); [lia|]. apply orb_true_iff. right. now vm_compute.
Qed.
Lemma args_2_4_prec p : prime p -> 3 <= p -> table_prec p 2 (args_2_4 p).
Proof.
  intros Pr Hp. destruct (row_parts _ _ _ _ (args_2_4_ok p Hp)) as [HL HN].
  assert (W : forall hi, p < hi -> row_prec hi 2 (args_2_4 p) = true -> table_prec p 2 (args_2_4 p)).
  { intros hi H. apply row_prec_sound; auto; lia. }
  clear HL HN. revert W. unfold args_2_4.
  destruct (Z.ltb_spec p 5); [intros W; apply (W 5); [lia|now vm_compute]|].
  destruct (Z.leb_spec 5 p); [|lia]. destruct (Z.ltb_spec p 17); cbn [andb]; [intros W; apply (W 17); [lia|now vm_compute]|].
  intros W. apply (W (p + 1)); [lia|]. apply orb_true_iff. right. now vm_compute.
Qed.
Lemma args_2_5_prec p : prime p -> 3 <= p -> table_prec p 2 (args_2_5 p).
Proof.
  intros Pr Hp. destruct (row_parts _ _ _ _ (args_2_5_ok p Hp)) as [HL HN].
  assert (W : forall hi, p < hi -> row_prec hi 2 (args_2_5 p) = true -> table_prec p 2 (args_2_5 p)).
  { intros hi H. apply row_prec_sound; auto; lia. }
  clear HL HN. revert W. unfold args_2_5.
  destruct (Z.ltb_spec p 5); [intros W; apply (W 5); [lia|now vm_compute]|].
  destruct (Z.leb_spec 5 p); [|lia]. destruct (Z.ltb_spec p 7); cbn [andb]; [intros W; apply (W 7); [lia|now vm_compute]|].
  intros W. apply (W (p + 1)); [lia|]. apply orb_true_iff. right. now vm_compute.
Qed.
Lemma args_2_6_prec p : prime p -> 3 <= p -> table_prec p 2 (args_2_6 p).
Proof.
  intros Pr Hp. destruct (row_parts _ _ _ _ (args_2_6_ok p Hp)) as [HL HN].
  assert (W : forall hi, p < hi -> row_prec hi 2 (args_2_6 p) = true -> table_prec p 2 (args_2_6 p)).
  { intros hi H. apply row_prec_sound; auto; lia. }
  clear HL HN. revert W. unfold args_2_6.
  destruct (Z.ltb_spec p 5); [intros W; apply (W 5); [lia|now vm_compute]|].
  destruct (Z.leb_spec 5 p); [|lia]. destruct (Z.ltb_spec p 7); cbn [andb]; [intros W; apply (W 7); [lia|now vm_compute]|].
  destruct (Z.leb_spec 7 p); [|lia]. destruct (Z.ltb_spec p 11); cbn [andb]; [intros W; apply (W 11); [lia|now vm_compute]|].
  intros W. apply (W (p + 1)); [lia|]. apply orb_true_iff. right. now vm_compute.
Qed.
Lemma args_2_7_prec p : prime p -> 3 <= p -> table_prec p 2 (args_2_7 p).
Proof.
  intros Pr Hp. destruct (row_parts _ _ _ _ (args_2_7_ok p Hp)) as [HL HN].
  assert (W : forall hi, p < hi -> row_prec hi 2 (args_2_7 p) = true -> table_prec p 2 (args_2_7 p)).
  { intros hi H. apply row_prec_sound; auto; lia. }
  clear HL HN. revert W. unfold args_2_7.
  destruct (Z.ltb_spec p 5); [intros W; apply (W 5); [lia|now vm_compute]|].
  destruct (Z.leb_spec 5 p); [|lia]. destruct (Z.ltb_spec p 7); cbn [andb]; [intros W; apply (W 7); [lia|now vm_compute]|].
  destruct (Z.leb_spec 7 p); [|lia]. destruct (Z.ltb_spec p 11); cbn [andb]; [intros W; apply (W 11); [lia|now vm_compute]|].
  destruct (Z.leb_spec 11 p); [|lia]. destruct (Z.ltb_spec p 17); cbn [andb]; [intros W; apply (W 17); [lia|now vm_compute]|].
  intros W. apply (W (p + 1)); [lia|]. apply orb_true_iff. right. now vm_compute.
Qed.
Lemma args_2_8_prec p : prime p -> 3 <= p -> table_prec p 2 (args_2_8 p).
Proof.
  intros Pr Hp. destruct (row_parts _ _ _ _ (args_2_8_ok p Hp)) as [HL HN].
  assert (W : forall hi, p < hi -> row_prec hi 2 (args_2_8 p) = true -> table_prec p 2 (args_2_8 p)).
  { intros hi H. apply row_prec_sound; auto; lia. }
  clear HL HN. revert W. unfold args_2_8.
  destruct (Z.ltb_spec p 5); [intros W; apply (W 5); [lia|now vm_compute]|].
  destruct (Z.leb_spec 5 p); [|lia]. destruct (Z.ltb_spec p 7); cbn [andb]; [intros W; apply (W 7); [lia|now vm_compute]|].
  destruct (Z.leb_spec 7 p); [|lia]. destruct (Z.ltb_spec p 13); cbn [andb]; [intros W; apply (W 13); [lia|now vm_compute]|].
  destruct (Z.leb_spec 13 p); [|lia]. destruct (Z.ltb_spec p 17); cbn [andb]; [intros W; apply (W 17); [lia|now vm_compute]|].
  intros W. apply (W (p + 1)); [lia|]. apply orb_true_iff. right. now vm_compute.
Qed.
Lemma args_2_9_prec p : prime p -> 3 <= p -> table_prec p 2 (args_2_9 p).
Proof.
  intros Pr Hp. destruct (row_parts _ _ _ _ (args_2_9_ok p Hp)) as [HL HN].
  assert (W : forall hi, p < hi -> row_prec hi 2 (args_2_9 p) = true -> table_prec p 2 (args_2_9 p)).
  { intros hi H. apply row_prec_sound; auto; lia. }
  clear HL HN. revert W. unfold args_2_9.
  destruct (Z.ltb_spec p 5); [intros W; apply (W 5); [lia|now vm_compute]|].
  destruct (Z.leb_spec 5 p); [|lia]. destruct (Z.ltb_spec p 7); cbn [andb]; [intros W; apply (W 7); [lia|now vm_compute]|].
  destruct (Z.leb_spec 7 p); [|lia]. destruct (Z.ltb_spec p 11); cbn [andb]; [intros W; apply (W 11); [lia|now vm_compute]|].
  destruct (Z.leb_spec 11 p); [|lia]. destruct (Z.ltb_spec p 17); cbn [andb]; [intros W; apply (W 17); [lia|now vm_compute]|].
  intros W. apply (W (p + 1)); [lia|]. apply orb_true_iff. right. now vm_compute.
Qed.
Lemma args_3_4_prec p : prime p -> 3 <= p -> table_prec p 3 (args_3_4 p).
Proof.
  intros Pr Hp. destruct (row_parts _ _ _ _ (args_3_4_ok p Hp)) as [HL HN].
  assert (W : forall hi, p < hi -> row_prec hi 3 (args_3_4 p) = true -> table_prec p 3 (args_3_4 p)).
  { intros hi H. apply row_prec_sound; auto; lia. }
  clear HL HN. revert W. unfold args_3_4.
  destruct (Z.ltb_spec p 5); [intros W; apply (W 5); [lia|now vm_compute]|].
  destruct (Z.leb_spec 5 p); [|lia]. destruct (Z.ltb_spec p 7); cbn [andb]; [intros W; apply (W 7); [lia|now vm_compute]|].
  destruct (Z.leb_spec 7 p); [|lia]. destruct (Z.ltb_spec p 23); cbn [andb]; [intros W; apply (W 23); [lia|now vm_compute]|].
  destruct (Z.leb_spec 23 p); [|lia]. destruct (Z.ltb_spec p 43); cbn [andb]; [intros W; apply (W 43); [lia|now vm_compute]|].
  intros W. apply (W (p + 1)); [lia|]. apply orb_true_iff. right. now vm_compute.
Qed.
Lemma args_3_5_prec p : prime p -> 3 <= p -> table_prec p 3 (args_3_5 p).
Proof.
  intros Pr Hp. destruct (row_parts _ _ _ _ (args_3_5_ok p Hp)) as [HL HN].
  assert (W : forall hi, p < hi -> row_prec hi 3 (args_3_5 p) = true -> table_prec p 3 (args_3_5 p)).
  { intros hi H. apply row_prec_sound; auto; lia. }
  clear HL HN. revert W. unfold args_3_5.
  destruct (Z.ltb_spec p 5); [intros W; apply (W 5); [lia|now vm_compute]|].
  destruct (Z.leb_spec 5 p); [|lia]. destruct (Z.ltb_spec p 7); cbn [andb]; [intros W; apply (W 7); [lia|now vm_compute]|].
  destruct (Z.leb_spec 7 p); [|lia]. destruct (Z.ltb_spec p 11); cbn [andb]; [intros W; apply (W 11); [lia|now vm_compute]|].
  destruct (Z.leb_spec 11 p); [|lia]. destruct (Z.ltb_spec p 23); cbn [andb]; [intros W; apply (W 23); [lia|now vm_compute]|].
  destruct (Z.leb_spec 23 p); [|lia]. destruct (Z.ltb_spec p 29); cbn [andb]; [intros W; apply (W 29); [lia|now vm_compute]|].
  intros W. apply (W (p + 1)); [lia|]. apply orb_true_iff. right. now vm_compute.
Qed.
Lemma args_3_6_prec p : prime p -> 3 <= p -> table_prec p 3 (args_3_6 p).
Proof.
  intros Pr Hp. destruct (row_parts _ _ _ _ (args_3_6_ok p Hp)) as [HL HN].
  assert (W : forall hi, p < hi -> row_prec hi 3 (args_3_6 p) = true -> table_prec p 3 (args_3_6 p)).
  { intros hi H. apply row_prec_sound; auto; lia. }
  clear HL HN. revert W. unfold args_3_6.
  destruct (Z.ltb_spec p 5); [intros W; apply (W 5); [lia|now vm_compute]|].
  destruct (Z.leb_spec 5 p); [|lia]. destruct (Z.ltb_spec p 7); cbn [andb]; [intros W; apply (W 7); [lia|now vm_compute]|].
  destruct (Z.leb_spec 7 p); [|lia]. destruct (Z.ltb_spec p 11); cbn [andb]; [intros W; apply (W 11); [lia|now vm_compute]|].
  destruct (Z.leb_spec 11 p); [|lia]. destruct (Z.ltb_spec p 17); cbn [andb]; [intros W; apply (W 17); [lia|now vm_compute]|].
  destruct (Z.leb_spec 17 p); [|lia]. destruct (Z.ltb_spec p 23); cbn [andb]; [intros W; apply (W 23); [lia|now vm_compute]|].
  intros W. apply (W (p + 1)); [lia|]. apply orb_true_iff. right. now vm_compute.
Qed.

Theorem table_prec_ok p n d a : prime p -> 3 <= p -> default_args p n d = OK a -> table_prec p n a.
Proof.
  intros Pr Hp E. apply default_args_cases in E.
  repeat destruct E as [E|E]; destruct E as (-> & -> & ->);
    first [apply args_2_3_prec | apply args_2_4_prec | apply args_2_5_prec | apply args_2_6_prec | apply args_2_7_prec | apply args_2_8_prec | apply args_2_9_prec | apply args_3_4_prec | apply args_3_5_prec | apply args_3_6_prec]; auto.
Qed.
