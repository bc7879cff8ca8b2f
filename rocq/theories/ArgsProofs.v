(** Proofs about the table of default precisions. *)
From Coq Require Import ZArith List Bool Lia.
From Verif Require Import Base CharSpec ArgsModel.
Import ListNotations.
Open Scope Z_scope.

(** dimension of the primitive cohomology of a smooth hypersurface of degree d
    in projective n-space *)
Definition dim_H (n d : Z) : Z := ((d - 1) ^ (n + 1) + (-1) ^ (n + 1) * (d - 1)) / d.

(** the check done once per row, at the smallest prime of its bracket *)
Definition row_ok (lo n d : Z) (a : args) : bool :=
  let '(pr, N, c) := a in
  let deg := (length c - 1)%nat in let dim := Z.to_nat (n - 1) in
  (1 <=? pr) && (Z.of_nat (length N) =? n) && (Z.of_nat (length c) =? dim_H n d + 1) &&
  forallb (fun x => 0 <=? x) N && forallb (fun x => 0 <=? x) c &&
  forallb (fun k => let e := 2 * full_prec deg dim c (deg - k) - Z.of_nat dim * Z.of_nat k in
    (0 <=? e) && (4 * Z.of_nat deg ^ 2 <? Z.of_nat k ^ 2 * lo ^ e)) (seq 1 deg).

Definition row_spec (p n d : Z) (a : args) : Prop :=
  let '(pr, N, c) := a in
  1 <= pr /\ Z.of_nat (length N) = n /\ Z.of_nat (length c) = dim_H n d + 1 /\
  (forall x, In x N -> 0 <= x) /\ (forall x, In x c -> 0 <= x) /\
  enough p (length c - 1) (Z.to_nat (n - 1)) c.

Lemma row_sound lo n d a p : 0 < lo <= p -> row_ok lo n d a = true -> row_spec p n d a.
Proof.
  intros Hp. destruct a as [[pr N] c]. unfold row_ok, row_spec. rewrite !andb_true_iff, !forallb_forall.
  intros [[[[[H0 H1] H2] H3] H4] H5]. apply Z.leb_le in H0. apply Z.eqb_eq in H1, H2.
  split; [auto|]. split; [auto|]. split; [auto|].
  split; [intros x Hx; now apply Z.leb_le, H3|]. split; [intros x Hx; now apply Z.leb_le, H4|].
  set (deg := (length c - 1)%nat) in *. set (dim := Z.to_nat (n - 1)) in *.
  intros k Hk. specialize (H5 k). rewrite in_seq in H5. specialize (H5 ltac:(lia)). cbv zeta in H5.
  set (fp := full_prec deg dim c (deg - k)) in *. rewrite andb_true_iff in H5. destruct H5 as [He Hlt].
  apply Z.leb_le in He. apply Z.ltb_lt in Hlt.
  set (e := 2 * fp - Z.of_nat dim * Z.of_nat k) in *.
  assert (D : 0 <= Z.of_nat dim * Z.of_nat k) by lia.
  replace (2 * fp) with (Z.of_nat dim * Z.of_nat k + e) by lia. rewrite Z.pow_add_r by lia.
  assert (P1 : lo ^ e <= p ^ e) by (apply Z.pow_le_mono_l; lia).
  assert (P2 : 0 < p ^ (Z.of_nat dim * Z.of_nat k)) by (apply Z.pow_pos_nonneg; lia).
  assert (4 * Z.of_nat deg ^ 2 < Z.of_nat k ^ 2 * p ^ e).
  { eapply Z.lt_le_trans; [exact Hlt|]. apply Z.mul_le_mono_nonneg_l; [apply Z.pow_nonneg; lia|exact P1]. }
  nia.
Qed.

Lemma default_args_cases p n d a : default_args p n d = OK a ->
  (n = 2 /\ d = 3 /\ a = args_2_3 p) \/
  (n = 2 /\ d = 4 /\ a = args_2_4 p) \/
  (n = 2 /\ d = 5 /\ a = args_2_5 p) \/
  (n = 2 /\ d = 6 /\ a = args_2_6 p) \/
  (n = 2 /\ d = 7 /\ a = args_2_7 p) \/
  (n = 2 /\ d = 8 /\ a = args_2_8 p) \/
  (n = 2 /\ d = 9 /\ a = args_2_9 p) \/
  (n = 3 /\ d = 4 /\ a = args_3_4 p) \/
  (n = 3 /\ d = 5 /\ a = args_3_5 p) \/
  (n = 3 /\ d = 6 /\ a = args_3_6 p).
Proof.
  unfold default_args. intros E.
  repeat match type of E with (if ?c then _ else _) = _ =>
    let C := fresh "C" in destruct c eqn:C;
    [apply andb_true_iff in C; destruct C as [F1 F2]; apply Z.eqb_eq in F1, F2; injection E as <-; tauto|] end.
  discriminate.
Qed.

Lemma args_2_3_ok p : 3 <= p -> row_spec p 2 3 (args_2_3 p).
Proof.
  intros Hp. unfold args_2_3.
  destruct (Z.ltb_spec p 5); [apply (row_sound 3); [lia|now vm_compute]|].
  destruct (Z.leb_spec 5 p); [|lia]. destruct (Z.ltb_spec p 17); cbn [andb]; [apply (row_sound 5); [lia|now vm_compute]|].
  apply (row_sound 17); [lia|now vm_compute].
Qed.
Lemma args_2_4_ok p : 3 <= p -> row_spec p 2 4 (args_2_4 p).
Proof.
  intros Hp. unfold args_2_4.
  destruct (Z.ltb_spec p 5); [apply (row_sound 3); [lia|now vm_compute]|].
  destruct (Z.leb_spec 5 p); [|lia]. destruct (Z.ltb_spec p 17); cbn [andb]; [apply (row_sound 5); [lia|now vm_compute]|].
  apply (row_sound 17); [lia|now vm_compute].
Qed.
Lemma args_2_5_ok p : 3 <= p -> row_spec p 2 5 (args_2_5 p).
Proof.
  intros Hp. unfold args_2_5.
  destruct (Z.ltb_spec p 5); [apply (row_sound 3); [lia|now vm_compute]|].
  destruct (Z.leb_spec 5 p); [|lia]. destruct (Z.ltb_spec p 7); cbn [andb]; [apply (row_sound 5); [lia|now vm_compute]|].
  apply (row_sound 7); [lia|now vm_compute].
Qed.
Lemma args_2_6_ok p : 3 <= p -> row_spec p 2 6 (args_2_6 p).
Proof.
  intros Hp. unfold args_2_6.
  destruct (Z.ltb_spec p 5); [apply (row_sound 3); [lia|now vm_compute]|].
  destruct (Z.leb_spec 5 p); [|lia]. destruct (Z.ltb_spec p 7); cbn [andb]; [apply (row_sound 5); [lia|now vm_compute]|].
  destruct (Z.leb_spec 7 p); [|lia]. destruct (Z.ltb_spec p 11); cbn [andb]; [apply (row_sound 7); [lia|now vm_compute]|].
  apply (row_sound 11); [lia|now vm_compute].
Qed.
Lemma args_2_7_ok p : 3 <= p -> row_spec p 2 7 (args_2_7 p).
Proof.
  intros Hp. unfold args_2_7.
  destruct (Z.ltb_spec p 5); [apply (row_sound 3); [lia|now vm_compute]|].
  destruct (Z.leb_spec 5 p); [|lia]. destruct (Z.ltb_spec p 7); cbn [andb]; [apply (row_sound 5); [lia|now vm_compute]|].
  destruct (Z.leb_spec 7 p); [|lia]. destruct (Z.ltb_spec p 11); cbn [andb]; [apply (row_sound 7); [lia|now vm_compute]|].
  destruct (Z.leb_spec 11 p); [|lia]. destruct (Z.ltb_spec p 17); cbn [andb]; [apply (row_sound 11); [lia|now vm_compute]|].
  apply (row_sound 17); [lia|now vm_compute].
Qed.
Lemma args_2_8_ok p : 3 <= p -> row_spec p 2 8 (args_2_8 p).
Proof.
  intros Hp. unfold args_2_8.
  destruct (Z.ltb_spec p 5); [apply (row_sound 3); [lia|now vm_compute]|].
  destruct (Z.leb_spec 5 p); [|lia]. destruct (Z.ltb_spec p 7); cbn [andb]; [apply (row_sound 5); [lia|now vm_compute]|].
  destruct (Z.leb_spec 7 p); [|lia]. destruct (Z.ltb_spec p 13); cbn [andb]; [apply (row_sound 7); [lia|now vm_compute]|].
  destruct (Z.leb_spec 13 p); [|lia]. destruct (Z.ltb_spec p 17); cbn [andb]; [apply (row_sound 13); [lia|now vm_compute]|].
  apply (row_sound 17); [lia|now vm_compute].
Qed.
Lemma args_2_9_ok p : 3 <= p -> row_spec p 2 9 (args_2_9 p).
Proof.
  intros Hp. unfold args_2_9.
  destruct (Z.ltb_spec p 5); [apply (row_sound 3); [lia|now vm_compute]|].
  destruct (Z.leb_spec 5 p); [|lia]. destruct (Z.ltb_spec p 7); cbn [andb]; [apply (row_sound 5); [lia|now vm_compute]|].
  destruct (Z.leb_spec 7 p); [|lia]. destruct (Z.ltb_spec p 11); cbn [andb]; [apply (row_sound 7); [lia|now vm_compute]|].
  destruct (Z.leb_spec 11 p); [|lia]. destruct (Z.ltb_spec p 17); cbn [andb]; [apply (row_sound 11); [lia|now vm_compute]|].
  apply (row_sound 17); [lia|now vm_compute].
Qed.
Lemma args_3_4_ok p : 3 <= p -> row_spec p 3 4 (args_3_4 p).
Proof.
  intros Hp. unfold args_3_4.
  destruct (Z.ltb_spec p 5); [apply (row_sound 3); [lia|now vm_compute]|].
  destruct (Z.leb_spec 5 p); [|lia]. destruct (Z.ltb_spec p 7); cbn [andb]; [apply (row_sound 5); [lia|now vm_compute]|].
  destruct (Z.leb_spec 7 p); [|lia]. destruct (Z.ltb_spec p 23); cbn [andb]; [apply (row_sound 7); [lia|now vm_compute]|].
  destruct (Z.leb_spec 23 p); [|lia]. destruct (Z.ltb_spec p 43); cbn [andb]; [apply (row_sound 23); [lia|now vm_compute]|].
  apply (row_sound 43); [lia|now vm_compute].
Qed.
Lemma args_3_5_ok p : 3 <= p -> row_spec p 3 5 (args_3_5 p).
Proof.
  intros Hp. unfold args_3_5.
  destruct (Z.ltb_spec p 5); [apply (row_sound 3); [lia|now vm_compute]|].
  destruct (Z.leb_spec 5 p); [|lia]. destruct (Z.ltb_spec p 7); cbn [andb]; [apply (row_sound 5); [lia|now vm_compute]|].
  destruct (Z.leb_spec 7 p); [|lia]. destruct (Z.ltb_spec p 11); cbn [andb]; [apply (row_sound 7); [lia|now vm_compute]|].
  destruct (Z.leb_spec 11 p); [|lia]. destruct (Z.ltb_spec p 23); cbn [andb]; [apply (row_sound 11); [lia|now vm_compute]|].
  destruct (Z.leb_spec 23 p); [|lia]. destruct (Z.ltb_spec p 29); cbn [andb]; [apply (row_sound 23); [lia|now vm_compute]|].
  apply (row_sound 29); [lia|now vm_compute].
Qed.
Lemma args_3_6_ok p : 3 <= p -> row_spec p 3 6 (args_3_6 p).
Proof.
  intros Hp. unfold args_3_6.
  destruct (Z.ltb_spec p 5); [apply (row_sound 3); [lia|now vm_compute]|].
  destruct (Z.leb_spec 5 p); [|lia]. destruct (Z.ltb_spec p 7); cbn [andb]; [apply (row_sound 5); [lia|now vm_compute]|].
  destruct (Z.leb_spec 7 p); [|lia]. destruct (Z.ltb_spec p 11); cbn [andb]; [apply (row_sound 7); [lia|now vm_compute]|].
  destruct (Z.leb_spec 11 p); [|lia]. destruct (Z.ltb_spec p 17); cbn [andb]; [apply (row_sound 11); [lia|now vm_compute]|].
  destruct (Z.leb_spec 17 p); [|lia]. destruct (Z.ltb_spec p 23); cbn [andb]; [apply (row_sound 17); [lia|now vm_compute]|].
  apply (row_sound 23); [lia|now vm_compute].
Qed.

Theorem default_args_ok p n d a : 3 <= p -> default_args p n d = OK a -> row_spec p n d a.
Proof.
  intros Hp E. apply default_args_cases in E.
  repeat destruct E as [E|E]; destruct E as (-> & -> & ->);
    first [apply args_2_3_ok | apply args_2_4_ok | apply args_2_5_ok | apply args_2_6_ok | apply args_2_7_ok | apply args_2_8_ok | apply args_2_9_ok | apply args_3_4_ok | apply args_3_5_ok | apply args_3_6_ok]; auto.
Qed.
