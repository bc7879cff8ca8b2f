(** C71: the times printed by the test programs. *)
From Coq Require Import ZArith QArith Lia Bool.
From Verif Require Import Base TimeModel.
Open Scope Z_scope.

(** the moment a pair stands for, in seconds, with [unit] parts per second *)
Definition moment (unit : positive) (t : stamp) : Q := (inject_Z (fst t) + (snd t # unit))%Q.
(** a pair as the system returns it *)
Definition normal (unit : Z) (t : stamp) : Prop := 0 <= snd t < unit.

Lemma quot_b x : 0 <= x -> x - 1000000 < 1000000 * (x ÷ 1000000) <= x.
Proof. intros Hx. rewrite Z.quot_div_nonneg by lia. pose proof (Z.div_mod x 1000000 ltac:(lia)). pose proof (Z.mod_pos_bound x 1000000 ltac:(lia)). lia. Qed.
Lemma int_micro_ok n : 0 <= 1000000 * n < 2 ^ 31 -> int_micro n = OK (1000000 * n).
Proof. intros H. unfold int_micro. destruct (Z.leb_spec (- 2 ^ 31) (1000000 * n)); [|lia]. destruct (Z.ltb_spec (1000000 * n) (2 ^ 31)); [reflexivity|lia]. Qed.
(** no overflow unless the microseconds are apart by more than 2147483647 - 1000000;
    then the parts have the right sum, and the second is at most a second *)
Lemma parts_ok s e : Z.abs (snd e - snd s) <= 2 ^ 31 - 1 - 1000000 -> exists x y, timeval_parts s e = OK (x, y) /\
  1000000 * x + y = 1000000 * (fst e - fst s) + (snd e - snd s) /\ 0 <= y <= 1000000.
Proof.
  destruct s as [a b], e as [c d]. unfold timeval_parts, carry_up, carry_down. cbn [fst snd]. intros H. destruct (Z.ltb_spec d b).
  - pose proof (quot_b (b - d) ltac:(lia)). cbv zeta. rewrite int_micro_ok by lia. cbn [bind fst snd].
    destruct (Z.ltb_spec 1000000 (d - (b - 1000000 * ((b - d) ÷ 1000000 + 1)))); [lia|]. cbn [bind fst snd]. do 2 eexists. split; [reflexivity|lia].
  - cbn [bind fst snd]. destruct (Z.ltb_spec 1000000 (d - b)).
    + pose proof (quot_b (d - b) ltac:(lia)). cbv zeta. rewrite int_micro_ok by lia. cbn [bind fst snd]. do 2 eexists. split; [reflexivity|lia].
    + cbn [bind fst snd]. do 2 eexists. split; [reflexivity|lia].
Qed.
(** the difference of the moments, exactly *)
Theorem C71_timeval : forall s e, Z.abs (snd e - snd s) <= 2 ^ 31 - 1 - 1000000 ->
  exists r, timeval_diff s e = OK r /\ (r == moment 1000000 e - moment 1000000 s)%Q.
Proof.
  intros s e H. destruct (parts_ok s e H) as (x & y & E & S & _). unfold timeval_diff. rewrite E. cbn [bind fst snd]. eexists. split; [reflexivity|].
  unfold moment. destruct s as [a b], e as [c d]. cbn [fst snd] in *. unfold Qeq, Qminus, Qopp, Qplus, Qmult, inject_Z. cbn [Qnum Qden]. lia.
Qed.
Theorem C71_timespec : forall s e, (timespec_diff s e == moment 1000000000 e - moment 1000000000 s)%Q.
Proof.
  intros [a b] [c d]. unfold timespec_diff, moment. set (r := timespec_parts (a, b) (c, d)).
  assert (H : 1000000000 * fst r + snd r = 1000000000 * (c - a) + (d - b)).
  { unfold r, timespec_parts. cbn [fst snd]. destruct (d - b <? 0); cbn [fst snd]; lia. }
  cbn [fst snd]. unfold Qeq, Qminus, Qopp, Qplus, Qmult, inject_Z. cbn [Qnum Qden]. lia.
Qed.
(** what the carries are for: for pairs as the system returns them the second part is
    not negative and less than a second, and the seconds are not negative if the
    second moment is not before the first *)
Theorem C71_parts : forall s e,
  (normal 1000000 s -> normal 1000000 e -> exists r, timeval_parts s e = OK r /\ normal 1000000 r /\
     ((moment 1000000 s <= moment 1000000 e)%Q -> 0 <= fst r)) /\
  (normal 1000000000 s -> normal 1000000000 e -> normal 1000000000 (timespec_parts s e) /\
     ((moment 1000000000 s <= moment 1000000000 e)%Q -> 0 <= fst (timespec_parts s e))).
Proof.
  intros [a b] [c d]. unfold normal, moment. cbn [fst snd]. split.
  - intros N1 N2. unfold timeval_parts, carry_up, carry_down. cbn [fst snd]. destruct (Z.ltb_spec d b).
    + rewrite Z.quot_small by lia. cbv zeta. rewrite int_micro_ok by lia. cbn [bind fst snd]. destruct (Z.ltb_spec 1000000 (d - (b - 1000000 * (0 + 1)))); [lia|]. cbn [bind fst snd].
      eexists. split; [reflexivity|]. cbn [fst snd]. split; [lia|]. intros L. unfold Qle, Qplus, inject_Z in L. cbn [Qnum Qden] in L. lia.
    + cbn [bind fst snd]. destruct (Z.ltb_spec 1000000 (d - b)); [lia|]. cbn [bind fst snd]. eexists. split; [reflexivity|]. cbn [fst snd]. split; [lia|].
      intros L. unfold Qle, Qplus, inject_Z in L. cbn [Qnum Qden] in L. lia.
  - intros N1 N2. unfold timespec_parts. cbn [fst snd]. destruct (Z.ltb_spec (d - b) 0); cbn [fst snd]; (split; [lia|]); intros L; unfold Qle, Qplus, inject_Z in L; cbn [Qnum Qden] in L; lia.
Qed.
(** for other pairs: line 20 has > where >= would carry once more, and int overflows *)
Theorem C71_parts_all_refuted :
  timeval_parts (5, 0) (7, 1000000) = OK (2, 1000000) /\ timeval_parts (0, 2147000000) (0, 0) = Err EUB /\ timeval_parts (0, 0) (0, 2148000000) = Err EUB.
Proof. repeat split. Qed.
Print Assumptions C71_timeval.
Print Assumptions C71_timespec.
Print Assumptions C71_parts.
Print Assumptions C71_parts_all_refuted.
Example C71_ex : timeval_parts (5, 900000) (7, 100000) = OK (1, 200000) /\ timeval_parts (0, 0) (0, 3500000) = OK (3, 500000) /\
  timespec_parts (5, 900000000) (7, 100000000) = (1, 200000000) /\ (timespec_diff (5%Z, 900000000%Z) (7%Z, 100000000%Z) == 12 # 10)%Q.
Proof. repeat split. Qed.
