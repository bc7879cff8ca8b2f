(** Specification of the floating point operations: relative error at most 2^-50
    (IEEE double has 2^-53, the usual libraries give log to within one unit in the
    last place) on a range far from overflow and underflow. *)
From Coq Require Import ZArith Reals.
From Verif Require Import Base FlModel.
Open Scope R_scope.

Definition ulp : R := / 1125899906842624.
(** zero or of moderate size *)
Definition moderate (z : R) : Prop := z = 0 \/ / 1024 <= z <= 1048576.
Record double_like (A : arith) : Prop := mk_double_like {
  dl_log : forall x : Z, (1 <= x < 2 ^ 63)%Z -> Rabs (a_log A x - ln (IZR x)) <= ulp * ln (IZR x);
  dl_add : forall x y, moderate (x + y) -> Rabs (a_add A x y - (x + y)) <= ulp * (x + y);
  dl_mul : forall x y, moderate (x * y) -> Rabs (a_mul A x y - x * y) <= ulp * (x * y);
  dl_div : forall x y, moderate (x / y) -> Rabs (a_div A x y - x / y) <= ulp * (x / y);
  dl_gt : forall x y, a_gt A x y = true <-> x > y }.

(** the inequality the test is about, and the case in which both sides are equal *)
Definition left_side (k : nat) (p pr : Z) : Z := (Z.of_nat k ^ 2 * p ^ (2 * pr))%Z.
Definition right_side (degree dim k : nat) (p : Z) : Z := (4 * Z.of_nat degree ^ 2 * p ^ (Z.of_nat dim * Z.of_nat k))%Z.
