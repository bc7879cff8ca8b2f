(** What the loop condition of geometric_picard.cc is assumed to be. *)
From Coq Require Import ZArith QArith.
Open Scope Z_scope.

(** The double x k approximates k/(log2 k + 1):  it is 1 for k = 1 and k = 2
    (log 1 = 0 and log 2/log 2 = 1 are exact), and otherwise the comparison with
    an integer is right when the two numbers differ by a factor of 8/7 or more:
    k/(log2 k + 1) <= c is 2^k <= (2k)^c. *)
Record double_ok (x : Z -> Q) : Prop := {
  dk_1 : (x 1%Z == 1)%Q;
  dk_2 : (x 2%Z == 1)%Q;
  dk_le : forall k c, 3 <= k -> 1 <= c -> 2 ^ (8 * k) <= (2 * k) ^ (7 * c) -> (x k <= inject_Z c)%Q;
  dk_gt : forall k c, 3 <= k -> 0 <= c -> (2 * k) ^ (8 * c) < 2 ^ (7 * k) -> (inject_Z c < x k)%Q }.

(** the number of roots that are p times a root of unity, plus one if the dimension is even *)
Definition picard_count (dim : Z) (roots : nat) : Z := Z.of_nat roots + (if Z.even dim then 1 else 0).
