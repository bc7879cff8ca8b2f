(** Properties C02, C04, C05, C06, C07, C09, C10. *)
From Coq Require Import ZArith List Lia Znumtheory Sorted.
From Verif Require Import Base VecModel VecSpec VecProofs ToolsModel ToolsSpec ToolsProofs PolyProofs.
Import ListNotations.
Open Scope Z_scope.

(** C02 *)
Theorem C02_enumeration : forall d n, 0 <= d -> 1 <= n ->
  choose (Z.to_nat (d + n - 1)) (Z.to_nat (n - 1)) < 2 ^ 63 ->
  exists l, tuple_list_generator d n = OK l /\
    (forall t, In t l <-> is_tuple (Z.to_nat n) d t) /\
    StronglySorted lex_lt l /\ NoDup l /\
    zlen l = choose (Z.to_nat (d + n - 1)) (Z.to_nat (n - 1)).
Proof. exact tlg_spec. Qed.
Print Assumptions C02_enumeration.

Example C02_ex : choose (Z.to_nat (3 + 3 - 1)) (Z.to_nat (3 - 1)) < 2 ^ 63 /\
  tuple_list_generator 3 3 =
    OK [[0;0;3]; [0;1;2]; [0;2;1]; [0;3;0]; [1;0;2]; [1;1;1]; [1;2;0]; [2;0;1]; [2;1;0]; [3;0;0]].
Proof. split; [vm_compute|]; reflexivity. Qed.

(** C04 *)
Theorem C04_binomial : forall n k, 0 <= k <= n ->
  choose (Z.to_nat n) (Z.to_nat k) < 2 ^ 63 ->
  binomial n k = OK (choose (Z.to_nat n) (Z.to_nat k)).
Proof. exact binomial_ok. Qed.
Print Assumptions C04_binomial.

Theorem C04_binomial_ZZ : forall n k, 0 <= k <= n ->
  binomial_ZZ n k = OK (choose (Z.to_nat n) (Z.to_nat k)).
Proof. exact binomial_ZZ_ok. Qed.
Print Assumptions C04_binomial_ZZ.

Example C04_ex : binomial 10 4 = OK 210 /\ choose 10 4 = 210.
Proof. split; reflexivity. Qed.

(** C05 is false of the code: a value in [2^63, 2^64) passes the size assertion
    and comes back negative. *)
Theorem C05_binomial_silently_wrong_refuted : exists n k, 0 <= k <= n /\
  exists r, binomial n k = OK r /\ r <> choose (Z.to_nat n) (Z.to_nat k) /\ r < 0.
Proof. exact binomial_wrong. Qed.
Print Assumptions C05_binomial_silently_wrong_refuted.

(** the exact region in which the returned value is right *)
Theorem C05_binomial_right_iff : forall n k r, 0 <= k <= n -> binomial n k = OK r ->
  (r = choose (Z.to_nat n) (Z.to_nat k) <-> choose (Z.to_nat n) (Z.to_nat k) < 2 ^ 63).
Proof. exact binomial_right_iff. Qed.
Print Assumptions C05_binomial_right_iff.

Example C05_ex : binomial 67 33 = OK (-4220223336089263246).
Proof. vm_compute. reflexivity. Qed.

(** C06 *)
Theorem C06_legendre : forall p n, prime p -> 0 <= n ->
  exists v, valuation_of_factorial n p = OK v /\ val_exact p (zfact n) v.
Proof. exact vof_exact. Qed.
Print Assumptions C06_legendre.

Example C06_ex : valuation_of_factorial 29 3 = OK 13 /\ prime 3.
Proof. split; [reflexivity|exact prime_3]. Qed.

(** C07.  [2 <= p] is all that is needed for termination and the assertion;
    that the unit part is a unit needs p prime. *)
Theorem C07_factorial_p_adic : forall q n p start fuel,
  2 <= p -> 1 <= start -> 0 <= n < 2 ^ Z.of_nat fuel ->
  exists v u r, factorial_p_adic fuel q n p start = OK (v, r) /\ 0 <= v /\
    zprod (zseq start (n + 1)) = p ^ v * u /\ cong q r u /\ r = r mod q /\
    (prime p -> ~ (p | u)).
Proof. exact factorial_p_adic_ok. Qed.
Print Assumptions C07_factorial_p_adic.

Example C07_ex : factorial_p_adic 10 1000 12 3 1 = OK (5, 200) /\
  zprod (zseq 1 13) = 3 ^ 5 * 1971200.
Proof. split; reflexivity. Qed.

(** a range containing 0 makes the inner loop run forever *)
Theorem C07_diverges_at_zero : forall q n p start fuel, start <= 0 <= n ->
  factorial_p_adic fuel q n p start = Err EFuel.
Proof. exact factorial_p_adic_diverges. Qed.
Print Assumptions C07_diverges_at_zero.

(** C09 *)
Theorem C09_change_of_variables : forall q f M, let n := length M in
  (forall r, In r M -> length r = n) ->
  (forall k c, In (k, c) f -> length k = n /\ nonneg k) ->
  exists g, change_of_variables q f M = OK g /\
    poly_ok n g /\
    (forall x, length x = n -> cong q (peval g x) (peval f (vmatvec M x))) /\
    (forall k c, In (k, c) g -> exists e c', In (e, c') f /\ zsum k = zsum e).
Proof. exact change_of_variables_ok. Qed.
Print Assumptions C09_change_of_variables.

Example C09_ex : change_of_variables 7 [([2; 0], 1); ([1; 1], 3)] [[1; 2]; [0; 1]]
  = OK [([0; 2], 3); ([1; 1], 0); ([2; 0], 1)].
Proof. reflexivity. Qed.

(** C10 *)
Theorem C10_change_of_variables_monomial : forall u v, length v = length u -> nonneg u ->
  (forall i j, (i < length u)%nat -> 0 <= j <= nth i u 0 ->
     choose (Z.to_nat (nth i u 0)) (Z.to_nat j) < 2 ^ 63) ->
  exists H, change_of_variables_monomial u v = OK H /\ poly_ok (S (length u)) H /\
   forall x y, length x = length u -> peval H (x ++ [y]) = mono (vadd x (vscale y v)) u.
Proof. exact covm_ok. Qed.
Print Assumptions C10_change_of_variables_monomial.

Example C10_ex : change_of_variables_monomial [2; 1] [3; 5]
  = OK [([0;0;3], 45); ([0;1;2], 9); ([1;0;2], 30); ([1;1;1], 6); ([2;0;1], 5); ([2;1;0], 1)].
Proof. reflexivity. Qed.
