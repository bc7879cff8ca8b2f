(** Specification: integer polynomials with a functional equation and bounded
    power sums of the roots (as the characteristic polynomial of Frobenius).
    A polynomial is the list of its coefficients, constant term first. *)
From Coq Require Import ZArith List Lia.
From Verif Require Import Base.
Import ListNotations.
Open Scope Z_scope.

(** exponent of p in the functional equation *)
Definition half (degree dim i : nat) : Z := (Z.of_nat (degree - 2 * i) * Z.of_nat dim) / 2.

(** s is the sequence of power sums of the roots of the monic polynomial P of
    the given degree (Newton's identities) *)
Definition power_sums (degree : nat) (P : list Z) (s : nat -> Z) : Prop :=
  forall k, (1 <= k <= degree)%nat ->
    Z.of_nat k * nth (degree - k) P 0 +
    sumf (fun i => nth (degree - (k - i)) P 0 * s i) (seq 1 k) = 0.

(** monic, functional equation with sign eps, power sums as for roots of
    absolute value p^(dim/2) *)
Record weil (p : Z) (degree dim : nat) (eps : Z) (P : list Z) : Prop := mk_weil {
  weil_len : length P = S degree;
  weil_monic : nth degree P 0 = 1;
  weil_eps : eps = 1 \/ eps = -1;
  weil_even : Nat.even (degree * dim) = true;
  weil_eq : forall i, (2 * i <= degree)%nat -> nth i P 0 = eps * nth (degree - i) P 0 * p ^ half degree dim i;
  weil_bound : exists s, power_sums degree P s /\
    forall k, (1 <= k <= degree)%nat -> s k ^ 2 <= Z.of_nat degree ^ 2 * p ^ (Z.of_nat dim * Z.of_nat k) }.

(** precision of coefficient j when the functional equation is used *)
Definition full_prec (degree dim : nat) (prec : list Z) (j : nat) : Z :=
  if Nat.leb (2 * j) degree
  then Z.max (nth j prec 0) (nth (degree - j) prec 0 + half degree dim j)
  else Z.max (nth j prec 0) (nth (degree - j) prec 0 - half degree dim (degree - j)).

(** enough precision: k * p^prec > 2 * degree * p^(dim*k/2) *)
Definition enough (p : Z) (degree dim : nat) (prec : list Z) : Prop :=
  forall k, (1 <= k <= degree)%nat ->
    4 * Z.of_nat degree ^ 2 * p ^ (Z.of_nat dim * Z.of_nat k) <
    Z.of_nat k ^ 2 * p ^ (2 * full_prec degree dim prec (degree - k)).

(** the sign can be read off the coefficients i and degree-i at the given precision *)
Definition detects (p : Z) (degree dim : nat) (prec P : list Z) (i : nat) : Prop :=
  (1 <= i)%nat /\ (2 * i <= degree)%nat /\
  ~ (p ^ Z.min (nth i prec 0) (nth (degree - i) prec 0 + half degree dim i) | nth i P 0) /\
  ~ (p ^ Z.min (nth i prec 0) (nth (degree - i) prec 0) | nth (degree - i) P 0).
