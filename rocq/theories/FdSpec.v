(** Specification of the evaluation of matrix polynomials, independent of the
    code. *)
From Coq Require Import ZArith List.
From Verif Require Import Base.
Import ListNotations.
Open Scope Z_scope.

(** entry (i, j) of M(x) = sum_e x^e M[e] *)
Definition mp_entry (M : list (list (list Z))) (x : Z) (i j : nat) : Z :=
  sumf (fun e => x ^ Z.of_nat e * nth j (nth i (nth e M []) []) 0) (seq 0 (length M)).

(** M(x) v *)
Definition mp_apply (d : nat) (M : list (list (list Z))) (x : Z) (v : list Z) : list Z :=
  map (fun i => sumf (fun j => mp_entry M x i j * nth j v 0) (seq 0 d)) (seq 0 d).

(** M(0) M(1) ... M(k-1) v *)
Fixpoint mp_product (d : nat) (M : list (list (list Z))) (k : nat) (v : list Z) : list Z :=
  match k with
  | O => v
  | S k => mp_product d M k (mp_apply d M (Z.of_nat k) v)
  end.

(** a list of d x d matrices with entries in [0, q) *)
Definition mp_ok (q : Z) (d : nat) (M : list (list (list Z))) : Prop :=
  forall A, In A M -> length A = d /\
    forall r, In r A -> length r = d /\ forall x, In x r -> 0 <= x < q.

(** a region "rows below mr, columns from mc on" contains the support of A *)
Definition supported (mr mc : nat) (A : list (list Z)) : Prop :=
  forall i j, nth j (nth i A []) 0 <> 0 -> (i < mr)%nat /\ (mc <= j)%nat.

(** every region that contains the support of coefficient e (1 <= e) contains
    those of the higher coefficients *)
Definition nested (M : list (list (list Z))) : Prop :=
  forall e e' mr mc, (1 <= e <= e')%nat -> (e' < length M)%nat ->
    supported mr mc (nth e M []) -> supported mr mc (nth e' M []).
