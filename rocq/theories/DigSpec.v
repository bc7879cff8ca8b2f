(** Specification for C66: polynomials that agree modulo q, and the number of
    p-adic digits that the division by a factorial costs. *)
From Coq Require Import ZArith List.
Import ListNotations.
Open Scope Z_scope.

(** the same monomials in the same order, coefficients that agree modulo q *)
Definition congruent (q : Z) (f f' : list (list Z * Z)) : Prop :=
  Forall2 (fun t t' => fst t = fst t' /\ (q | snd t - snd t')) f f'.

(** a division by p^v with n - 1 factors p available costs v - (n-1) digits *)
Definition lost (n v : Z) : Z := Z.max 0 (v - (n - 1)).
