(** Non-degeneracy, independent of the code. *)
From Coq Require Import ZArith List.
From Verif Require Import Base ToolsSpec DRSpec NDSpec.
Import ListNotations.
Open Scope Z_scope.

(** the form with coefficients G of degree l is in the ideal of the logarithmic
    derivatives x_i df/dx_i modulo p *)
Definition in_log_jacobian (p : Z) (n : nat) (d : Z) (f : list (list Z * Z)) (l : Z) (G : list Z -> Z) : Prop :=
  exists h : nat -> list Z -> Z, forall t, is_tuple (S n) l t ->
    cong p (G t) (sumf (fun i => sumf (fun s => h i s * coef_xdx f i s t) (enum (S n) (Z.to_nat (l - d)))) (seq 0 (S n))).

(** f, homogeneous of degree d in n+1 variables, is non-degenerate modulo p *)
Definition non_degenerate (p : Z) (n : nat) (d : Z) (f : list (list Z * Z)) : Prop :=
  forall G, in_log_jacobian p n d f ((d - 1) * (Z.of_nat n + 1) + 1) G.

(** the determinant, by expansion along the first row *)
Fixpoint detf (n : nat) (A : nat -> nat -> Z) : Z :=
  match n with
  | O => 1
  | S n => sumf (fun j => (-1) ^ Z.of_nat j * A O j * detf n (fun i k => A (S i) (if Nat.ltb k j then k else S k))) (seq 0 (S n))
  end.

(** NTL's determinant(Mat<zz_p>) *)
Definition det_spec (p : Z) (det : Z -> nat -> list (list Z) -> Z) : Prop :=
  forall n A, length A = n -> Forall (fun r => length r = n) A ->
    0 <= det p n A < p /\ cong p (det p n A) (detf n (fun i j => nth j (nth i A []) 0)).
