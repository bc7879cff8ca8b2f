(** What the constructors are to do with their arguments, independent of the code. *)
From Coq Require Import ZArith List.
From Verif Require Import Base VecModel ToolsModel ToolsSpec DRModel DRSpec SolveSpec DRProofs.
Import ListNotations.
Open Scope Z_scope.

(** f is the polynomial of degree d in n+1 variables whose coefficient at the i-th
    monomial of the list td is g (v_i) *)
Definition coeffs_of (n : nat) (d : Z) (g : Z -> Z) (td : list vec) (v : list Z) (f : poly) : Prop :=
  wf_poly n d f /\ length f = length td /\ forall i, (i < length td)%nat -> In (nth i td [], g (nth i v 0)) f.

(** f and g have the same non-zero terms *)
Definition same_terms (f g : poly) : Prop := forall k c, c <> 0 -> (In (k, c) f <-> In (k, c) g).

(** smooth modulo p: every form of degree (d-2)(n+1)+1 is in the ideal of the
    derivatives *)
Definition smooth_mod (p : Z) (n : nat) (d : Z) (f : poly) : Prop :=
  forall G, in_jacobian p n d f ((d - 2) * (Z.of_nat n + 1) + 1) G.
