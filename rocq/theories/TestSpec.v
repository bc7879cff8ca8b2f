(** Specification for C56: what the self-tests compare. *)
From Coq Require Import ZArith List.
From Verif Require Import Base VecSpec ToolsSpec DRSpec FrobSpec.
Import ListNotations.
Open Scope Z_scope.

Section Drawn.
  Context {A B : Type}.
  (** [one] applied to the numbers rs, then to those left, and so on, gives the
      values [l] and leaves the last list *)
  Inductive drawn (one : list Z -> res (A * list Z)) : list Z -> list A -> list Z -> Prop :=
  | drawn_nil rs : drawn one rs [] rs
  | drawn_cons rs a rs1 l rs2 : one rs = OK (a, rs1) -> drawn one rs1 l rs2 -> drawn one rs (a :: l) rs2.

  (** attempts: a value u drawn by [st], then values drawn by [one u] *)
  Inductive attempts (st : list Z -> res (B * list Z)) (one : B -> list Z -> res (A * list Z)) : list Z -> list (B * list A) -> list Z -> Prop :=
  | attempts_nil rs : attempts st one rs [] rs
  | attempts_cons rs u rs1 l rs2 t rs3 : st rs = OK (u, rs1) -> drawn (one u) rs1 l rs2 -> attempts st one rs2 t rs3 ->
      attempts st one rs ((u, l) :: t) rs3.
End Drawn.

(** what it means that no difference is found *)
Definition all_equal {A} (l : list A) : Prop := forall x y, In x l -> In y l -> x = y.

(** P represents the power f^i modulo q: the same value for every functional *)
Definition power_of (q : Z) (n : nat) (f P : list (list Z * Z)) (i : nat) : Prop :=
  forall w, cong q (sumf (fun t => snd t * w (fst t)) P) (pow_sum n f i w).

(** the k-th coordinate of f^i x^b, when the monomial x^a x^b gets the coordinates
    [cs a] *)
Definition coord_sum (P : list (list Z * Z)) (cs : list (list Z)) (k : nat) : Z :=
  sumf (fun i => snd (nth i P ([], 0)) * nth k (nth i cs []) 0) (seq 0 (length P)).
