(** Independent specifications for the enumeration and arithmetic tools. *)
From Coq Require Import ZArith List.
From Verif Require Import Base VecSpec.

Import ListNotations.
Open Scope Z_scope.

(** Pascal's triangle *)
Fixpoint choose (n k : nat) : Z :=
  match n, k with
  | _, O => 1
  | O, S _ => 0
  | S n', S k' => choose n' k' + choose n' k
  end.

(** the monomials of degree d in n variables *)
Definition is_tuple (n : nat) (d : Z) (t : list Z) : Prop :=
  length t = n /\ nonneg t /\ zsum t = d.

(** v is the exact exponent of p in m *)
Definition val_exact (p m v : Z) : Prop :=
  0 <= v /\ (p ^ v | m) /\ ~ (p ^ (v + 1) | m).

(** value of the monomial x^e at a point *)
Fixpoint mono (x e : list Z) : Z :=
  match x, e with
  | a :: x, k :: e => a ^ k * mono x e
  | _, _ => 1
  end.

(** value of a sparse polynomial at a point *)
Definition peval (f : list (list Z * Z)) (x : list Z) : Z :=
  sumf (fun t => snd t * mono x (fst t)) f.

(** the monomials of degree d in n variables, in increasing lexicographic
    order (complete and duplicate free: C02) *)
Fixpoint enum (n : nat) (d : nat) : list (list Z) :=
  match n with
  | O => match d with O => [[]] | _ => [] end
  | S O => [[Z.of_nat d]]
  | S n' => flat_map (fun a => map (cons (Z.of_nat a)) (enum n' (d - a))) (seq 0 (S d))
  end.
