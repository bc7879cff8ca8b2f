(** Specification for C67: which lists lie in memory, products as sums.  The
    address space and the objects are those of the model; the values are ordinary lists. *)
From Coq Require Import ZArith List.
From Verif Require Import Base MemModel.
Import ListNotations.
Open Scope Z_scope.

(** the r x c matrix M lies at address h *)
Definition holds (m : mem) (h r c : nat) (M : list (list Z)) : Prop :=
  o_r (m h) = r /\ o_c (m h) = c /\ length M = r /\ (forall row, In row M -> length row = c) /\
  forall i j, (i < r)%nat -> (j < c)%nat -> o_cell (m h) i j = nth j (nth i M []) 0.
(** the vector v lies at address h *)
Definition holdsv (m : mem) (h : nat) (v : list Z) : Prop :=
  o_r (m h) = length v /\ o_c (m h) = 1%nat /\ forall i, (i < length v)%nat -> o_cell (m h) i 0%nat = nth i v 0.
(** at address h lies an array of the given size, with any content *)
Definition room (m : mem) (h r c : nat) : Prop := o_r (m h) = r /\ o_c (m h) = c.
(** nothing but the object h has changed *)
Definition only (h : nat) (m m' : mem) : Prop := forall h', h' <> h -> m' h' = m h'.
(** the r x c matrix with entries g i j *)
Definition mk (r c : nat) (g : nat -> nat -> Z) : list (list Z) := map (fun i => map (g i) (seq 0 c)) (seq 0 r).
(** entry (i, j) of A B^T, the inner length being k *)
Definition prod_entry (k : nat) (A B : list (list Z)) (i j : nat) : Z :=
  sumf (fun l => nth l (nth i A []) 0 * nth l (nth j B []) 0) (seq 0 k).
