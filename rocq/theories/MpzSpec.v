(** Specification: matrices in row-major memory. *)
From Coq Require Import ZArith List.
From Verif Require Import Base VecModel MatModel.
Import ListNotations.
Open Scope Z_scope.

(** memory that starts with the rows of M one after the other *)
Definition holds (a : list Z) (M : mat) : Prop := exists rest, a = concat M ++ rest.
(** the matrix with entries F i j *)
Definition tab (r c : nat) (F : nat -> nat -> Z) : mat := map (fun i => map (F i) (seq 0 c)) (seq 0 r).

(** the row stride of the code is the number of rows; harmless in these cases *)
Definition stride_ok (r c : nat) : Prop := r = c \/ (r <= 1)%nat.

(** the product of matrices *)
Definition mprod (r K c : nat) (A B : mat) : mat := tab r c (fun i j => sumf (fun k => mget A i k * mget B k j) (seq 0 K)).
