(** Model of the NTL matrix and vector operations used by /repo
    (Mat<ZZ_p>, Mat<ZZ>, Vec<ZZ_p>, Vec<ZZ>): a matrix is the list of its rows,
    every ring operation is reduced modulo q, and q = 0 means Z. *)
From Coq Require Import ZArith List Bool.
From Verif Require Import Base VecModel.
Import ListNotations.
Open Scope Z_scope.

Definition mat := list (list Z).

(** M[i][j] *)
Definition mget (M : mat) (i j : nat) : Z := nth j (nth i M []) 0.
(** M[i][j] = x *)
Definition mset (M : mat) (i j : nat) (x : Z) : mat := upd M i (upd (nth i M []) j x).
(** M.SetDims(r, c) on an empty matrix: all entries zero (NTL Mat) *)
Definition mzero (r c : nat) : mat := repeat (repeat 0 c) r.

(** NTL mul(Vec, Mat, Vec) / operator*; a dimension mismatch is LogicError *)
Definition mat_vec (q : Z) (M : mat) (v : list Z) : res (list Z) :=
  if forallb (fun r => Nat.eqb (length r) (length v)) M
  then OK (map (fun r : list Z => (vdot r v) mod q) M)
  else Err EAbort.

(** NTL add(Vec, Vec, Vec) / operator+= *)
Definition lvec_add (q : Z) (v w : list Z) : res (list Z) :=
  if Nat.eqb (length v) (length w)
  then OK (map2 (fun a b => (a + b) mod q) v w)
  else Err EAbort.

(** NTL mul(Vec, long, Vec) *)
Definition lvec_scal (q c : Z) (v : list Z) : list Z := map (fun x => (c * x) mod q) v.

(** conversion / remainder of every entry modulo q *)
Definition lvec_red (q : Z) (v : list Z) : list Z := map (fun x => x mod q) v.

(** NTL add(Mat, Mat, Mat) / operator+= *)
Definition mat_add (q : Z) (A B : mat) : res mat :=
  if Nat.eqb (length A) (length B) &&
     forallb (fun ab => Nat.eqb (length (fst ab)) (length (snd ab))) (combine A B)
  then OK (map2 (map2 (fun a b => (a + b) mod q)) A B)
  else Err EAbort.

(** NTL mul(Mat, Mat, long) *)
Definition mat_scal (q c : Z) (A : mat) : mat := map (map (fun x => (c * x) mod q)) A.

(** M[i][j] += x *)
Definition madd_at (q : Z) (M : mat) (i j : nat) (x : Z) : mat :=
  mset M i j ((mget M i j + x) mod q).

(** a loop of entry updates M[i][j] += x, in order *)
Definition madd_all (q : Z) (ups : list (nat * nat * Z)) (M : mat) : mat :=
  fold_left (fun M u => madd_at q M (fst (fst u)) (snd (fst u)) (snd u)) ups M.

(** a loop of entry assignments M[i][j] = x, in order *)
Definition mset_all (ups : list (nat * nat * Z)) (M : mat) : mat :=
  fold_left (fun M u => mset M (fst (fst u)) (snd (fst u)) (snd u)) ups M.

(** a loop of updates v[i] += x, in order *)
Definition vadd_all (q : Z) (ups : list (nat * Z)) (v : list Z) : list Z :=
  fold_left (fun v u => upd v (fst u) ((nth (fst u) v 0 + snd u) mod q)) ups v.

(** all positions of a list of updates lie in an r x c matrix; a write outside
    is undefined behaviour *)
Definition in_range (r c : nat) (ups : list (nat * nat * Z)) : bool :=
  forallb (fun u => Nat.ltb (fst (fst u)) r && Nat.ltb (snd (fst u)) c) ups.

Definition transpose (r c : nat) (M : mat) : mat :=
  map (fun j => map (fun i => mget M i j) (seq 0 r)) (seq 0 c).

(** sequencing a fallible computation over a list *)
Fixpoint mapM {A B} (f : A -> res B) (l : list A) : res (list B) :=
  match l with
  | [] => OK []
  | a :: r => b <- f a ;; bs <- mapM f r ;; OK (b :: bs)
  end.

Fixpoint foldM {A S} (f : S -> A -> res S) (l : list A) (s : S) : res S :=
  match l with
  | [] => OK s
  | a :: r => s' <- f s a ;; foldM f r s'
  end.

(** array access; outside the array it is undefined behaviour *)
Definition get_at {A} (l : list A) (i : Z) : res A :=
  if i <? 0 then Err EUB
  else match nth_error l (Z.to_nat i) with Some a => OK a | None => Err EUB end.
