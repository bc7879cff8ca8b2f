(** Model of the routines that write their result through a pointer or a
    reference: matrix.h 49-60, 112-147, 156-174, 183-207, mul_tranpose.cc 17-41,
    transpose_mul_tranpose.cc 17-41, nmod_mat_sub_submatrix (dr_nd.cc 1740-1751) and
    the loops of dr_nd.cc 830-846 and 1858-1991 that exchange two buffers.  The
    other models treat these routines as functions; here the memory is explicit, so
    that two arguments may be the same object. *)
From Coq Require Import ZArith List Bool.
From Verif Require Import Base VecModel MatModel FdModel.
Import ListNotations.
Open Scope Z_scope.

(** an array: rows, columns, content.  A vector is an array with one column.  Cells
    outside the rows exist (NTL keeps excess rows) but must not be accessed. *)
Record obj := Obj { o_r : nat; o_c : nat; o_cell : nat -> nat -> Z }.
(** the memory: objects by address *)
Definition mem := nat -> obj.

(** h(i, j) as a value; outside the array it is undefined behaviour *)
Definition rd (m : mem) (h i j : nat) : res Z :=
  _ <- check (Nat.ltb i (o_r (m h)) && Nat.ltb j (o_c (m h))) EUB ;; OK (o_cell (m h) i j).
(** replacement of an object *)
Definition put (m : mem) (h : nat) (o : obj) : mem := fun h' => if Nat.eqb h' h then o else m h'.
(** h(i, j) = x *)
Definition wr (m : mem) (h i j : nat) (x : Z) : res mem :=
  _ <- check (Nat.ltb i (o_r (m h)) && Nat.ltb j (o_c (m h))) EUB ;;
  OK (put m h (Obj (o_r (m h)) (o_c (m h))
                (fun i' j' => if Nat.eqb i' i && Nat.eqb j' j then x else o_cell (m h) i' j'))).

(** matrix.h 49-60: nmod_vec_dot_compat of row [i] of [a] and the vector [v] *)
Definition nmod_dot (q : Z) (m : mem) (a i v len : nat) : res Z :=
  foldM (fun acc k => x <- rd m a i k ;; y <- rd m v k 0 ;; OK ((acc + (x * y) mod q) mod q)) (seq 0 len) 0.

(** matrix.h 112-119: mul(result, A, v, params) *)
Definition nmod_mul (q : Z) (m : mem) (result a v : nat) : res mem :=
  foldM (fun m i => x <- nmod_dot q m a i v (o_c (m a)) ;; wr m result i 0 x) (seq 0 (o_r (m a))) m.

(** FLINT _nmod_vec_scalar_addmul_nmod(res, vec, len, c, mod): res += c vec, entry by
    entry *)
Definition nmod_addmul (q : Z) (m : mem) (result v len : nat) (c : Z) : res mem :=
  foldM (fun m i => x <- rd m result i 0 ;; y <- rd m v i 0 ;; wr m result i 0 ((x + (c * y) mod q) mod q)) (seq 0 len) m.

(** matrix.h 156-174: nmod_mat_sub(C, A, B); _nmod_vec_sub goes through a row entry
    by entry *)
Definition nmod_mat_sub (q : Z) (m : mem) (c a b : nat) : res mem :=
  if Nat.eqb (o_c (m c)) 0 then OK m else
  foldM (fun m ij => x <- rd m a (fst ij) (snd ij) ;; y <- rd m b (fst ij) (snd ij) ;; wr m c (fst ij) (snd ij) ((x - y) mod q))
    (list_prod (seq 0 (o_r (m c))) (seq 0 (o_c (m c)))) m.

(** dr_nd.cc 1740-1751: nmod_mat_sub_submatrix *)
Definition nmod_mat_sub_submatrix (q : Z) (m : mem) (c a b max_row min_col : nat) : res mem :=
  if Nat.eqb (o_c (m c)) 0 then OK m else
  foldM (fun m ij => x <- rd m a (fst ij) (snd ij) ;; y <- rd m b (fst ij) (snd ij) ;; wr m c (fst ij) (snd ij) ((x - y) mod q))
    (list_prod (seq 0 max_row) (seq min_col (o_c (m b) - min_col))) m.

(** dr_nd.cc 831-845: one pass of the loop; G is the triple of pointers Gin, Gout,
    Gtmp, the matrices poly_nmod + i lie at the addresses P i *)
Definition word_step (q : Z) (n dp : nat) (P : nat -> nat) (st : mem * (nat * nat)) (gtmp : nat) (x : Z) : res (mem * (nat * nat)) :=
  let m := fst st in let gin := fst (snd st) in let gout := snd (snd st) in
  _ <- check (x <? q) EUB ;;
  m <- nmod_mul q m gout (P 0%nat) gin ;;
  xm <- foldM (fun (xm : Z * mem) i =>
      let xp := (fst xm * x) mod q in
      m <- nmod_mul q (snd xm) gtmp (P i) gin ;;
      m <- nmod_addmul q m gout gtmp dp xp ;;
      OK (xp, m)) (seq 1 n) (1, m) ;;
  let xp := (fst xm * x) mod q in
  t <- nmod_dot q (snd xm) (P (S n)) 0 gin dp ;;
  g <- rd (snd xm) gout 0 0 ;;
  m <- wr (snd xm) gout 0 0 ((g + (t * xp) mod q) mod q) ;;
  OK (m, (gout, gin)).

(** dr_nd.cc 830-846: the loop x = iterations-1, ..., 0; swap exchanges the pointers *)
Definition word_loop (q : Z) (n dp : nat) (P : nat -> nat) (iterations : Z) (gtmp : nat) (st : mem * (nat * nat)) : res (mem * (nat * nat)) :=
  foldM (fun st x => word_step q n dp P st gtmp x) (rev (zseq 0 iterations)) st.

(** dr_nd.cc 1939-1945 and 1971-1972: mul(Hout, Mfd + j, H); swap(H, Hout) *)
Definition fd_mul (q : Z) (st : mem * (nat * nat)) (a : nat) : res (mem * (nat * nat)) :=
  m <- nmod_mul q (fst st) (snd (snd st)) a (fst (snd st)) ;; OK (m, (snd (snd st), fst (snd st))).

(** dr_nd.cc 1949-1951: the table of differences, in place; Mfd + j is the object A j *)
Definition fd_table_mem (q : Z) (A : nat -> nat) (len : nat) (m : mem) : res mem :=
  foldM (fun m l => foldM (fun m j => nmod_mat_sub q m (A j) (A j) (A (j - 1)%nat)) (rev (seq l (len - l))) m) (seq 1 (len - 1)) m.

(** dr_nd.cc 1962-1968: the update of the table *)
Definition fd_update_mem (q : Z) (A : nat -> nat) (len : nat) (boxes : list (nat * nat)) (m : mem) : res mem :=
  foldM (fun m j => let b := nth (S j) boxes (0%nat, 0%nat) in nmod_mat_sub_submatrix q m (A j) (A j) (A (S j)) (fst b) (snd b))
    (rev (seq 0 (len - 1))) m.

(** dr_nd.cc 1953-1973 *)
Fixpoint fd_loop_mem (q : Z) (A : nat -> nat) (len : nat) (boxes : list (nat * nat)) (k : nat) (st : mem * (nat * nat)) : res (mem * (nat * nat)) :=
  match k with
  | O => OK st
  | S k => m <- fd_update_mem q A len boxes (fst st) ;; st <- fd_mul q (m, snd st) (A 0%nat) ;; fd_loop_mem q A len boxes k st
  end.

(** dr_nd.cc 1939-1973: from the table of values in memory on *)
Definition fd_run_mem (q : Z) (A : nat -> nat) (len : nat) (boxes : list (nat * nat)) (k : nat) (st : mem * (nat * nat)) : res (mem * (nat * nat)) :=
  st <- foldM (fun st l => fd_mul q st (A (len - 1 - l)%nat)) (seq 0 len) st ;;
  m <- fd_table_mem q A len (fst st) ;;
  fd_loop_mem q A len boxes k (m, snd st).

(** NTL Mat::SetDims(n, m): a different number of columns frees the storage and
    initialises a new one; otherwise only the number of rows changes *)
Definition set_dims (m : mem) (h r c : nat) : mem :=
  put m h (Obj r c (if Nat.eqb (o_c (m h)) c then o_cell (m h) else fun _ _ => 0)).

(** matrix.h 123-147: the template, every operation in T (q = 0: ZZ); the loop bounds are read
    before SetDims *)
Definition mul_transpose (q : Z) (m : mem) (result a b : nat) : res mem :=
  let rA := o_r (m a) in let cB := o_r (m b) in let rB := o_c (m b) in
  _ <- check (Nat.eqb (o_c (m a)) rB) EAssert ;;
  foldM (fun m ij =>
      acc <- foldM (fun acc k => x <- rd m a (fst ij) k ;; y <- rd m b (snd ij) k ;; OK ((acc + (x * y) mod q) mod q)) (seq 0 rB) 0 ;;
      wr m result (fst ij) (snd ij) acc)
    (list_prod (seq 0 rA) (seq 0 cB)) (set_dims m result rA cB).

(** mul_tranpose.cc 17-41: the specialisation for ZZ_p, accumulation over ZZ *)
Definition mul_transpose_ZZ_p (q : Z) (m : mem) (result a b : nat) : res mem :=
  let rA := o_r (m a) in let cB := o_r (m b) in let rB := o_c (m b) in
  _ <- check (Nat.eqb (o_c (m a)) rB) EAssert ;;
  foldM (fun m ij =>
      acc <- foldM (fun acc k => x <- rd m a (fst ij) k ;; y <- rd m b (snd ij) k ;; OK (acc + x * y)) (seq 0 rB) 0 ;;
      wr m result (fst ij) (snd ij) (acc mod q))
    (list_prod (seq 0 rA) (seq 0 cB)) (set_dims m result rA cB).

(** matrix.h 183-207: the template *)
Definition transpose_mul_transpose (q : Z) (m : mem) (result a b : nat) : res mem :=
  let rA := o_r (m a) in let cB := o_r (m b) in let rB := o_c (m b) in
  _ <- check (Nat.eqb (o_c (m a)) rB) EAssert ;;
  foldM (fun m ji =>
      acc <- foldM (fun acc k => x <- rd m a (snd ji) k ;; y <- rd m b (fst ji) k ;; OK ((acc + (x * y) mod q) mod q)) (seq 0 rB) 0 ;;
      wr m result (fst ji) (snd ji) acc)
    (list_prod (seq 0 cB) (seq 0 rA)) (set_dims m result cB rA).

(** transpose_mul_tranpose.cc 17-41: the specialisation for ZZ_p *)
Definition transpose_mul_transpose_ZZ_p (q : Z) (m : mem) (result a b : nat) : res mem :=
  let rA := o_r (m a) in let cB := o_r (m b) in let rB := o_c (m b) in
  _ <- check (Nat.eqb (o_c (m a)) rB) EAssert ;;
  foldM (fun m ji =>
      acc <- foldM (fun acc k => x <- rd m a (snd ji) k ;; y <- rd m b (fst ji) k ;; OK (acc + x * y)) (seq 0 rB) 0 ;;
      wr m result (fst ji) (snd ji) (acc mod q))
    (list_prod (seq 0 cB) (seq 0 rA)) (set_dims m result cB rA).
