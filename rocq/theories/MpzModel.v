(** Model of the integer conversions (conv/conv.cc, conv.h) and of the routines
    on flat arrays of big integers (matrix/mul.cc, matrix/mul_tranpose.cc).
    NTL::ZZ, mpz_t and fmpz_t are all Z; an array is a list and an access
    outside it is undefined behaviour.  The destination is a different array
    from the sources. *)
From Coq Require Import ZArith List Bool.
From Verif Require Import Base VecModel MatModel.
Import ListNotations.
Open Scope Z_scope.

(** ** Integers *)
(** NTL NumBytes: number of bytes of |b|, 0 for 0 *)
Definition num_bytes (b : Z) : Z := if b =? 0 then 0 else Z.log2 (Z.abs b) / 8 + 1.
(** GMP mpz_sizeinbase(b, 2): number of bits of |b|, 1 for 0 *)
Definition size_base2 (b : Z) : Z := if b =? 0 then 1 else Z.log2 (Z.abs b) + 1.

(** NTL BytesFromZZ(p, a, n): the n low-order bytes of |a|, least significant first *)
Fixpoint bytes_of (n : nat) (a : Z) : list Z :=
  match n with
  | O => []
  | S n => a mod 256 :: bytes_of n (a / 256)
  end.
(** NTL ZZFromBytes and GMP mpz_import(.., n, -1, 1, 1, 0, bytes) *)
Fixpoint of_bytes (l : list Z) : Z :=
  match l with
  | [] => 0
  | b :: l => b + 256 * of_bytes l
  end.
(** GMP mpz_export(bytes, &n, -1, 1, 1, 0, b) into a buffer of [cap] bytes:
    writes the minimal number of bytes of |b| and returns them *)
Definition mpz_export (cap : Z) (b : Z) : res (list Z) :=
  if num_bytes b <=? cap then OK (bytes_of (Z.to_nat (num_bytes b)) (Z.abs b)) else Err EUB.

(** conv/conv.cc 16-25: ZZ -> mpz_t *)
Definition conv_mpz_ZZ (b : Z) : res Z :=
  let n := num_bytes b in
  let bytes := bytes_of (Z.to_nat n) (Z.abs b) in
  let a := of_bytes bytes in
  OK (if Z.sgn b =? -1 then - a else a).

(** conv/conv.cc 38-48: mpz_t -> ZZ *)
Definition conv_ZZ_mpz (b : Z) : res Z :=
  let n := (size_base2 b + 7) / 8 in
  bytes <- mpz_export n b ;;
  let a := of_bytes bytes in
  OK (if Z.sgn b =? -1 then - a else a).

(** conv/conv.cc 27-35 and 50-58: through an mpz_t *)
Definition conv_fmpz_ZZ (b : Z) : res Z := conv_mpz_ZZ b.
Definition conv_ZZ_fmpz (b : Z) : res Z := conv_ZZ_mpz b.

(** ** Flat arrays *)
(** read and write of entry i *)
Definition rd (a : list Z) (i : nat) : res Z :=
  match nth_error a i with Some x => OK x | None => Err EUB end.
Definition wr (a : list Z) (i : nat) (x : Z) : res (list Z) :=
  if Nat.ltb i (length a) then OK (upd a i x) else Err EUB.

(** the two outer loops for(i < r) for(j < c) *)
Definition pairs (r c : nat) : list (nat * nat) := list_prod (seq 0 r) (seq 0 c).

(** acc = sum over k < K of x(k) * y(k), entries read in order *)
Definition acc_loop (K : nat) (x y : nat -> res Z) : res Z :=
  foldM (fun acc k => a <- x k ;; b <- y k ;; OK (acc + a * b)) (seq 0 K) 0.

(** matrix/mul.cc 18-38: result = A * B *)
Definition mpz_mul_mat (result A : list Z) (rA cA : nat) (B : list Z) (rB cB : nat) : res (list Z) :=
  _ <- check (Nat.eqb cA rB) EAssert ;;
  foldM (fun result ij => let '(i, j) := ij in
      acc <- acc_loop rB (fun k => rd A (i * rA + k)) (fun k => rd B (k * rB + j)) ;;
      wr result (i * rA + j) acc) (pairs rA cB) result.

(** matrix/mul_tranpose.cc 45-65: result = A * B, B given by columns *)
Definition mpz_mul_transpose (result A : list Z) (rA cA : nat) (B : list Z) (rB cB : nat) : res (list Z) :=
  _ <- check (Nat.eqb cA rB) EAssert ;;
  foldM (fun result ij => let '(i, j) := ij in
      acc <- acc_loop rB (fun k => rd A (i * rA + k)) (fun k => rd B (j * cB + k)) ;;
      wr result (i * rA + j) acc) (pairs rA cB) result.

(** matrix/mul.cc 42-52: result = a * A *)
Definition mpz_mul_scal (result : list Z) (a : Z) (A : list Z) (rA cA : nat) : res (list Z) :=
  foldM (fun result ij => let '(i, j) := ij in
      x <- rd A (i * rA + j) ;; wr result (i * rA + j) (a * x)) (pairs rA cA) result.

(** matrix/mul.cc 55-71: result = A * v *)
Definition mpz_mul_vec (result A : list Z) (rA cA : nat) (v : list Z) (size : nat) : res (list Z) :=
  _ <- check (Nat.eqb size cA) EAssert ;;
  foldM (fun result i =>
      acc <- acc_loop cA (fun j => rd A (i * rA + j)) (fun j => rd v j) ;;
      wr result i acc) (seq 0 rA) result.

(** matrix/mul.cc 73-80: result = a * v *)
Definition mpz_scal_vec (result : list Z) (a : Z) (v : list Z) (len : nat) : res (list Z) :=
  foldM (fun result i => x <- rd v i ;; wr result i (a * x)) (seq 0 len) result.

(** matrix/mul.cc 84-90: named mul, computes (and documents) result = a + b *)
Definition mpz_add_vec (result a : list Z) (la : nat) (b : list Z) (lb : nat) : res (list Z) :=
  _ <- check (Nat.eqb la lb) EAssert ;;
  foldM (fun result i => x <- rd a i ;; y <- rd b i ;; wr result i (x + y)) (seq 0 la) result.

(** matrix/mul.cc 92-104: result = <u, v> *)
Definition mpz_dot (u : list Z) (lu : nat) (v : list Z) (lv : nat) : res Z :=
  _ <- check (Nat.eqb lu lv) EAssert ;;
  acc_loop lu (fun i => rd u i) (fun i => rd v i).

(** matrix/mul.cc 121-127: result = <v, w> for fmpz vectors, entry 0 first *)
Definition fmpz_dot (v w : list Z) (len : nat) : res Z :=
  a <- rd v 0 ;; b <- rd w 0 ;;
  foldM (fun acc i => a <- rd v i ;; b <- rd w i ;; OK (acc + a * b)) (seq 1 (len - 1)) (a * b).

(** matrix/mul.cc 108-119: result = A * v, A an fmpz_mat with ac columns *)
Definition fmpz_mul_vec (A : mat) (ac : nat) (v : list Z) : res (list Z) :=
  mapM (fun row => fmpz_dot row v ac) A.

(** conv/conv.cc 62-75: Mat<ZZ> -> mpz_t array *)
Definition conv_arr_mat (A : list Z) (B : mat) (rB cB : nat) : res (list Z) :=
  foldM (fun A ij => let '(i, j) := ij in
      x <- conv_mpz_ZZ (mget B i j) ;; wr A (i * rB + j) x) (pairs rB cB) A.

(** conv/conv.cc 78-90: mpz_t array -> Mat<ZZ> *)
Definition conv_mat_arr (B : list Z) (rB cB : nat) : res mat :=
  mapM (fun i => mapM (fun j => x <- rd B (i * rB + j) ;; conv_ZZ_mpz x) (seq 0 cB)) (seq 0 rB).
