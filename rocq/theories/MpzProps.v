(** Properties C11 and C12: statements only. *)
From Coq Require Import ZArith List Bool Lia.
From Verif Require Import Base VecModel MatModel MatProofs MpzModel MpzSpec MpzProofs.
Import ListNotations.
Open Scope Z_scope.

(** C11: every conversion keeps the value (so both round trips do), and no
    buffer is overrun *)
Theorem C11_conversion : forall b,
  conv_mpz_ZZ b = OK b /\ conv_ZZ_mpz b = OK b /\ conv_fmpz_ZZ b = OK b /\ conv_ZZ_fmpz b = OK b.
Proof. intros b. repeat split; apply conv_mpz_ok || apply conv_ZZ_ok. Qed.
Print Assumptions C11_conversion.

Theorem C11_round_trips : forall b,
  (x <- conv_mpz_ZZ b ;; conv_ZZ_mpz x) = OK b /\ (x <- conv_ZZ_mpz b ;; conv_mpz_ZZ x) = OK b.
Proof. intros b. rewrite conv_mpz_ok, conv_ZZ_ok. cbn [bind]. now rewrite conv_mpz_ok, conv_ZZ_ok. Qed.
Print Assumptions C11_round_trips.

Example C11_ex : num_bytes 0 = 0 /\ bytes_of 3 (Z.abs (-66051)) = [3; 2; 1] /\ conv_mpz_ZZ (-66051) = OK (-66051) /\
  conv_ZZ_mpz (-(2 ^ 64)) = OK (-(2 ^ 64)) /\ num_bytes (2 ^ 64) = 9.
Proof. repeat split; vm_compute; reflexivity. Qed.

(** C12: if every matrix involved is square or has at most one row, the flat
    routines compute the matrix operation in the first entries of the result
    array and leave all others alone *)
Theorem C12_product : forall r K c a b res0 A B, holds a A -> shape A r K -> holds b B -> shape B K c ->
  stride_ok r K -> stride_ok K c -> stride_ok r c -> (r * c <= length res0)%nat ->
  mpz_mul_mat res0 a r K b K c = OK (concat (mprod r K c A B) ++ skipn (r * c) res0).
Proof. intros. now apply mul_mat_ok. Qed.
Print Assumptions C12_product.

Theorem C12_product_transpose : forall r K c a b res0 A B, holds a A -> shape A r K -> holds b B -> shape B c K ->
  stride_ok r K -> stride_ok c K -> stride_ok r c -> (r * c <= length res0)%nat ->
  mpz_mul_transpose res0 a r K b K c = OK (concat (mprod r K c A (transpose c K B)) ++ skipn (r * c) res0).
Proof. intros. now apply mul_transpose_ok. Qed.
Print Assumptions C12_product_transpose.

Theorem C12_scalar : forall r c a x res0 A, holds a A -> shape A r c -> stride_ok r c -> (r * c <= length res0)%nat ->
  mpz_mul_scal res0 x a r c = OK (concat (tab r c (fun i j => x * mget A i j)) ++ skipn (r * c) res0).
Proof. intros. now apply mul_scal_ok. Qed.
Print Assumptions C12_scalar.

Theorem C12_mat_vec : forall r c a v res0 A, holds a A -> shape A r c -> stride_ok r c -> (c <= length v)%nat -> (r <= length res0)%nat ->
  mpz_mul_vec res0 a r c v c =
    OK (map (fun i => sumf (fun j => mget A i j * nth j v 0) (seq 0 c)) (seq 0 r) ++ skipn r res0).
Proof. intros. now apply mul_vec_ok. Qed.
Print Assumptions C12_mat_vec.

Theorem C12_conversion : forall r c a res0 A, shape A r c -> stride_ok r c ->
  ((r * c <= length res0)%nat -> conv_arr_mat res0 A r c = OK (concat A ++ skipn (r * c) res0)) /\
  (holds a A -> conv_mat_arr a r c = OK A).
Proof. intros. split; intros; [now apply conv_arr_ok|now apply conv_mat_ok]. Qed.
Print Assumptions C12_conversion.

(** the routines on vectors (no stride involved); the fmpz versions need at
    least one entry *)
Theorem C12_vectors : forall n u v x res0, (n <= length u)%nat -> (n <= length v)%nat -> (n <= length res0)%nat ->
  mpz_scal_vec res0 x v n = OK (map (fun i => x * nth i v 0) (seq 0 n) ++ skipn n res0) /\
  mpz_add_vec res0 u n v n = OK (map (fun i => nth i u 0 + nth i v 0) (seq 0 n) ++ skipn n res0) /\
  mpz_dot u n v n = OK (sumf (fun i => nth i u 0 * nth i v 0) (seq 0 n)) /\
  ((1 <= n)%nat -> fmpz_dot u v n = OK (sumf (fun i => nth i u 0 * nth i v 0) (seq 0 n))).
Proof.
  intros. split; [now apply scal_vec_ok|]. split; [now apply add_vec_ok|]. split; [now apply dot_ok|]. intros. now apply fdot_ok.
Qed.
Print Assumptions C12_vectors.

(** C12 is false otherwise.  With fewer columns than rows every call runs out
    of its arrays; with more columns than rows the last entry of the result is
    never written. *)
Theorem C12_non_square_refuted : forall r c, (1 <= c)%nat -> (2 <= r)%nat ->
  ((c < r)%nat ->
    (forall x a res0, length a = (r * c)%nat -> mpz_mul_scal res0 x a r c = Err EUB) /\
    (forall A res0, length res0 = (r * c)%nat -> conv_arr_mat res0 A r c = Err EUB)) /\
  ((r < c)%nat ->
    (forall x a res0 out, mpz_mul_scal res0 x a r c = OK out -> nth (r * c - 1) out 0 = nth (r * c - 1) res0 0) /\
    (forall A res0 out, conv_arr_mat res0 A r c = OK out -> nth (r * c - 1) out 0 = nth (r * c - 1) res0 0)).
Proof.
  intros r c H1 H2. split; intros L; split.
  - intros. now apply scal_few_cols.
  - intros. now apply conv_few_cols.
  - intros x a res0 out. now apply scal_many_cols.
  - intros A res0 out. now apply conv_many_cols.
Qed.
Print Assumptions C12_non_square_refuted.

Example C12_ex :
  mpz_mul_mat [0; 0; 0; 0; 7] [1; 2; 3; 4] 2 2 [5; 6; 7; 8] 2 2 = OK [19; 22; 43; 50; 7] /\
  (* a 1 x 2 matrix times a 2 x 1 matrix: the second factor is read out of bounds *)
  mpz_mul_mat [0] [1; 2] 1 2 [3; 4] 2 1 = Err EUB /\
  (* a 2 x 3 matrix times a vector: row 1 is read from the wrong place *)
  mpz_mul_vec [0; 0] [1; 2; 3; 4; 5; 6] 2 3 [1; 0; 0] 3 = OK [1; 3] /\
  mpz_mul_scal [0; 0; 0; 0; 0; 0] 1 [1; 2; 3; 4; 5; 6] 2 3 = OK [1; 2; 3; 4; 5; 0] /\
  mpz_mul_scal [0; 0] 1 [1; 2] 2 1 = Err EUB /\
  conv_mat_arr [1; 2; 3; 4; 5; 6] 2 3 = OK [[1; 2; 3]; [3; 4; 5]] /\
  fmpz_dot [] [] 0 = Err EUB.
Proof. repeat split; vm_compute; reflexivity. Qed.
