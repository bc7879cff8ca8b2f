(** Model of finitediff_flint_nmod and nmod_mat_sub_submatrix
    (dr_nd/dr_nd.cc 1740-1751, 1858-1991): the product M(0) M(1) ... M(k-1) G for
    a matrix polynomial M, by finite differences.  FLINT nmod matrices are [mat]
    with entries reduced modulo q. *)
From Coq Require Import ZArith List Bool.
From Verif Require Import Base VecModel MatModel.
Import ListNotations.
Open Scope Z_scope.

(** dr_nd.cc 1893-1908: (max_row, min_col) of a d x d coefficient, updated entry
    by entry in row-major order, starting from (0, d) *)
Definition fd_box (d : nat) (M : mat) : nat * nat :=
  fold_left (fun b jl =>
      let j := fst jl in let l := snd jl in
      if mget M j l =? 0 then b
      else (if Nat.leb (fst b) j then S j else fst b, if Nat.ltb l (snd b) then l else snd b))
    (list_prod (seq 0 d) (seq 0 d)) (0%nat, d).

(** dr_nd.cc 1909-1915: while(max_row[i] == 0 and min_col[i] == d and i >= 0)
    { n--; i--; } from i = n+1 on.  The argument is i+1 and so is the result, the
    number n+2 of coefficients left; i = -1 reads max_row[-1] before i >= 0 is
    tested. *)
Fixpoint fd_trim (d : nat) (boxes : list (nat * nat)) (i : nat) : res nat :=
  match i with
  | O => Err EUB
  | S i' =>
      let b := nth i' boxes (0%nat, d) in
      if Nat.eqb (fst b) 0 && Nat.eqb (snd b) d then fd_trim d boxes i' else OK i
  end.

(** FLINT nmod_pow_ui(a, e, mod): a has to be reduced modulo mod.n *)
Definition nmod_pow (q a : Z) (e : nat) : res Z :=
  _ <- check ((0 <=? a) && (a <? q)) EUB ;; OK ((a ^ Z.of_nat e) mod q).

(** dr_nd.cc 1928-1938: M(x) = sum_i x^i M[i], i < len *)
Definition fd_value (q : Z) (d len : nat) (M : list mat) (x : Z) : res mat :=
  foldM (fun acc i => c <- nmod_pow q x i ;; mat_add q acc (mat_scal q c (nth i M [])))
    (seq 0 len) (mzero d d).

(** matrix.h 156-174: nmod_mat_sub *)
Definition nmod_sub (q : Z) (A B : mat) : mat := map2 (map2 (fun a b => (a - b) mod q)) A B.

(** dr_nd.cc 1740-1751: nmod_mat_sub_submatrix(A, A, B, max_row, min_col): only
    the rows below max_row and the columns from min_col on *)
Definition nmod_subbox (q : Z) (A B : mat) (mr mc : nat) : mat :=
  map (fun i => map (fun j =>
      if Nat.ltb i mr && Nat.leb mc j then (mget A i j - mget B i j) mod q else mget A i j)
    (seq 0 (length (nth i A [])))) (seq 0 (length A)).

(** dr_nd.cc 1949-1951: for(l = 1; l < len; l++) for(j = len-1; j >= l; j--)
    Mfd[j] -= Mfd[j-1] *)
Definition fd_table (q : Z) (len : nat) (T : list mat) : list mat :=
  fold_left (fun (T : list mat) l =>
      fold_left (fun (T : list mat) j => upd T j (nmod_sub q (nth j T []) (nth (j - 1) T [])))
        (rev (seq l (len - l))) T)
    (seq 1 (len - 1)) T.

(** dr_nd.cc 1962-1968: for(j = len-2; j >= 0; j--) Mfd[j] -= Mfd[j+1] inside
    the box of coefficient j+1 *)
Definition fd_update (q : Z) (len : nat) (boxes : list (nat * nat)) (T : list mat) : list mat :=
  fold_left (fun (T : list mat) j =>
      let b := nth (S j) boxes (0%nat, 0%nat) in
      upd T j (nmod_subbox q (nth j T []) (nth (S j) T []) (fst b) (snd b)))
    (rev (seq 0 (len - 1))) T.

(** dr_nd.cc 1953-1973: [k] steps, each updates the table and multiplies *)
Fixpoint fd_loop (q : Z) (len : nat) (boxes : list (nat * nat)) (k : nat)
    (st : list mat * list Z) : res (list mat * list Z) :=
  match k with
  | O => OK st
  | S k =>
      let T := fd_update q len boxes (fst st) in
      H <- mat_vec q (nth 0 T []) (snd st) ;;
      fd_loop q len boxes k (T, H)
  end.

(** equality of matrices (nmod_mat_equal) *)
Definition mat_eqb (A B : mat) : bool :=
  if list_eq_dec (list_eq_dec Z.eq_dec) A B then true else false.

(** dr_nd.cc 1858-1991.  The entries of M and G have to be reduced modulo q
    (fmpz_get_ui of any other value is not a valid nmod entry). *)
Definition finitediff (q : Z) (M : list mat) (k : Z) (G : list Z) : res (list Z) :=
  let d := length (nth 0 M []) in
  _ <- check (zlen M - 1 <? k) EAssert ;;
  let boxes := map (fd_box d) M in
  len <- fd_trim d boxes (length M) ;;
  let a := k - Z.of_nat len in
  T <- mapM (fun l => fd_value q d len M (a + Z.of_nat l)) (seq 0 len) ;;
  H <- foldM (fun H l => mat_vec q (nth (len - 1 - l) T []) H) (seq 0 len) G ;;
  st <- fd_loop q len boxes (Z.to_nat a) (fd_table q len T, H) ;;
  _ <- check (mat_eqb (nth 0 (fst st) []) (nth 0 M [])) EAssert ;;
  OK (snd st).

(** dr_nd.cc 1858-1991 with other rectangles in the call of
    nmod_mat_sub_submatrix (1964); [finitediff] is the case of the rectangles
    found in 1885-1908.  Not in the source: a variant used to say what repairs it. *)
Definition finitediff_with (q : Z) (ubox : list (nat * nat)) (M : list mat) (k : Z) (G : list Z) : res (list Z) :=
  let d := length (nth 0 M []) in
  _ <- check (zlen M - 1 <? k) EAssert ;;
  let boxes := map (fd_box d) M in
  len <- fd_trim d boxes (length M) ;;
  let a := k - Z.of_nat len in
  T <- mapM (fun l => fd_value q d len M (a + Z.of_nat l)) (seq 0 len) ;;
  H <- foldM (fun H l => mat_vec q (nth (len - 1 - l) T []) H) (seq 0 len) G ;;
  st <- fd_loop q len ubox (Z.to_nat a) (fd_table q len T, H) ;;
  _ <- check (mat_eqb (nth 0 (fst st) []) (nth 0 M [])) EAssert ;;
  OK (snd st).

(** dr_nd.cc 1963 (commented out in the source) in place of 1964: the whole
    matrices are subtracted *)
Definition finitediff_full (q : Z) (M : list mat) (k : Z) (G : list Z) : res (list Z) :=
  finitediff_with q (repeat (length (nth 0 M []), 0%nat) (length M)) M k G.

(** a repair which keeps the rectangles of dr_nd.cc 1885-1908: rectangle j is
    enlarged to contain the rectangles of all later coefficients (max_row and
    min_col replaced by their running maximum and minimum from the right) *)
Fixpoint join_boxes (d : nat) (l : list (nat * nat)) : list (nat * nat) :=
  match l with
  | [] => []
  | b :: l => let r := join_boxes d l in
              (Nat.max (fst b) (fst (hd (0%nat, d) r)), Nat.min (snd b) (snd (hd (0%nat, d) r))) :: r
  end.
Definition finitediff_joined (q : Z) (M : list mat) (k : Z) (G : list Z) : res (list Z) :=
  let d := length (nth 0 M []) in finitediff_with q (join_boxes d (map (fd_box d) M)) M k G.
