(** Model of the search for a non-degenerate model of f: dr_nd/dr_nd.cc
    1659-1736 (isND, find_change_of_variables) and matrix/random_SL_matric.cc. *)
From Coq Require Import ZArith List Bool.
From Verif Require Import Base VecModel ToolsModel MatModel DRModel FrobModel NDModel SolveModel.
Import ListNotations.
Open Scope Z_scope.

(** dr_nd.cc 1659-1710: isND(f); p is the modulus of zz_p, q the one of ZZ_p,
    [lu] is nmod_mat_lu (its result is the rank and the matrix) *)
Definition is_nd (lu : ech_fun) (p q : Z) (f : poly) : res bool :=
  match f with
  | [] => Err EUB
  | (a0, _) :: _ =>
      let n := (length a0 - 1)%nat in
      let d := zsum a0 in
      tl <- init_tuples n d ;;
      let D := mk_dR p 1 q n d f tl (map tuple_index tl) [] [] in
      cM <- matrix_ND D (top_ND D) ;;
      OK (Nat.eqb (length (snd cM)) (fst (lu p (length (snd cM)) (fst cM) (reduce_mat p (snd cM)))))
  end.

(** random_SL_matric.cc 12-43: random_SL_matrix(n).  [cands] are the matrices
    filled in by random_zz_p (24-32), in the order they are drawn, [row] is the
    value of RandomBnd (38).  [det] is NTL's determinant.  The loop 22-34 ends
    with the first matrix of rank n; if there is none among [cands] the answer is
    EFuel. *)
Fixpoint random_SL (gauss : ech_fun) (det : Z -> nat -> mat -> Z) (p : Z) (n : nat) (cands : list mat) (row : nat)
  : res mat :=
  match cands with
  | [] => Err EFuel
  | A :: cands =>
      if Nat.eqb n (fst (gauss p n n A)) then
        di <- inv_mod p (det p n A) ;;
        r <- get_at A (Z.of_nat row) ;;
        let R := upd A row (lvec_scal p di r) in
        _ <- check (det p n R =? 1 mod p) EAssert ;;
        OK R
      else random_SL gauss det p n cands row
  end.

(** ident(M, n), dr_nd.cc 1721 *)
Definition ident (n : nat) : mat := map (fun i => map (fun j => if Nat.eqb i j then 1 else 0) (seq 0 n)) (seq 0 n).

(** dr_nd.cc 1722-1729, at most [k] more iterations; [i] counts the calls of
    random_SL_matrix, [rnd i] are its random values.  1731-1734: clear(M). *)
Fixpoint find_loop (lu gauss : ech_fun) (det : Z -> nat -> mat -> Z) (p q : Z) (n : nat) (f : poly)
    (rnd : nat -> list mat * nat) (k i : nat) (M : mat) (nd : bool) : res mat :=
  if nd then OK M
  else match k with
       | O => OK (mzero n n)
       | S k =>
           R <- random_SL gauss det p n (fst (rnd i)) (snd (rnd i)) ;;
           g <- change_of_variables p f R ;;
           b <- is_nd lu p q g ;;
           find_loop lu gauss det p q n f rnd k (S i) R b
       end.

(** dr_nd.cc 1713-1736: find_change_of_variables(f, N) *)
Definition find_change_of_variables (lu gauss : ech_fun) (det : Z -> nat -> mat -> Z) (p q : Z)
    (rnd : nat -> list mat * nat) (f : poly) (N : Z) : res mat :=
  match f with
  | [] => Err EUB
  | (a0, _) :: _ =>
      let n := length a0 in
      b <- is_nd lu p q f ;;
      find_loop lu gauss det p q n f rnd (Z.to_nat N) 0 (ident n) b
  end.
