(** Model of wrapper/zeta_function.cc 28-172: the whole computation. *)
From Coq Require Import ZArith List Bool.
From Verif Require Import Base VecModel ToolsModel MatModel DRModel FrobModel NDModel FrobNDModel SolveModel ChangeModel ArgsModel CharModel ZetaModel.
Import ListNotations.
Open Scope Z_scope.

(** NTL's IsZero on a matrix; wrapper/zeta_function.cc 120 *)
Definition mat_zero (M : mat) : bool := forallb (forallb (fun x => x =? 0)) M.

(** wrapper/zeta_function.cc 104-110: fp and f_ZZp; the loop visits the keys in
    order, so the new map has the same keys *)
Definition poly_mod (q : Z) (f : poly) : poly := map (fun t => (fst t, snd t mod q)) f.

(** wrapper/zeta_function.cc 117-134: (f_ZZp, is_ND) after the search for a better
    model.  The entries of M, in [0, p), are taken modulo q as they are (124). *)
Definition pick_model (lu gauss : ech_fun) (det : Z -> nat -> mat -> Z) (p q : Z) (rnd : nat -> list mat * nat)
    (better : bool) (fp fq : poly) : res (poly * bool) :=
  nd <- is_nd lu p q fp ;;
  if negb nd && better then
    M <- find_change_of_variables lu gauss det p q rnd fp (p * 100 + 100) ;;
    if mat_zero M then OK (fq, false)
    else g <- change_of_variables q fq M ;; OK (g, true)
  else OK (fq, nd).

(** wrapper/zeta_function.cc 136-151 with one thread; the table of powers is that
    of a new object *)
Definition frob_of (slv : solver) (q p prec : Z) (n : nat) (g : poly) (nd : bool) (N cprec : list Z) : res mat :=
  if nd then
    o <- init_ND slv q p prec g ;;
    _ <- check (zlen (r_basis (nd_dr o)) + 1 =? zlen cprec) EAssert ;;
    frob_matrix_ND slv o (fpow_init q n) N
  else
    D <- init slv q p prec g ;;
    _ <- check (zlen (r_basis D) + 1 =? zlen cprec) EAssert ;;
    frob_matrix_J slv D (fpow_init q n) N.

(** wrapper/zeta_function.cc 28-172: (zeta, Frob_ZZ).  An empty f is dereferenced
    in 45.  The libraries are arguments: [lu] and [inv] of FLINT (SolveModel),
    [gauss], [det] and the random values [rnd] of NTL (ChangeModel). *)
Definition zeta_function (lu gauss : ech_fun) (inv : inv_fun) (det : Z -> nat -> mat -> Z) (rnd : nat -> list mat * nat)
    (f : poly) (p abs : Z) (increase better : bool) : res (list Z * mat) :=
  match f with
  | [] => Err EUB
  | (a0, _) :: _ =>
      let n := (length a0 - 1)%nat in
      let d := zsum a0 in
      a <- zeta_args p (Z.of_nat n) d abs increase ;;
      let '(prec, N, cprec, lift) := a in
      let q := p ^ prec in
      let slv := padic_solver lu inv p q prec in
      sm <- is_smooth lu p q (poly_mod p f) ;;
      _ <- check sm EAbort ;;
      gn <- pick_model lu gauss det p q rnd better (poly_mod p f) (poly_mod q f) ;;
      Frob <- frob_of slv q p prec n (fst gn) (snd gn) N cprec ;;
      cp <- zeta_finish p (Z.of_nat n) abs lift Frob cprec ;;
      OK (cp, Frob)
  end.
