(** Model of the programs examples/K3_dwork.cc 23-76 and examples/K3_dwork2.cc 26-53:
    the zeta function of x^4 + y^4 + z^4 + w^4 + lambda xyzw.  Both test that p is
    prime, print a message if not, and go on (K3_dwork.cc 27-30, K3_dwork2.cc
    30-33: the value of usage is not used), so that the test does not appear here.
    Nothing but the last line of output is modelled. *)
From Coq Require Import ZArith List Bool.
From Verif Require Import Base VecModel ToolsModel MatModel DRModel FrobModel NDModel FrobNDModel SolveModel ChangeModel ArgsModel CharModel ZetaModel RunModel CtorModel InvModel.
Import ListNotations.
Open Scope Z_scope.

(** examples/K3_dwork.cc 46-55, examples/K3_dwork2.cc 38-46: the vector with d at
    position i, the vector of ones, and the map; [conv] is the conversion of an
    int64_t to a coefficient *)
Definition dwork_map (conv : Z -> Z) (d lambda : Z) : poly :=
  vinsert [1; 1; 1; 1] (conv lambda) (fold_left (fun f i => vinsert (upd (repeat 0 4) i d) (conv 1) f) (seq 0 4) []).

(** examples/K3_dwork.cc 32-74.  The answer of isSmooth only decides on a message
    (61-65: usage again).  zz_pPush and ZZ_pPush (41-42) want moduli > 1. *)
Definition K3_dwork (lu : ech_fun) (inv : inv_fun) (p lambda : Z) : res (list Z) :=
  a <- default_args p 3 4 ;;
  let '(prec, N, cprec) := a in
  let q := p ^ prec in
  _ <- check ((1 <? p) && (1 <? q)) EAbort ;;
  let slv := padic_solver lu inv p q prec in
  let f := dwork_map (fun c => c mod p) 4 lambda in
  _ <- is_smooth lu p q f ;;
  hs <- ctor_lift_ND slv q p prec f ;;
  Frob <- frob_matrix_ND slv hs (fpow_init q 3) N ;;
  charpoly_frob Frob cprec p 2.

(** examples/K3_dwork2.cc 34-51; the fifth argument of zeta_function is verbose *)
Definition K3_dwork2 (lu gauss : ech_fun) (inv : inv_fun) (det : Z -> nat -> mat -> Z) (rnd : nat -> list mat * nat) (p lambda : Z) : res (list Z) :=
  r <- zeta_default lu gauss inv det rnd (dwork_map (fun c => c) 4 lambda) p ;; OK (fst r).
