(** Model of the parameter logic of wrapper/zeta_function.cc. *)
From Coq Require Import ZArith List Bool.
From Verif Require Import Base VecModel ToolsModel MatModel ArgsModel CharModel.
Import ListNotations.
Open Scope Z_scope.

(** r + max(0, valuation_of_factorial(p * (i + N) - 1, p) - i), the right hand
    side in wrapper/zeta_function.cc 72 and 86 *)
Definition working_prec (p i r N : Z) : res Z :=
  v <- valuation_of_factorial (p * (i + N) - 1) p ;;
  OK (r + Z.max 0 (v - i)).

(** wrapper/zeta_function.cc 68-73: one step of the loop that raises the
    precisions; state (precision, r_vector, N) *)
Definition inc_step (p n abs : Z) (st : Z * list Z * list Z) (k : nat) : res (Z * list Z * list Z) :=
  let '(pr, r, N) := st in
  let i := Z.of_nat k in
  let ri := Z.max (nth k r 0) (abs - (n - 1) + i) in
  _ <- check (nth k N 0 <=? ri + n - (i + 1)) EAssert ;;
  let Ni := ri + n - (i + 1) in
  w <- working_prec p i ri Ni ;;
  OK (Z.max pr w, upd r k ri, upd N k Ni).

(** wrapper/zeta_function.cc 76-89: one step of the loop that replaces the
    precisions; state (precision, lift_charpoly, r_vector, N) *)
Definition set_step (p n abs : Z) (st : Z * bool * list Z * list Z) (k : nat) : res (Z * bool * list Z * list Z) :=
  let '(pr, lift, r, N) := st in
  let i := Z.of_nat k in
  let rel := abs - (n - 1) + i in
  let lift := lift && (nth k r 0 <=? rel) in
  if rel <=? 0 then OK (pr, lift, upd r k 0, upd N k 0)
  else
    let Ni := rel + n - (i + 1) in
    w <- working_prec p i rel Ni ;;
    OK (Z.max pr w, lift, upd r k rel, upd N k Ni).

(** wrapper/zeta_function.cc 52-98: working precision, N, charpoly_prec and
    lift_charpoly for the optional arguments abs_precision and
    increase_precision_to_deduce_zeta; 64-bit overflow not modelled *)
Definition zeta_args (p n d abs : Z) (increase : bool) : res (Z * list Z * list Z * bool) :=
  a <- default_args p n d ;;
  let '(pr, N, cprec) := a in
  if 0 <? abs then
    let r := map (fun k => nth k N 0 + (Z.of_nat k + 1) - n) (seq 0 (Z.to_nat n)) in
    st <- (if increase then
             st <- foldM (inc_step p n abs) (seq 0 (Z.to_nat n)) (pr, r, N) ;;
             let '(pr, r, N) := st in OK (pr, true, r, N)
           else foldM (set_step p n abs) (seq 0 (Z.to_nat n)) (1, true, r, N)) ;;
    let '(pr, lift, r, N) := st in
    _ <- check (abs <=? pr) EAssert ;;
    m <- vmax r ;;
    _ <- check (negb (p <? 2 * n + m)) EAbort ;;
    OK (pr, N, cprec, lift)
  else OK (pr, N, cprec, true).

(** wrapper/zeta_function.cc 152-170: from the Frobenius matrix (integer
    entries) to the polynomial *)
Definition zeta_finish (p n abs : Z) (lift : bool) (Frob : mat) (cprec : list Z) : res (list Z) :=
  if lift then charpoly_frob Frob cprec p (Z.to_nat (n - 1))
  else
    cp <- charpoly Frob ;;
    OK (map (fun c => c mod p ^ abs) cp).
