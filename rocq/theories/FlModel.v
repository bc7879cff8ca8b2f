(** Model of the precision assertion of matrix/charpoly_frob.cc in floating point.
    A double is represented by its real value; the operations are arbitrary
    functions. *)
From Coq Require Import ZArith List Bool Reals.
From Verif Require Import Base VecModel MatModel CharModel.
Import ListNotations.
Open Scope Z_scope.

(** the operations on doubles used in matrix/charpoly_frob.cc 73: log of an integer
    (converted to double), sum, product, quotient, comparison *)
Record arith := mk_arith {
  a_log : Z -> R;
  a_add : R -> R -> R;
  a_mul : R -> R -> R;
  a_div : R -> R -> R;
  a_gt : R -> R -> bool }.

(** matrix/charpoly_frob.cc 73:
    log(k)/log(p) + prec[degree-k] > log(2*degree)/log(p) + 0.5*dimension*k *)
Definition fl_test (A : arith) (p : Z) (degree dim : nat) (pr : Z) (k : nat) : bool :=
  a_gt A (a_add A (a_div A (a_log A (Z.of_nat k)) (a_log A p)) (IZR pr))
         (a_add A (a_div A (a_log A (2 * Z.of_nat degree)) (a_log A p))
                  (a_mul A (a_mul A (/ 2)%R (IZR (Z.of_nat dim))) (IZR (Z.of_nat k)))).

(** matrix/charpoly_frob.cc 20-93 with the test of line 73 as argument
    (p, degree, dimension, prec[degree-k], k) *)
Definition charpoly_frob_test (tst : Z -> nat -> nat -> Z -> nat -> bool) (M : mat) (prec : list Z) (p : Z) (dim : nat) : res (list Z) :=
  cp <- charpoly M ;;
  let degree := (length cp - 1)%nat in
  _ <- check (Nat.eqb (length prec) (length cp)) EAssert ;;
  cp <- cpf_reduce p prec cp ;;
  let cp := upd cp degree 1 in
  signal <- (if Nat.even dim then cpf_sign p prec cp degree dim (seq 1 (degree / 2)) else OK 1) ;;
  pw <- power_ZZ p (Z.of_nat degree * Z.of_nat dim / 2) ;;
  let cp := upd cp 0 (signal * pw) in
  st <- foldM (cpf_sym1 p signal degree dim) (seq 0 (S (degree / 2))) (prec, cp) ;;
  let '(prec, cp) := st in
  let e := map (fun k => alt k (nth (degree - k) cp 0)) (seq 0 (S degree)) in
  _ <- check (forallb (fun k => tst p degree dim (nth (degree - k) prec 0) k) (seq 1 degree)) EAssert ;;
  st <- foldM (cpf_step p degree dim prec e) (seq 1 degree) ([nth 0 e 0], [0]) ;;
  let es := fst st in
  OK (map (fun i => if Nat.eqb i degree then nth i cp 0 else alt (degree - i) (nth (degree - i) es 0)) (seq 0 (S degree))).

(** matrix/charpoly_frob.cc 14-93 as it is compiled *)
Definition charpoly_frob_fl (A : arith) : mat -> list Z -> Z -> nat -> res (list Z) := charpoly_frob_test (fl_test A).

(** tools/geometric_picard.cc 51, 91: ((double)k)/(log(k)/log(2) + 1); log(2) is the
    logarithm of the same conversion. (double)k is taken to be k, which holds below 2^53. *)
Definition fl_bound (A : arith) (k : Z) : R := a_div A (IZR k) (a_add A (a_div A (a_log A k) (a_log A 2)) 1%R).
