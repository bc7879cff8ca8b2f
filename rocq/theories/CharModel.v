(** Model of matrix/trace.cc, matrix/charpoly.cc and matrix/charpoly_frob.cc. *)
From Coq Require Import ZArith List Bool.
From Verif Require Import Base VecModel MatModel.
Import ListNotations.
Open Scope Z_scope.

(** NTL M.NumCols() of a matrix with at least one row *)
Definition ncols (M : mat) : nat := length (nth 0 M []).

(** matrix/trace.cc 14-22 *)
Definition trace (M : mat) : res Z :=
  _ <- check (Nat.eqb (length M) (ncols M)) EAssert ;;
  OK (fold_left (fun acc i => acc + mget M i i) (seq 0 (length M)) 0).

(** NTL mul(Mat<ZZ>, Mat<ZZ>, Mat<ZZ>) for matrices with n columns, n rows *)
Definition mat_mul (n : nat) (A B : mat) : mat :=
  map (fun row => map (fun j => zsum (map (fun k => nth k row 0 * mget B k j) (seq 0 n))) (seq 0 n)) A.

(** matrix/charpoly.cc 27-34: p[1..n], powerM = M^i; [pw] is the current power *)
Fixpoint power_traces (n : nat) (M pw : mat) (k : nat) : res (list Z) :=
  match k with
  | O => OK []
  | S k => t <- trace pw ;; r <- power_traces n M (mat_mul n pw M) k ;; OK (t :: r)
  end.

(** matrix/charpoly.cc 42-46: e[k-i]*p[i] over i = a, a+2, ... <= k *)
Definition step2_sum (e p : list Z) (a k : nat) : Z :=
  zsum (map (fun i => nth (k - i) e 0 * nth i p 0)
    (filter (fun i => Nat.even (i - a)) (seq a (S k - a)))).

(** matrix/charpoly.cc 38-51: the loop over k; e has k entries e[0..k-1] *)
Fixpoint charpoly_loop (p e : list Z) (k : nat) (todo : nat) : res (list Z) :=
  match todo with
  | O => OK e
  | S todo =>
      let s := step2_sum e p 1 k - step2_sum e p 2 k in
      _ <- check (s mod Z.of_nat k =? 0) EAssert ;;
      charpoly_loop p (e ++ [s / Z.of_nat k]) (S k) todo
  end.

(** matrix/charpoly.cc 14-53.  For a 0 x 0 matrix the assignment p[1] is out of
    bounds. *)
Definition charpoly (M : mat) : res (list Z) :=
  let n := length M in
  _ <- check (Nat.eqb n (ncols M)) EAssert ;;
  _ <- check (Nat.ltb 0 n) EUB ;;
  ps <- power_traces n M M n ;;
  e <- charpoly_loop (0 :: ps) [1] 1 n ;;
  OK (map (fun i => let k := (n - i)%nat in if Nat.even k then nth k e 0 else - nth k e 0) (seq 0 (S n))).

(** matrix/charpoly_frob.cc 34, 52, ...: ((degree-2*i)*dimension)/2 *)
Definition shift (degree dim i : nat) : Z := (Z.of_nat (degree - 2 * i) * Z.of_nat dim) / 2.

(** NTL power_ZZ(p, e); a negative exponent is an error *)
Definition power_ZZ (p e : Z) : res Z := if e <? 0 then Err EAbort else OK (p ^ e).

(** matrix/charpoly_frob.cc 24-28 *)
Definition cpf_reduce (p : Z) (prec cp : list Z) : res (list Z) :=
  mapM (fun i => m <- power_ZZ p (nth i prec 0) ;; OK (nth i cp 0 mod m)) (seq 0 (length cp)).

(** matrix/charpoly_frob.cc 33-46: sign of the functional equation *)
Fixpoint cpf_sign (p : Z) (prec cp : list Z) (degree dim : nat) (is : list nat) : res Z :=
  match is with
  | [] => OK 1
  | i :: is =>
      let sh := shift degree dim i in
      pp <- power_ZZ p (Z.min (nth i prec 0) (nth (degree - i) prec 0 + sh)) ;;
      if negb (nth i cp 0 mod pp =? 0) && negb (nth (degree - i) cp 0 mod pp =? 0) then
        pw <- power_ZZ p sh ;;
        if (nth i cp 0 + nth (degree - i) cp 0 * pw) mod pp =? 0 then OK (-1)
        else
          _ <- check ((nth i cp 0 - nth (degree - i) cp 0 * pw) mod pp =? 0) EAssert ;;
          OK 1
      else cpf_sign p prec cp degree dim is
  end.

(** matrix/charpoly_frob.cc 50-66: one step of the symmetry loop on (prec, cp);
    mod[j] is always p^prec[j] *)
Definition cpf_sym1 (p : Z) (signal : Z) (degree dim : nat) (st : list Z * list Z) (i : nat) : res (list Z * list Z) :=
  let '(prec, cp) := st in
  let sh := shift degree dim i in
  pw <- power_ZZ p sh ;;
  if nth (degree - i) prec 0 + sh <=? nth i prec 0 then
    let pr := nth i prec 0 - sh in
    m <- power_ZZ p pr ;;
    _ <- check ((signal * nth i cp 0) mod pw =? 0) EAssert ;;
    OK (upd prec (degree - i) pr, upd cp (degree - i) (((signal * nth i cp 0) / pw) mod m))
  else
    let pr := nth (degree - i) prec 0 + sh in
    m <- power_ZZ p pr ;;
    OK (upd prec i pr, upd cp i ((signal * nth (degree - i) cp 0 * pw) mod m)).

(** matrix/charpoly_frob.cc 70-74: the precision assertion; the test on
    floating point logarithms log(k)/log(p) + prec > log(2*degree)/log(p) +
    dim*k/2 is replaced by the exact inequality it approximates *)
Definition prec_test (p : Z) (degree dim : nat) (pr : Z) (k : nat) : bool :=
  4 * Z.of_nat degree ^ 2 * p ^ (Z.of_nat dim * Z.of_nat k) <? Z.of_nat k ^ 2 * p ^ (2 * pr).

(** (-1)^k * x *)
Definition alt (k : nat) (x : Z) : Z := if Nat.even k then x else - x.

(** matrix/charpoly_frob.cc 80-90: one step of the power sum loop; es and ss
    hold the corrected e[1..k-1] and s[1..k-1] (index 0 unused) *)
Definition cpf_step (p : Z) (degree dim : nat) (prec e : list Z) (st : list Z * list Z) (k : nat) : res (list Z * list Z) :=
  let '(es, ss) := st in
  let sum := zsum (map (fun i => (if Nat.even i then -1 else 1) * nth (k - i) es 0 * nth i ss 0) (seq 1 (k - 1))) in
  m <- power_ZZ p (nth (degree - k) prec 0) ;;
  let pN := Z.of_nat k * m in
  let s := (alt k (sum - Z.of_nat k * nth k e 0)) mod pN in
  let s := if Z.of_nat degree ^ 2 * p ^ (Z.of_nat dim * Z.of_nat k) <? s ^ 2 then - ((- s) mod pN) else s in
  let x := sum + (if Nat.even k then - s else s) in
  _ <- check (x mod Z.of_nat k =? 0) EAssert ;;
  OK (es ++ [x / Z.of_nat k], ss ++ [s]).

(** matrix/charpoly_frob.cc 20-93 after cp = charpoly(M) *)
Definition charpoly_frob_from (cp prec : list Z) (p : Z) (dim : nat) : res (list Z) :=
  let degree := (length cp - 1)%nat in
  _ <- check (Nat.eqb (length prec) (length cp)) EAssert ;;
  cp <- cpf_reduce p prec cp ;;
  let cp := upd cp degree 1 in
  signal <- (if Nat.even dim then cpf_sign p prec cp degree dim (seq 1 (degree / 2)) else OK 1) ;;
  pw <- power_ZZ p (Z.of_nat degree * Z.of_nat dim / 2) ;;
  let cp := upd cp 0 (signal * pw) in
  st <- foldM (cpf_sym1 p signal degree dim) (seq 0 (S (degree / 2))) (prec, cp) ;;
  let '(prec, cp) := st in
  let e := map (fun k => alt k (nth (degree - k) cp 0)) (seq 0 (S degree)) in
  _ <- check (forallb (fun k => prec_test p degree dim (nth (degree - k) prec 0) k) (seq 1 degree)) EAssert ;;
  st <- foldM (cpf_step p degree dim prec e) (seq 1 degree) ([nth 0 e 0], [0]) ;;
  let es := fst st in
  OK (map (fun i => if Nat.eqb i degree then nth i cp 0 else alt (degree - i) (nth (degree - i) es 0)) (seq 0 (S degree))).

(** matrix/charpoly_frob.cc 14-93 *)
Definition charpoly_frob (M : mat) (prec : list Z) (p : Z) (dim : nat) : res (list Z) :=
  cp <- charpoly M ;;
  charpoly_frob_from cp prec p dim.
