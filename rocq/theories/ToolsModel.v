(** Model of /repo/tools.h and /repo/tools/*.cc (enumeration, binomials,
    factorials, changes of variables). *)
From Coq Require Import ZArith List Bool.
From Verif Require Import Base VecModel.
Import ListNotations.
Open Scope Z_scope.

(** conversion of a big integer to a 64-bit signed word (NTL conv<long>, no
    overflow check), used in tools/binomial.cc 29 *)
Definition wrap64 (x : Z) : Z :=
  let y := x mod 2 ^ 64 in if y <? 2 ^ 63 then y else y - 2 ^ 64.

(** tools/binomial.cc 12-30.  NumBytes(num) <= 8 means |num| < 2^64.
    [num / den] is NTL's floor division. *)
Definition binomial (n k : Z) : res Z :=
  if n <? k then Err EAssert
  else
    let num := zprod (zseq (k + 1) (n + 1)) in
    let den := zprod (zseq 1 (n - k + 1)) in
    let quo := num / den in
    if Z.abs quo <? 2 ^ 64 then OK (wrap64 quo) else Err EAssert.

(** tools/binomial_ZZ.cc 12-26 *)
Definition binomial_ZZ (n k : Z) : res Z :=
  if n <? k then Err EAssert
  else OK (zprod (zseq (k + 1) (n + 1)) / zprod (zseq 1 (n - k + 1))).

(** tools/tuple_list_generator.cc 23-26: search for(i = n-1; i > 0; --i) of a
    positive entry *)
Fixpoint tlg_scan (t : vec) (i : nat) : option nat :=
  match i with
  | O => None
  | S i' => if 0 <? nth i t 0 then Some i else tlg_scan t i'
  end.

(** tools/tuple_list_generator.cc 30-34: for(; i < n-1; i++) { sum += tuple[i];
    tuple[i] = 0 }; [k] counts the remaining iterations *)
Fixpoint tlg_clear (t : vec) (i k : nat) (sum : Z) : vec * Z :=
  match k with
  | O => (t, sum)
  | S k => tlg_clear (upd t i 0) (S i) k (sum + nth i t 0)
  end.

(** tools/tuple_list_generator.cc 23-39: one step to the next tuple *)
Definition tlg_step (t : vec) : vec :=
  let n := length t in
  match tlg_scan t (n - 1) with
  | None => t
  | Some i =>
      let t1 := upd t (i - 1) (nth (i - 1) t 0 + 1) in
      let t2 := upd t1 i (nth i t1 0 - 1) in
      let '(t3, sum) := tlg_clear t2 i (n - 1 - i) 0 in
      upd t3 (n - 1) (nth (n - 1) t3 0 + sum)
  end.

(** tools/tuple_list_generator.cc 21-42: the while loop.  A write to result[j]
    with j >= len is undefined behaviour.  [acc] holds result[0..j]. *)
Fixpoint tlg_loop (fuel : nat) (d len j : Z) (t : vec) (acc : list vec)
  : res (Z * list vec) :=
  match fuel with
  | O => Err EFuel
  | S fuel =>
      if nth 0 t 0 <? d then
        let t' := tlg_step t in
        if j + 1 <? len then tlg_loop fuel d len (j + 1) t' (acc ++ [t'])
        else Err EUB
      else OK (j, acc)
  end.

(** tools/tuple_list_generator.cc 11-47.  n <= 0 writes tuple[n-1] outside its
    allocation; a negative length makes SetLength fail. *)
Definition tuple_list_generator (d n : Z) : res (list vec) :=
  len <- binomial (d + n - 1) (n - 1) ;;
  if n <=? 0 then Err EUB
  else if len <? 0 then Err EAbort
  else if len =? 0 then Err EUB
  else
    let t0 := repeat 0 (Z.to_nat (n - 1)) ++ [d] in
    r <- tlg_loop (S (Z.to_nat len)) d len 0 t0 [t0] ;;
    len' <- binomial (d + n - 1) (n - 1) ;;
    if fst r + 1 =? len' then OK (snd r) else Err EAssert.

(** tools/valuation_of_factorial.cc 6-15: digit sum loop *)
Fixpoint vof_loop (fuel : nat) (p tmp sum : Z) : res Z :=
  if tmp =? 0 then OK sum
  else match fuel with
       | O => Err EFuel
       | S fuel => vof_loop fuel p (tmp / p) (sum + tmp mod p)
       end.

(** tools/valuation_of_factorial.cc 6-15, for n >= 0 and p >= 2 (C division of
    non-negative numbers; p = 0, 1 divide by zero). *)
Definition valuation_of_factorial (n p : Z) : res Z :=
  if p <? 2 then Err EUB
  else
    sum <- vof_loop (S (Z.to_nat (Z.log2 n))) p n 0 ;;
    OK ((n - sum) / (p - 1)).

(** tools/factorial_p_adic.cc 20-24: while (tmp % p == 0) { tmp /= p; ++val } *)
Fixpoint fpa_strip (fuel : nat) (p tmp val : Z) : res (Z * Z) :=
  match fuel with
  | O => Err EFuel
  | S fuel =>
      if tmp mod p =? 0 then fpa_strip fuel p (tmp / p) (val + 1) else OK (tmp, val)
  end.

(** tools/factorial_p_adic.cc 17-27: the for loop over i = start..n; every
    product is reduced modulo q (ZZ_p) *)
Fixpoint fpa_loop (fuel : nat) (q p : Z) (is : list Z) (r val : Z) : res (Z * Z) :=
  match is with
  | [] => OK (r, val)
  | i :: is =>
      if negb (i mod p =? 0) then fpa_loop fuel q p is ((r * i) mod q) val
      else
        s <- fpa_strip fuel p i val ;;
        fpa_loop fuel q p is ((r * fst s) mod q) (snd s)
  end.

(** tools/factorial_p_adic.cc 13-33; result (val, result). *)
Definition factorial_p_adic (fuel : nat) (q n p start : Z) : res (Z * Z) :=
  rv <- fpa_loop fuel q p (zseq start (n + 1)) (1 mod q) 0 ;;
  if start =? 1 then
    v <- valuation_of_factorial n p ;;
    if snd rv =? v then OK (snd rv, fst rv) else Err EAssert
  else OK (snd rv, fst rv).

(** tools.h 132-139: factorial<T>(n, start), T = ZZ for q = 0 *)
Definition factorial (q n start : Z) : Z :=
  fold_left (fun r i => (r * i) mod q) (zseq start (n + 1)) (1 mod q).

(** tools.h 141-149: max(v); v[0] of an empty vector is undefined behaviour *)
Definition vmax (v : list Z) : res Z :=
  match v with
  | [] => Err EUB
  | x :: r => OK (fold_left (fun m y => if m <? y then y else m) r x)
  end.

(** ** Sparse polynomials: map< Vec<int64_t>, T >, T = Z/q (q = 0: integers) *)
Definition poly := vmap Z.

(** the double loop multiplying a sparse polynomial [H] by [X]
    (tools.h 95-106; change_of_variables_monomial.cc 44-58;
    hypersurface/compute_fpow.cc 33-50): outer loop over H, inner loop over X,
    accumulate into the (initially empty) result *)
Definition pmul_into (q : Z) (H X acc : poly) : poly :=
  fold_left (fun acc h =>
    fold_left (fun acc x =>
      vaccum (fun a b => (a + b) mod q) (vadd (fst h) (fst x)) ((snd h * snd x) mod q) acc)
      X acc) H acc.
Definition pmul (q : Z) (H X : poly) : poly := pmul_into q H X [].

(** tools.h 110-116: result += H *)
Definition padd_into (q : Z) (H acc : poly) : poly :=
  fold_left (fun acc h => vaccum (fun a b => (a + b) mod q) (fst h) (snd h) acc) H acc.

(** e_j in n variables; tools.h 71-76 *)
Definition unit_vec (n j : nat) : vec := upd (repeat 0 n) j 1.

(** tools.h 78-83: Mvec[i][X[j]] = M[i][j] *)
Definition cov_row (n : nat) (row : list Z) : poly :=
  fold_left (fun m j => vinsert (unit_vec n j) (nth j row 0) m) (seq 0 n) [].

(** tools.h 94-107: H = coef * prod_i Mvec[i]^e_i; e_i <= 0 gives no iteration *)
Fixpoint cov_pow (q : Z) (k : nat) (X H : poly) : poly :=
  match k with O => H | S k => cov_pow q k X (pmul q H X) end.

(** tools.h 93-108: the product over all variables i *)
Definition cov_term (q : Z) (n : nat) (rows : list poly) (e : vec) (c : Z) : poly :=
  fold_left (fun H i => cov_pow q (Z.to_nat (nth i e 0)) (nth i rows []) H)
            (seq 0 n) [(repeat 0 n, c)].

(** tools.h 54-119: change_of_variables<T>(f, M); M is a list of rows. *)
Definition change_of_variables (q : Z) (f : poly) (M : list (list Z)) : res poly :=
  let n := length M in
  if negb (forallb (fun r => Nat.eqb (length r) n) M) then Err EAssert
  else if negb (forallb (fun t => Nat.eqb (length (fst t)) n) f) then Err EAssert
  else
    let rows := map (cov_row n) M in
    OK (fold_left (fun acc t => padd_into q (cov_term q n rows (fst t) (snd t)) acc) f []).

(** NTL power_long for j >= 0, change_of_variables_monomial.cc 41 *)
Definition power_long (a j : Z) : Z := a ^ j.

(** tools/change_of_variables_monomial.cc 34-42: the expansion of
    (x_i + x v_i)^{u_i} *)
Fixpoint covm_factor (n i : nat) (ui vi : Z) (js : list Z) (m : poly) : res poly :=
  match js with
  | [] => OK m
  | j :: js =>
      b <- binomial ui j ;;
      covm_factor n i ui vi js
        (vinsert (upd (upd (repeat 0 (S n)) i (ui - j)) n j) (b * power_long vi j) m)
  end.

(** tools/change_of_variables_monomial.cc 32-60: the loop over i *)
Fixpoint covm_loop (n : nat) (u v : vec) (is : list nat) (H : poly) : res poly :=
  match is with
  | [] => OK H
  | i :: is =>
      m <- covm_factor n i (nth i u 0) (nth i v 0) (zseq 0 (nth i u 0 + 1)) [] ;;
      covm_loop n u v is (pmul 0 H m)
  end.

(** tools/change_of_variables_monomial.cc 17-63 (64-bit overflow of the
    coefficients other than in [binomial] is not modelled) *)
Definition change_of_variables_monomial (u v : vec) : res poly :=
  let n := length u in
  if negb (Nat.eqb n (length v)) then Err EAssert
  else covm_loop n u v (seq 0 n) [(repeat 0 (S n), 1)].
