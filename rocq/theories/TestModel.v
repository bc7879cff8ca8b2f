(** Model of the self-tests of the reduction routines:
    dr/test_monomial_to_basis_J.cc, dr/test_paths_J.cc, dr_nd/dr_nd.cc 1503-1657.

    Random numbers: the successive values returned by the generator are the list
    [rs]; RandomBnd(b) takes the next one modulo b, so that every sequence of
    numbers in range is covered.  A run that needs more numbers than the list
    holds ends with [EFuel].  The tables of reduction matrices (see CacheModel,
    NDCacheModel) are left out: the getters recompute; verbose output too. *)
From Coq Require Import ZArith List Bool.
From Verif Require Import Base VecModel ToolsModel MatModel DRModel NDModel FrobModel.
Import ListNotations.
Open Scope Z_scope.

Definition draws (A : Type) := list Z -> res (A * list Z).
Definition dret {A} (a : A) : draws A := fun rs => OK (a, rs).
Definition dbind {A B} (m : draws A) (k : A -> draws B) : draws B := fun rs => x <- m rs ;; k (fst x) (snd x).
Definition dlift {A} (r : res A) : draws A := fun rs => a <- r ;; OK (a, rs).

(** NTL RandomBnd(b), b >= 1: a number in [0, b) *)
Definition random_bnd (b : Z) : draws Z :=
  fun rs => match rs with [] => Err EFuel | x :: rs => OK (x mod b, rs) end.

(** NTL mul(Mat, Mat, Mat); [c] is the number of columns of B.  A dimension
    mismatch is LogicError. *)
Definition mat_prod (q : Z) (c : nat) (A B : mat) : res mat :=
  if forallb (fun r => Nat.eqb (length r) (length B)) A
  then OK (map (fun r => map (fun j => vdot r (map (fun b => nth j b 0) B) mod q) (seq 0 c)) A)
  else Err EAbort.

(** test_paths_J.cc 52-55, dr_nd.cc 1614-1617: M[i][i] = 1 in a new square matrix *)
Definition ident (q : Z) (k : nat) : mat := map (fun i => map (fun j => if Nat.eqb i j then 1 mod q else 0) (seq 0 k)) (seq 0 k).

(** test_paths_J.cc 34-38, dr_nd.cc 1596-1600: u_orig[i] = lo + RandomBnd(20) *)
Fixpoint draw_vec (lo : Z) (k : nat) : draws vec :=
  match k with
  | O => dret []
  | S k => dbind (random_bnd 20) (fun x => dbind (draw_vec lo k) (fun l => dret ((lo + x) :: l)))
  end.

(** test_paths_J.cc 40-45 (t = n), dr_nd.cc 1602-1607 (t = 0):
    while(sum % d != t) { k = RandomBnd(n+1); u_orig[k]++; sum++; } *)
Fixpoint bump (d t : Z) (u : vec) (sum : Z) (rs : list Z) : res (vec * list Z) :=
  if Z.rem sum d =? t then OK (u, rs)
  else
    match rs with
    | [] => Err EFuel
    | x :: rs =>
        let k := Z.to_nat (x mod zlen u) in
        bump d t (upd u k (nth k u 0 + 1)) (sum + 1) rs
    end.

(** test_paths_J.cc 33-45, dr_nd.cc 1595-1607 *)
Definition start (n : nat) (d lo t : Z) : draws vec :=
  dbind (draw_vec lo (S n)) (fun u => bump d t u (zsum u)).

(** test_paths_J.cc 62-72: v[i] = 1 if u[i] > 0, else 0 *)
Definition ones_where (u : vec) : vec := map (fun x => if 0 <? x then 1 else 0) u.

(** test_paths_J.cc 73-81: while(sum < d) { k = RandomBnd(n+1);
    if(u[k] > 0 and v[k] < u[k]) { v[k]++; sum++; } } *)
Fixpoint fill_J (d : Z) (u v : vec) (sum : Z) (rs : list Z) : res (vec * list Z) :=
  if sum <? d then
    match rs with
    | [] => Err EFuel
    | x :: rs =>
        let k := Z.to_nat (x mod zlen u) in
        if (0 <? nth k u 0) && (nth k v 0 <? nth k u 0)
        then fill_J d u (upd v k (nth k v 0 + 1)) (sum + 1) rs
        else fill_J d u v sum rs
    end
  else OK (v, rs).

(** test_paths_J.cc 60-87.  [fuel] bounds the iterations; sum_u >= 0 is enough. *)
Fixpoint walk_J (slv : solver) (D : dR) (fuel : nat) (u : vec) (sum_u : Z) (M : mat) : draws (vec * mat) :=
  if Z.of_nat (r_n D) <? sum_u then
    match fuel with
    | O => fun _ => Err EFuel
    | S fuel =>
        dbind (fill_J (r_d D) u (ones_where u) (zsum (ones_where u))) (fun v =>
        dbind (dlift (
          u' <- vec_sub u v ;;
          R <- get_reduction_matrix_J slv D (r_q D) u' v ;;
          M' <- mat_prod (r_q D) (length M) R M ;;
          OK (u', M'))) (fun uM =>
        walk_J slv D fuel (fst uM) (sum_u - r_d D) (snd uM)))
    end
  else dret (u, M).

(** test_paths_J.cc 52-92: the matrix of one path.  The dimension of the identity
    is tuple_list[d*n-n].length(). *)
Definition path_J (slv : solver) (D : dR) (u : vec) : draws mat :=
  dbind (dlift (get_at (r_tl D) (r_d D * Z.of_nat (r_n D) - Z.of_nat (r_n D)))) (fun tl =>
  dbind (walk_J slv D (Z.to_nat (zsum u)) u (zsum u) (ident (r_q D) (length tl))) (fun uM =>
  dlift (
    I <- get_inclusion_matrix_J D (fst uM) ;;
    M1 <- mat_prod (r_q D) (length tl) I (snd uM) ;;
    F <- get_final_reduction_matrix_J slv D (Z.of_nat (r_n D)) ;;
    mat_prod (r_q D) (length tl) F M1))).

(** test_paths_J.cc 48-97, dr_nd.cc 1610-1653: the loop over the paths; the matrix
    of each path is compared with the one before *)
Fixpoint paths_loop (one : draws mat) (k : nat) (prev : option mat) : draws bool :=
  match k with
  | O => dret true
  | S k => dbind one (fun M =>
      match prev with
      | None => paths_loop one k (Some M)
      | Some M0 => if list_eq_dec (list_eq_dec Z.eq_dec) M0 M then paths_loop one k (Some M) else dret false
      end)
  end.

(** test_paths_J.cc 27-98, dr_nd.cc 1589-1654: the loop over the attempts *)
Fixpoint trials_loop (st : draws vec) (one : vec -> draws mat) (trials paths : nat) : draws bool :=
  match trials with
  | O => dret true
  | S trials => dbind st (fun u => dbind (paths_loop (one u) paths None) (fun ok =>
      if ok : bool then trials_loop st one trials paths else dret false))
  end.

(** dr/test_paths_J.cc 11-100 *)
Definition test_paths_J (slv : solver) (D : dR) (trials paths : Z) : draws bool :=
  dbind (dlift (check (0 <? trials) EAssert)) (fun _ =>
  dbind (dlift (check (0 <? paths) EAssert)) (fun _ =>
  trials_loop (start (r_n D) (r_d D) 0 (Z.of_nat (r_n D))) (path_J slv D) (Z.to_nat trials) (Z.to_nat paths))).

(** dr_nd.cc 1631-1639: while(sum < d) { k = RandomBnd(n+1);
    if(u[k] > v[k] + 1) { v[k]++; sum++; } } *)
Fixpoint fill_ND (d : Z) (u v : vec) (sum : Z) (rs : list Z) : res (vec * list Z) :=
  if sum <? d then
    match rs with
    | [] => Err EFuel
    | x :: rs =>
        let k := Z.to_nat (x mod zlen u) in
        if nth k v 0 + 1 <? nth k u 0
        then fill_ND d u (upd v k (nth k v 0 + 1)) (sum + 1) rs
        else fill_ND d u v sum rs
    end
  else OK (v, rs).

(** dr_nd.cc 1625-1645 *)
Fixpoint walk_ND (slv : solver) (N : dND) (fuel : nat) (u : vec) (sum_u : Z) (M : mat) : draws (vec * mat) :=
  let D := nd_dr N in
  if r_d D <? sum_u then
    match fuel with
    | O => fun _ => Err EFuel
    | S fuel =>
        dbind (fill_ND (r_d D) u (repeat 0 (S (r_n D))) 0) (fun v =>
        dbind (dlift (
          u' <- vec_sub u v ;;
          R <- get_reduction_matrix_ND slv N (r_q D) u' v ;;
          M' <- mat_prod (r_q D) (length M) R M ;;
          OK (u', M'))) (fun uM =>
        walk_ND slv N fuel (fst uM) (sum_u - r_d D) (snd uM)))
    end
  else dret (u, M).

(** dr_nd.cc 1614-1647: the matrix of one path *)
Definition path_ND (slv : solver) (N : dND) (u : vec) : draws mat :=
  let q := r_q (nd_dr N) in
  let dp := length (nd_basis N) in
  dbind (walk_ND slv N (Z.to_nat (zsum u)) u (zsum u) (ident q dp)) (fun uM =>
  dlift (
    M <- get_coKernels_ND_to_basis slv N (fst uM) ;;
    mat_prod q dp M (snd uM))).

(** dr_nd.cc 1574-1657.  A negative number of attempts means none; otherwise a
    negative number of paths is a negative length in SetLength (LogicError). *)
Definition test_paths_ND (slv : solver) (N : dND) (trials paths : Z) : draws bool :=
  let D := nd_dr N in
  dbind (dlift (check (negb (trials =? 0)) EAssert)) (fun _ =>
  dbind (dlift (check (negb (paths =? 0)) EAssert)) (fun _ =>
  dbind (dlift (check ((trials <? 0) || (0 <? paths)) EAbort)) (fun _ =>
  trials_loop (start (r_n D) (r_d D) 1 0) (path_ND slv N) (Z.to_nat trials) (Z.to_nat paths)))).

(** test_monomial_to_basis_J.cc 54-58, dr_nd.cc 1545-1549: fact = (m-1)! in
    int64_t; overflow is undefined behaviour *)
Definition fact64 (m : Z) : res Z :=
  foldM (fun a k => _ <- check (a * k <? 2 ^ 63) EUB ;; OK (a * k)) (zseq 1 m) 1.

(** test_monomial_to_basis_J.cc 60-69, dr_nd.cc 1551-1560: sum of
    coefficient * coordinates over the monomials of f^i *)
Definition mtb_sum (q : Z) (mtb : vec -> res (list Z)) (b : vec) (P : poly) (len : nat) : res (list Z) :=
  foldM (fun v t =>
      w <- vec_add (fst t) b ;;
      c <- mtb (map (fun x => x + 1) w) ;;
      lvec_add q v (lvec_scal q (snd t) c)) P (repeat 0 len).

(** test_monomial_to_basis_J.cc 49-76, dr_nd.cc 1540-1567: the check for one power i
    and one basis element j *)
Definition mtb_check (D : dR) (mtb : vec -> res (list Z)) (T : list poly) (i j : nat) : res bool :=
  let q := r_q D in
  let b := nth j (r_basis D) [] in
  let m := Z.quot (zsum b + (Z.of_nat (r_n D) + 1)) (r_d D) + Z.of_nat i in
  fact <- fact64 m ;;
  v <- mtb_sum q mtb b (nth i T []) (length (r_basis D)) ;;
  OK (forallb (fun k => nth k v 0 =? (if Nat.eqb k j then fact mod q else 0)) (seq 0 (length (r_basis D)))).

(** test_monomial_to_basis_J.cc 11-80, dr_nd.cc 1503-1571.  N < -1 is a negative
    length in SetLength, N = -1 writes to fpow[0] of an empty vector. *)
Definition test_mtb (D : dR) (mtb : vec -> res (list Z)) (N : Z) : res bool :=
  _ <- check (-1 <=? N) EAbort ;;
  _ <- check (0 <=? N) EUB ;;
  let T := fpow_loop (r_q D) (r_f D) (Z.to_nat N) (fpow_init (r_q D) (r_n D)) in
  foldM (fun ok ij => if ok : bool then mtb_check D mtb T (fst ij) (snd ij) else OK false)
    (flat_map (fun i => map (fun j => (i, j)) (seq 0 (length (r_basis D)))) (seq 0 (Z.to_nat N + 1))) true.

(** dr/test_monomial_to_basis_J.cc 11-80 *)
Definition test_monomial_to_basis_J (slv : solver) (D : dR) (N : Z) : res bool :=
  test_mtb D (monomial_to_basis_J slv D) N.
(** dr_nd.cc 1503-1571 *)
Definition test_monomial_to_basis_ND (slv : solver) (X : dND) (N : Z) : res bool :=
  test_mtb (nd_dr X) (monomial_to_basis_ND slv X) N.
