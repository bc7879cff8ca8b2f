(** Model of the remaining test programs: hypersurface/test/test_invariance_J.cc,
    hypersurface_nd/test/test_invariance_ND.cc,
    hypersurface_nd/test/test_JND_and_invariance.cc,
    hypersurface/test/test_K3p3.cc and wrapper/test/test_zeta_function.cc; and of the objects they use,
    hypersurface/constructors.cc 6-21, hypersurface_nd/hypersurface_nd.cc 17-47.

    The random numbers of the constructor are a list (see TestModel); those of
    random_SL_matrix and find_change_of_variables are given as in ChangeModel.  The
    solver is given by the modulus and the precision.  Printing is left out; abort()
    after a comparison is the value [false]. *)
From Coq Require Import ZArith List Bool Ascii.
From Verif Require Import Base VecModel ToolsModel MatModel DRModel FdModel FrobModel NDModel FrobNDModel SolveModel ChangeModel
  ArgsModel CharModel TestModel CtorModel IoModel ZetaModel RunModel.
Import ListNotations.
Open Scope Z_scope.

(** ** objects *)
(** hypersurface.h, hypersurface_nd.h: the members dR (dR_ND) and fpow *)
Definition hs_J : Type := dR * list poly.
Definition hs_ND : Type := dND * list poly.
(** hypersurface/constructors.cc 6-21: init_after_dR *)
Definition new_J (D : dR) : hs_J := (D, fpow_init (r_q D) (r_n D)).
(** hypersurface_nd.cc 17-47 *)
Definition new_ND (N : dND) : hs_ND := (N, fpow_init (r_q (nd_dr N)) (r_n (nd_dr N))).
(** dr/init.cc 23: fbar *)
Definition fbar_of (D : dR) : poly := poly_mod (r_p D) (r_f D).

(** hypersurface/frob_matrix_J.cc 29-44, hypersurface_nd.cc 793-823 with one
    thread: the rows in order; frob_J(i, N) and frob_ND(i, N) leave the table of
    powers extended by compute_fpow(N-1) (frob_J_ZZ.cc 39, hypersurface_nd.cc 490) *)
Definition rows_t (D : dR) (row : list poly -> nat -> res (list Z)) (N : list Z) (is : list nat) (st : list (list Z) * list poly)
  : res (list (list Z) * list poly) :=
  foldM (fun (st : list (list Z) * list poly) i =>
    r <- row (snd st) i ;;
    Nm <- get_at N (pole_order D (nth i (r_basis D) []) - 1) ;;
    T <- (if 0 <? Nm then compute_fpow (r_q D) (r_f D) (Nm - 1) (snd st) else OK (snd st)) ;;
    OK (fst st ++ [r], T)) is st.

(** hypersurface/frob_matrix_J.cc 14-46: the matrix and the object after the call *)
Definition matrix_J_obj (slv : solver) (N : list Z) (h : hs_J) : res (mat * hs_J) :=
  let D := fst h in
  _ <- check (Nat.eqb (length N) (r_n D)) EAssert ;;
  rt <- rows_t D (fun T => frob_row slv D T N) N (seq 0 (length (r_basis D))) ([], snd h) ;;
  OK (transpose (length (r_basis D)) (length (r_basis D)) (fst rt), (D, snd rt)).
(** hypersurface_nd.cc 779-825 *)
Definition matrix_ND_obj (slv : solver) (N : list Z) (h : hs_ND) : res (mat * hs_ND) :=
  let D := nd_dr (fst h) in
  _ <- check (Nat.eqb (length N) (r_n D)) EAssert ;;
  rt <- rows_t D (fun T => frob_row_ND slv (fst h) T N) N (seq 0 (length (r_basis D))) ([], snd h) ;;
  OK (transpose (length (r_basis D)) (length (r_basis D)) (fst rt), (fst h, snd rt)).

(** ** the tests of invariance *)
(** which object the second matrix is computed from: in the source it is hs
    (test_invariance_J.cc 35, test_invariance_ND.cc 39), the object after the first
    call; hs2 would be the new one *)
Inductive second_object : Set := use_hs | use_hs2.

(** test_invariance_J.cc 25-49, test_invariance_ND.cc 25-52 *)
Definition invariance_body {Obj : Type} (frob : Obj -> res (mat * Obj)) (fbar : Obj -> poly) (transform : poly -> res poly)
    (make : poly -> res Obj) (cp_of : mat -> res (list Z)) (so : second_object) (hs : Obj) : res bool :=
  F <- frob hs ;;
  cp <- cp_of (fst F) ;;
  g <- transform (fbar hs) ;;
  hs2 <- make g ;;
  F2 <- frob (match so with use_hs => snd F | use_hs2 => hs2 end) ;;
  cp2 <- cp_of (fst F2) ;;
  OK (veqb cp2 cp).

(** test_invariance_J.cc 13-51 *)
Definition test_invariance_J (so : second_object) (slv : Z -> Z -> solver) (gauss : ech_fun) (det : Z -> nat -> mat -> Z)
    (cands : list mat) (row : nat) (p : Z) (n : nat) (d : Z) : draws bool := fun rs =>
  a <- default_args p (Z.of_nat n) d ;;
  let '(prec, N, cprec) := a in
  let q := p ^ prec in
  x <- ctor_random (slv q 1) (slv q prec) q p prec n d rs ;;
  b <- invariance_body (matrix_J_obj (slv q prec) N) (fun h => fbar_of (fst h))
         (fun f => M <- random_SL gauss det p (S n) cands row ;; change_of_variables p f M)
         (fun g => D <- ctor_lift (slv q prec) q p prec g ;; OK (new_J D))
         (fun M => charpoly_frob M cprec p (n - 1)) so (new_J (fst x)) ;;
  OK (b, snd x).

(** test_invariance_ND.cc 31-36, test_JND_and_invariance.cc 70-73: a random change
    of variables, then one that makes the polynomial non-degenerate *)
Definition transform_ND (lu gauss : ech_fun) (det : Z -> nat -> mat -> Z) (cands : list mat) (row : nat) (rnd : nat -> list mat * nat)
    (p q : Z) (n : nat) (f : poly) : res poly :=
  S1 <- random_SL gauss det p (S n) cands row ;;
  g <- change_of_variables p f S1 ;;
  M <- find_change_of_variables lu gauss det p q rnd g 1000 ;;
  change_of_variables p g M.

(** test_invariance_ND.cc 13-55 *)
Definition test_invariance_ND (so : second_object) (slv : Z -> Z -> solver) (lu gauss : ech_fun) (det : Z -> nat -> mat -> Z)
    (cands : list mat) (row : nat) (rnd : nat -> list mat * nat) (p : Z) (n : nat) (d : Z) : draws bool := fun rs =>
  a <- default_args p (Z.of_nat n) d ;;
  let '(prec, N, cprec) := a in
  let q := p ^ prec in
  x <- ctor_random_ND (slv q 1) (slv q prec) q p prec n d rs ;;
  b <- invariance_body (matrix_ND_obj (slv q prec) N) (fun h => fbar_of (nd_dr (fst h)))
         (transform_ND lu gauss det cands row rnd p q n)
         (fun g => o <- ctor_lift_ND (slv q prec) q p prec g ;; OK (new_ND o))
         (fun M => charpoly_frob M cprec p (n - 1)) so (new_ND (fst x)) ;;
  OK (b, snd x).

(** ** test_JND_and_invariance.cc *)
(** 16-42: (precision, N); n must be 2 or 3 *)
Definition jnd_args (n : nat) : res (Z * list Z) :=
  match n with 2%nat => OK (3, [2; 2]) | 3%nat => OK (4, [3; 3; 2]) | _ => Err EAbort end.
(** 81-111: M1, M2; the dimensions are those of Fp_ND, M[i][j] outside the matrix is
    undefined *)
Definition jnd_reduce (p : Z) (n r c : nat) (M : mat) : res mat :=
  mapM (fun i => mapM (fun j =>
    row <- get_at M (Z.of_nat i) ;;
    x <- get_at row (Z.of_nat j) ;;
    OK (if Nat.eqb n 3 && negb (Nat.eqb j 20) then x mod p ^ 3 else x mod p ^ 2)) (seq 0 c)) (seq 0 r).
(** 116-138: the coefficients modulo powers of p *)
Definition jnd_mod (p : Z) (n : nat) (c : list Z) : res (list Z) :=
  if Nat.eqb n 2 then
    _ <- check (Nat.leb 7 (length c)) EUB ;;
    OK (map (fun i => if Nat.ltb i 3 then nth i c 0 mod p ^ (4 - Z.of_nat i) else if Nat.ltb i 7 then nth i c 0 mod p ^ 2 else nth i c 0) (seq 0 (length c)))
  else
    _ <- check (Nat.leb 21 (length c)) EUB ;;
    OK (map (fun i => if Nat.ltb i 21 then nth i c 0 mod p ^ (22 - Z.of_nat i) else nth i c 0) (seq 0 (length c))).

(** 47-155: (Fp_J = Fp_ND, c1 = c2).  The program prints FAIL in the first case and
    goes on (53-62); in the second it prints FAIL and aborts (140-153). *)
Definition jnd_body {Obj : Type} (frobJ frobND : Obj -> res (mat * Obj)) (fbar : Obj -> poly) (transform : poly -> res poly)
    (make : poly -> res Obj) (p : Z) (n : nat) (hs : Obj) : res (bool * bool) :=
  FJ <- frobJ hs ;;
  FN <- frobND (snd FJ) ;;
  _ <- charpoly (fst FJ) ;;
  g <- transform (fbar hs) ;;
  hs2 <- make g ;;
  F2 <- frobND hs2 ;;
  let r := length (fst FN) in
  let c := ncols (fst FN) in
  M1 <- jnd_reduce p n r c (fst FN) ;;
  M2 <- jnd_reduce p n r c (fst F2) ;;
  c1 <- charpoly M1 ;;
  c2 <- charpoly M2 ;;
  c1 <- jnd_mod p n c1 ;;
  c2 <- jnd_mod p n c2 ;;
  OK (mat_eqb (fst FJ) (fst FN), veqb c1 c2).

(** frob_matrix_J called on an object of the derived class *)
Definition matrix_J_of_ND (slv : solver) (N : list Z) (h : hs_ND) : res (mat * hs_ND) :=
  x <- matrix_J_obj slv N (nd_dr (fst h), snd h) ;; OK (fst x, (fst h, snd (snd x))).

(** test_JND_and_invariance.cc 12-157, d = 4.  [alter] is applied to the matrix that
    frob_matrix_J returns (line 50); in the source it is the identity *)
Definition test_JND_with (alter : mat -> mat) (slv : Z -> Z -> solver) (lu gauss : ech_fun) (det : Z -> nat -> mat -> Z)
    (cands : list mat) (row : nat) (rnd : nat -> list mat * nat) (p : Z) (n : nat) : draws (bool * bool) := fun rs =>
  a <- jnd_args n ;;
  let '(prec, N) := a in
  let q := p ^ prec in
  x <- ctor_random_ND (slv q 1) (slv q prec) q p prec n 4 rs ;;
  b <- jnd_body (fun h => F <- matrix_J_of_ND (slv q prec) N h ;; OK (alter (fst F), snd F)) (matrix_ND_obj (slv q prec) N) (fun h => fbar_of (nd_dr (fst h)))
         (transform_ND lu gauss det cands row rnd p q n)
         (fun g => o <- ctor_lift_ND (slv q prec) q p prec g ;; OK (new_ND o)) p n (new_ND (fst x)) ;;
  OK (b, snd x).
(** 160-192: the exit status of the program, given what its runs found: 0, unless
    one aborts *)
Definition jnd_main (runs : list (bool * bool)) : res Z :=
  _ <- check (forallb snd runs) EAbort ;; OK 0.

(** ** the main functions of the three programs *)
(** test_invariance_J.cc 74-76, test_invariance_ND.cc 77-79,
    test_JND_and_invariance.cc 171-173: p = GenPrime_long(plen); while(p <= d) again.
    GenPrime_long takes the next random number and returns gp of it. *)
Fixpoint draw_above (gp : Z -> Z) (d : Z) (rs : list Z) : res (Z * list Z) :=
  match rs with [] => Err EFuel | x :: rs => if gp x <=? d then draw_above gp d rs else OK (gp x, rs) end.
(** the runs one after the other; abort() in the first that fails ends the program
    (test_invariance_J.cc 49) *)
Fixpoint until_fail (l : list (draws bool)) : draws bool :=
  match l with [] => dret true | x :: l => dbind x (fun b => if b : bool then until_fail l else dret false) end.
(** test_invariance_J.cc 56-93, test_invariance_ND.cc 59-98: n = 2, d = 3 .. 5; 20 runs
    with primes of 5 bits, for d = 5 one run with a prime of 4 bits.  [true] is PASS,
    [false] is FAIL; [test] is told which run it is, for its random matrices. *)
Definition invariance_main (gp : Z -> Z -> Z) (test : Z * Z -> Z -> nat -> Z -> draws bool) : draws bool :=
  until_fail (flat_map (fun d =>
    let plen := if d =? 5 then 4 else 5 in
    let runs := if d =? 5 then 1 else 20 in
    map (fun i => dbind (draw_above (gp plen) d) (fun p => test (d, i) p 2%nat d)) (zseq 0 runs)) (zseq 3 6)).
(** test_JND_and_invariance.cc 160-193: n = 2, 20 runs, p > 4; only the second
    comparison ends the program *)
Definition main_JND (gp : Z -> Z -> Z) (test : Z -> Z -> nat -> draws (bool * bool)) : draws bool :=
  until_fail (map (fun i => dbind (draw_above (gp 5) 4) (fun p => dbind (test i p 2%nat) (fun b => dret (snd b)))) (zseq 0 20)).

(** ** test_K3p3.cc *)
(** 23-101: frob_J(0, 7), frob_J(i, 7) and frob_J(20, 8) are compared with the rows of
    the transposed table, where i = rand() % 19 + 1 and r is the value of rand().
    [true] is PASS, [false] is FAIL and abort().  hypersurface(p, ...).frob_J is the
    argument [frob]. *)
Definition test_K3p3 (frob : nat -> Z -> res vec) (table : mat) (r : Z) : res bool :=
  let expected := transpose 21 21 table in
  let i := Z.to_nat (Z.rem r 19 + 1) in
  frob0 <- frob 0%nat 7 ;;
  frob1 <- frob i 7 ;;
  frob2 <- frob 20%nat 8 ;;
  OK (veqb frob0 (nth 0 expected []) && veqb frob1 (nth i expected []) && veqb frob2 (nth 20 expected [])).

(** ** test_zeta_function.cc *)
(** equality of polynomials: coefficients after removing leading zeros *)
Definition zx_eqb (a b : list Z) : bool := forallb (fun i => nth i a 0 =? nth i b 0) (seq 0 (Nat.max (length a) (length b))).
(** 33-45, 55-66, 77-88: [txt] is written to the stream, then "buffer << expected"
    appends to it instead of reading, so that expected stays 0; equality is a
    failure (1), anything else passes (0) *)
Definition compare_expected (txt : text) (cp : list Z) : Z :=
  let expected := [] in if zx_eqb cp expected then 1 else 0.

(** the default arguments of zeta_function: abs_precision = 0,
    increase_precision_to_deduce_zeta = true, find_better_model = true (wrapper.h 20-26) *)
Section ZetaTests.
  Variables (lu gauss : ech_fun) (inv : inv_fun) (det : Z -> nat -> mat -> Z) (rnd : nat -> list mat * nat).
  Definition zeta_default (f : poly) (p : Z) : res (list Z * mat) := zeta_function lu gauss inv det rnd f p 0 true true.
  (** test_zeta_function.cc 48-67, 70-89: input text and expected text *)
  Definition test_text (input txt : text) : res Z :=
    pf <- zeta_input_text input ;; r <- zeta_default (snd pf) (fst pf) ;; OK (compare_expected txt (fst r)).
  (** test_zeta_function.cc 14-46 *)
  Definition test_vectors (ms : list vec) (cs : list Z) (p : Z) (txt : text) : res Z :=
    f <- zeta_input_vectors ms cs ;; r <- zeta_default f p ;; OK (compare_expected txt (fst r)).
  (** test_zeta_function.cc 91-100: main; the three inputs and expected texts are arguments here *)
  Definition zeta_main (in1 ex1 : text) (ms : list vec) (cs : list Z) (p : Z) (ex2 in3 ex3 : text) : res Z :=
    a <- test_text in1 ex1 ;;
    b <- test_vectors ms cs p ex2 ;;
    c <- test_text in3 ex3 ;;
    OK (if 0 <? a + b + c then 1 else 0).
End ZetaTests.
