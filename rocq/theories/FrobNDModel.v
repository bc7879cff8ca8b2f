(** Model of /repo/hypersurface_nd/hypersurface_nd.cc: Frobenius on the basis of
    cohomology through the non-degenerate reduction. *)
From Coq Require Import ZArith List Bool.
From Verif Require Import Base VecModel ToolsModel MatModel DRModel FrobModel NDModel.
Import ListNotations.
Open Scope Z_scope.

(** the three routines: frob_ND_ZZ (62-269), frob_ND_ZZ_p (271-454), with their
    argument [loop], and frob_ND_flint (456-777) *)
Inductive fnd_kind : Set := KZZ (loop : nat) | KZZp (loop : nat) | KFlint.

(** hypersurface_nd.cc 134-140, 331-337, 523-534: add the terms of fpow[j] to
    entry 0 of H[monomial].  Only frob_ND_flint skips a term that is zero. *)
Definition fnd_add (N : dND) (skip : bool) (ei : vec) (Djm fact : Z) (P : poly)
    (H : vmap (list Z)) : res (vmap (list Z)) :=
  let D := nd_dr N in
  let dp := length (nd_basis N) in
  foldM (fun H t =>
      m0 <- vec_add (fst t) ei ;;
      mono <- vec_add m0 (ones_vec (r_n D)) ;;
      let x := (Djm * snd t * fact) mod r_q D in
      if skip && (x =? 0) then OK H
      else
        let G := match vfind mono H with Some G => G | None => repeat 0 dp end in
        _ <- check (Nat.ltb 0 (length G)) EUB ;;
        OK (vinsert mono (vadd_all (r_q D) [(0%nat, x)] G) H))
    P H.

(** hypersurface_nd.cc 172-194, 366-388, 579-605, 677-703: the direction.  The
    condition h[i] > v[i] + 1 + shift[i] of frob_ND_flint is the condition of
    [nd_dir] for h - shift; shift = ei if e > m, otherwise 0. *)
Definition fnd_dir (N : dND) (k : fnd_kind) (ei : vec) (m e : Z) (h : vec) : res vec :=
  if 1 <? e then
    match k with
    | KFlint => if m <? e then s <- vec_sub h ei ;; nd_dir (r_d (nd_dr N)) s
                else nd_dir (r_d (nd_dr N)) h
    | _ => nd_dir (r_d (nd_dr N)) h
    end
  else OK h.

(** hypersurface_nd.cc 207-213 and 216-221, 401-406: [end_] single steps; the state is
    (dest, G) *)
Definition fnd_steps (N : dND) (step : vec -> list Z -> res (list Z)) (v : vec) (end_ : Z)
    (h : vec) (G : list Z) : res (vec * list Z) :=
  foldM (fun (st : vec * list Z) (_ : Z) =>
      dest <- vec_sub (fst st) v ;;
      G' <- step dest (snd st) ;;
      OK (dest, G')) (zseq 0 end_) (vscale (r_p (nd_dr N)) h, G).

(** hypersurface_nd.cc 196-224, 390-408, 609-620 and 706-716: reduce one entry;
    result (dest, G).  The switches have no default case. *)
Definition fnd_reduce (slv : solver) (N : dND) (k : fnd_kind) (end_ : Z) (v h : vec) (G : list Z)
  : res (vec * list Z) :=
  let D := nd_dr N in
  let q := r_q D in
  match k with
  | KZZ O =>
      dest <- vec_sub (vscale (r_p D) h) (vscale end_ v) ;;
      G' <- reduce_vector_ND_poly slv N 0 dest v end_ G ;;
      OK (dest, G')
  | KZZ 1 => fnd_steps N (fun dest G => G' <- reduce_vector_ND_ZZ slv N dest v G ;; OK (lvec_red q G')) v end_ h G
  | KZZ 2 => fnd_steps N (fun dest G => M <- get_reduction_matrix_ND slv N 0 dest v ;; mat_vec 0 M G) v end_ h G
  | KZZ _ => OK (vscale (r_p D) h, G)
  | KZZp O =>
      dest <- vec_sub (vscale (r_p D) h) (vscale end_ v) ;;
      G' <- reduce_vector_ND_poly slv N q dest v end_ G ;;
      OK (dest, G')
  | KZZp 1 => fnd_steps N (fun dest G => M <- get_reduction_matrix_ND slv N q dest v ;; mat_vec q M G) v end_ h G
  | KZZp _ => OK (vscale (r_p D) h, G)
  | KFlint =>
      dest <- vec_sub (vscale (r_p D) h) (vscale end_ v) ;;
      Ps <- get_ND_poly_flint slv N dest v ;;
      G' <- reduce_vector_ND_poly_flint (r_n D) q Ps end_ G ;;
      OK (dest, G')
  end.

Definition veqb (a b : vec) : bool := if list_eq_dec Z.eq_dec a b then true else false.

(** hypersurface_nd.cc 163-245, 358-429, 565-655, 660-746: reduce every entry of
    H; e > 1: collect in Hnew, e = 1: add to F.  frob_ND_flint has no assertion
    for e = 1 and uses h itself. *)
Definition fnd_pass (slv : solver) (N : dND) (k : fnd_kind) (ei : vec) (m e : Z)
    (H : vmap (list Z)) (F : list Z) : res (vmap (list Z) * list Z) :=
  let D := nd_dr N in
  let q := r_q D in
  let end_ := if 1 <? e then r_p D else r_p D - 1 in
  foldM (fun (st : vmap (list Z) * list Z) (hG : vec * list Z) =>
      let h := fst hG in
      v <- fnd_dir N k ei m e h ;;
      dG <- fnd_reduce slv N k end_ v h (snd hG) ;;
      let G := lvec_red q (snd dG) in
      if all_zero q G then OK st
      else if 1 <? e then
        y <- vec_sub h v ;;
        _ <- check (veqb (vscale (r_p D) y) (fst dG)) EAssert ;;
        match vfind y (fst st) with
        | None => OK (vinsert y G (fst st), snd st)
        | Some G0 => S <- lvec_add q G0 G ;; OK (vinsert y S (fst st), snd st)
        end
      else
        _ <- check (match k with KFlint => true | _ => veqb (fst dG) h end) EAssert ;;
        M <- get_coKernels_ND_to_basis slv N h ;;
        G1 <- mat_vec q M G ;;
        F' <- lvec_add q (snd st) G1 ;;
        OK (fst st, F'))
    H ([], F).

(** hypersurface_nd.cc 114-246, 311-430, 503-749: for(e = m+N-1; e != 0; e--);
    state (H, F, fact).  This is the branch of frob_ND_flint for one thread; the
    other branch does the same; for the lifetime of [modulus] in it see C39. *)
Fixpoint fnd_loop (slv : solver) (N : dND) (k : fnd_kind) (dj : Z -> res Z) (ei : vec) (m : Z)
    (fpow : list poly) (e : nat) (st : vmap (list Z) * list Z * Z)
  : res (vmap (list Z) * list Z * Z) :=
  match e with
  | O => OK st
  | S e' =>
      let ez := Z.of_nat e in
      let '(H, F, fact) := st in
      H1 <- (if m <=? ez
             then c <- dj (ez - m) ;; P <- get_at fpow (ez - m) ;;
                  fnd_add N (match k with KFlint => true | _ => false end) ei c fact P H
             else OK H) ;;
      HF <- fnd_pass slv N k ei m ez H1 F ;;
      fnd_loop slv N k dj ei m fpow e'
        (fst HF, snd HF, frob_fact (r_q (nd_dr N)) (r_p (nd_dr N)) ez fact)
  end.

(** hypersurface_nd.cc 124-133 and 513-522 (ZZ), 321-330 (int64_t) *)
Definition fnd_dj (k : fnd_kind) (m P j : Z) : res Z :=
  match k with KZZp _ => djm_acc64 m P j | _ => djm djm_64 m P j end.

(** hypersurface_nd.cc 62-246, 271-430, 456-749: (F, fact) before the division *)
Definition fnd_sum (slv : solver) (N : dND) (k : fnd_kind) (fpow : list poly) (coordinate : nat) (prec : Z)
  : res (list Z * Z) :=
  let D := nd_dr N in
  _ <- check (0 <? prec) EAssert ;;
  ei <- get_at (r_basis D) (Z.of_nat coordinate) ;;
  fpow' <- compute_fpow (r_q D) (r_f D) (prec - 1) fpow ;;
  let m := pole_order D ei in
  st <- fnd_loop slv N k (fnd_dj k m prec) ei m fpow' (Z.to_nat (m + prec - 1))
          ([], repeat 0 (length (r_basis D)), 1 mod r_q D) ;;
  OK (snd (fst st), snd st).

(** hypersurface_nd.cc 249-266, 433-451, 759-774: division by
    (P-1)! / p^(n-1); u is the part of (P-1)! prime to p, val its valuation.  The
    running factor is not used (the assertion on it is commented out). *)
Definition fnd_divide (q p n val u : Z) (F : list Z) : res (list Z) :=
  u' <- inv_mod q u ;;
  let F1 := lvec_scal q u' F in
  if val <=? n - 1 then OK (lvec_scal q ((p ^ (n - 1 - val)) mod q) F1)
  else div_all q (p ^ (val - (n - 1))) F1.
Definition fnd_finish (k : fnd_kind) (q p n P : Z) (F : list Z) : res (list Z) :=
  match k with
  | KFlint =>
      vu <- factorial_p_adic (S (Z.to_nat (Z.log2 (P - 1)))) q (P - 1) p 1 ;;
      fnd_divide q p n (fst vu) (snd vu) F
  | _ =>
      val <- valuation_of_factorial (P - 1) p ;;
      let full := factorial 0 (P - 1) 1 in
      _ <- check (full mod p ^ val =? 0) EAssert ;;
      fnd_divide q p n val ((full / p ^ val) mod q) F
  end.

(** hypersurface_nd.cc 62-269, 271-454, 456-777 *)
Definition frob_ND_kind (slv : solver) (N : dND) (k : fnd_kind) (fpow : list poly) (coordinate : nat) (prec : Z)
  : res (list Z) :=
  let D := nd_dr N in
  ei <- get_at (r_basis D) (Z.of_nat coordinate) ;;
  Ff <- fnd_sum slv N k fpow coordinate prec ;;
  fnd_finish k (r_q D) (r_p D) (Z.of_nat (r_n D)) (r_p D * (pole_order D ei + prec - 1)) (fst Ff).

(** hypersurface_nd.cc 56-60 *)
Definition frob_ND (slv : solver) (N : dND) (fpow : list poly) (coordinate : nat) (prec : Z) : res (list Z) :=
  frob_ND_kind slv N KFlint fpow coordinate prec.

(** hypersurface_nd.cc 793-823: row i of the matrix before transposing *)
Definition frob_row_ND (slv : solver) (N : dND) (fpow : list poly) (prec : list Z) (i : nat) : res (list Z) :=
  let D := nd_dr N in
  let m := pole_order D (nth i (r_basis D) []) in
  Nm <- get_at prec (m - 1) ;;
  if 0 <? Nm then frob_ND slv N fpow i Nm else OK (repeat 0 (length (r_basis D))).

(** hypersurface_nd.cc 779-825 *)
Definition frob_matrix_ND (slv : solver) (N : dND) (fpow : list poly) (prec : list Z) : res mat :=
  let D := nd_dr N in
  _ <- check (Nat.eqb (length prec) (r_n D)) EAssert ;;
  rows <- mapM (frob_row_ND slv N fpow prec) (seq 0 (length (r_basis D))) ;;
  OK (transpose (length (r_basis D)) (length (r_basis D)) rows).
