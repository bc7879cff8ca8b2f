(** Model of /repo/dr_nd/dr_nd.cc: the non-degenerate de Rham object.

    Not part of these functions: the caches (solve_ND, reduction_matrix_ND_dict
    and the other dictionaries; every getter computes its value here), log
    output, and the OpenMP scheduling of the loop over the columns in
    compute_reduction_matrix_ND. *)
From Coq Require Import ZArith List Bool.
From Verif Require Import Base VecModel ToolsModel MatModel DRModel FdModel.
Import ListNotations.
Open Scope Z_scope.

(** dr_nd.h: the fields added to dr that are fixed after construction *)
Record dND := mk_dND {
  nd_dr : dR;
  nd_basis : list vec;           (* coKernels_ND_basis *)
  nd_bdict : vmap nat            (* coKernels_ND_basis_dict *)
}.

(** dr_nd.cc 202-213: coefficients of (1 + x + ... + x^(d-1))^(n+1) *)
Definition hilbert_ND (n : nat) (d : Z) : list Z :=
  hilbert_pow (S n) (repeat 1 (Z.to_nat d)).

(** dr_nd.cc 1427-1436: result.put(dict[a + s_j], i*len+j, a_i * c), in loop order *)
Definition matrix_ND_ups (D : dR) (lo : list vec) (dict : vmap nat)
  : res (list (nat * nat * Z)) :=
  mapM (fun ijt =>
      let i := fst (fst ijt) in let j := snd (fst ijt) in
      let a := fst (snd ijt) in let c := snd (snd ijt) in
      k <- vec_add a (nth j lo []) ;;
      row <- dget dict k ;;
      OK (row, (i * length lo + j)%nat, (nth i a 0 * c) mod r_q D))
    (flat_map (fun i => flat_map (fun j => map (fun t => ((i, j), t)) (r_f D))
        (seq 0 (length lo))) (seq 0 (S (r_n D)))).

(** dr_nd.cc 1400-1437: (number of columns, matrix) *)
Definition matrix_ND (D : dR) (l : Z) : res (nat * mat) :=
  tl <- get_at (r_tl D) l ;;
  if l <? r_d D then OK (0%nat, mzero (length tl) 0)
  else
    lo <- get_at (r_tl D) (l - r_d D) ;;
    dict <- get_at (r_td D) l ;;
    let nc := (S (r_n D) * length lo)%nat in
    ups <- matrix_ND_ups D lo dict ;;
    _ <- check (in_range (length tl) nc ups) EUB ;;
    OK (nc, mset_all ups (mzero (length tl) nc)).

(** dr_nd.cc 358-382 (without the cache) *)
Definition get_solve_ND (slv : solver) (D : dR) (l : Z) : res (list nat * mat) :=
  cM <- matrix_ND D l ;; slv (fst cM) (snd cM).

(** the top degree (d-1)(n+1)+1 of dr_nd.cc 221, 904 *)
Definition top_ND (D : dR) : Z := (r_d D - 1) * (Z.of_nat (r_n D) + 1) + 1.

(** dr_nd.cc 226-229: one level of the cokernel basis *)
Definition init_ND_level (slv : solver) (D : dR) (H : list Z) (i : Z) : res (list vec) :=
  BU <- get_solve_ND slv D (i * r_d D) ;;
  h <- get_at H (i * r_d D) ;;
  _ <- check (h =? zlen (fst BU)) EAssert ;;
  tl <- get_at (r_tl D) (i * r_d D) ;;
  mapM (fun b => get_at tl (Z.of_nat b)) (fst BU).

(** dr_nd.cc 194-243 *)
Definition init_ND (slv : solver) (q p prec : Z) (f : poly) : res dND :=
  D <- init slv q p prec f ;;
  top <- get_solve_ND slv D (top_ND D) ;;
  _ <- check (Nat.eqb (length (fst top)) 0) EAssert ;;
  bs <- mapM (init_ND_level slv D (hilbert_ND (r_n D) (r_d D))) (zseq 0 (Z.of_nat (r_n D) + 1)) ;;
  let basis := concat bs in
  _ <- check (zlen basis =? r_d D ^ Z.of_nat (r_n D)) EAssert ;;
  OK (mk_dND D basis (tuple_index basis)).

(** dr_nd.cc 947-948, 952-953, 999-1000, 1003-1004 and the updates that follow: Hnew[key]
    is created with [dim] zeros if it is absent, then entries are added *)
Definition hadd (q : Z) (dim : nat) (key : vec) (ups : list (nat * Z)) (H : vmap (list Z))
  : vmap (list Z) :=
  let h := match vfind key H with Some h => h | None => repeat 0 dim end in
  vinsert key (vadd_all q ups h) H.

(** dr_nd.cc 947-965 and 999-1018.  The form with coefficients F_i of x_i df/dx_i
    is replaced by sum_i (u_i + w_i) F_i: the part u_i F_i goes to the key
    key + e_i, the part w_i F_i to the key itself.  [cells] lists for each
    coordinate of F_i the coordinate in Hnew and the monomial w. *)
Definition nd_spread (q : Z) (n dimF dimH : nat) (cells : list (nat * vec)) (key : vec)
    (F : list Z) (H : vmap (list Z)) : vmap (list Z) :=
  fold_left (fun H i =>
      let ent := combine (seq 0 (length cells)) cells in
      let H1 := hadd q dimH (upd key i (nth i key 0 + 1))
                  (map (fun cc => (fst (snd cc), nth (i * dimF + fst cc) F 0)) ent) H in
      hadd q dimH key
        (map (fun cc => (fst (snd cc), (nth i (snd (snd cc)) 0 * nth (i * dimF + fst cc) F 0) mod q)) ent) H1)
    (seq 0 (S n)) (hadd q dimH key [] H).

(** dr_nd.cc 989-1036: one step from degree (k+1)d to degree kd.  The second
    component lists the updates (key, (row, x)) of the result matrices in the
    column under treatment. *)
Definition nd_level (N : dND) (k : nat) (BU : list nat * mat) (H : vmap (list Z))
  : res (vmap (list Z) * list (vec * (nat * Z))) :=
  let D := nd_dr N in
  let q := r_q D in
  lo <- get_at (r_tl D) (Z.of_nat k * r_d D) ;;
  hi <- get_at (r_tl D) ((Z.of_nat k + 1) * r_d D) ;;
  let dim := length lo in
  foldM (fun (st : vmap (list Z) * list (vec * (nat * Z))) (kh : vec * list Z) =>
      F <- mat_vec q (snd BU) (snd kh) ;;
      _ <- check (Nat.leb (S (r_n D) * dim + length (fst BU)) (length F)) EUB ;;
      let Hnew := nd_spread q (r_n D) dim dim (combine (seq 0 dim) lo) (fst kh) F (fst st) in
      ups <- (if Nat.leb (k + 1) (r_n D)
              then mapM (fun cb =>
                     mon <- get_at hi (Z.of_nat (snd cb)) ;;
                     row <- dget (nd_bdict N) mon ;;
                     OK (fst kh, (row, nth (S (r_n D) * dim + fst cb) F 0)))
                   (combine (seq 0 (length (fst BU))) (fst BU))
              else OK []) ;;
      OK (Hnew, snd st ++ ups))
    H ([], []).

(** dr_nd.cc 980-1056: for(k = reduction_steps-1; k >= 0; k--); after the last
    step the constants go to row 0 *)
Fixpoint nd_levels (N : dND) (solves : list (list nat * mat)) (k : nat) (H : vmap (list Z))
  : res (list (vec * (nat * Z))) :=
  match k with
  | O => mapM (fun kh : vec * list Z => x <- get_at (snd kh) 0 ;; OK (fst kh, (0%nat, x))) H
  | S k' =>
      BU <- get_at solves (Z.of_nat k') ;;
      st <- nd_level N k' BU H ;;
      rest <- nd_levels N solves k' (fst st) ;;
      OK (snd st ++ rest)
  end.

(** dr_nd.cc 930-968: the first step for a monomial of degree nd, through the
    top degree *)
Definition nd_top (N : dND) (top : list nat * mat) (v b : vec) : res (vmap (list Z)) :=
  let D := nd_dr N in
  let zn := Z.of_nat (r_n D) in
  r <- tweak v (r_d D - zn) ;;
  s <- vec_sub v r ;;
  bs <- vec_add b s ;;
  dictT <- get_at (r_td D) (top_ND D) ;;
  cH <- dget dictT bs ;;
  lo <- get_at (r_tl D) (r_d D * zn - zn) ;;
  hi <- get_at (r_tl D) (zn * r_d D) ;;
  dictH <- get_at (r_td D) (zn * r_d D) ;;
  let F := map (fun row => nth cH row 0) (snd top) in
  _ <- check (Nat.leb (S (r_n D) * length lo) (length F)) EUB ;;
  cells <- mapM (fun w =>
      m <- vec_add r w ;;
      j <- dget dictH m ;;
      OK (j, m)) lo ;;
  OK (nd_spread (r_q D) (r_n D) (length lo) (length hi) cells (repeat 0 (S (r_n D))) F []).

(** dr_nd.cc 916-1056: the column of the basis monomial b.  For n = 0 the loop
    over k is empty and nothing is written. *)
Definition nd_column (N : dND) (solves : list (list nat * mat)) (top : list nat * mat)
    (v b : vec) : res (list (vec * (nat * Z))) :=
  let D := nd_dr N in
  let sum := zsum b in
  _ <- check (Z.rem sum (r_d D) =? 0) EAssert ;;
  let l := Z.quot sum (r_d D) in
  if l =? Z.of_nat (r_n D) then
    H <- nd_top N top v b ;;
    if l =? 0 then OK [] else nd_levels N solves (Z.to_nat l) H
  else
    tl <- get_at (r_tl D) ((l + 1) * r_d D) ;;
    td <- get_at (r_td D) ((l + 1) * r_d D) ;;
    bv <- vec_add b v ;;
    j <- dget td bv ;;
    _ <- check (Nat.ltb j (length tl)) EUB ;;
    nd_levels N solves (Z.to_nat (l + 1)) [(repeat 0 (S (r_n D)), unit_at (length tl) j)].

(** dr_nd.cc 1025-1032, 1046-1053: result[key] is created as a zero matrix if
    absent, then result[key][row][col] += x *)
Definition radd (q : Z) (dp : nat) (R : vmap mat) (u : vec * (nat * nat * Z)) : vmap mat :=
  let '(key, (row, col, x)) := u in
  let M := match vfind key R with Some M => M | None => mzero dp dp end in
  vinsert key (madd_at q M row col x) R.

(** IsZero(Mat) *)
Definition mat_is_zero (M : mat) : bool := forallb (forallb (Z.eqb 0)) M.

(** dr_nd.cc 900-904: solve[0..n-1] and solve[n] *)
Definition nd_solves (slv : solver) (D : dR) : res (list (list nat * mat)) :=
  mapM (fun i => get_solve_ND slv D ((i + 1) * r_d D)) (zseq 0 (Z.of_nat (r_n D))).

(** dr_nd.cc 863-1072 (and the conversion 1074-1100): map from the exponent of u
    to the matrix *)
Definition compute_reduction_matrix_ND (slv : solver) (N : dND) (v : vec) : res (vmap mat) :=
  let D := nd_dr N in
  _ <- check (zsum v =? r_d D) EAssert ;;
  solves <- nd_solves slv D ;;
  top <- get_solve_ND slv D (top_ND D) ;;
  let dp := length (nd_basis N) in
  cols <- mapM (fun cb =>
      us <- nd_column N solves top v (snd cb) ;;
      OK (map (fun u => (fst u, (fst (snd u), fst cb, snd (snd u)))) us))
    (combine (seq 0 dp) (nd_basis N)) ;;
  _ <- check (forallb (fun u => Nat.ltb (fst (fst (snd u))) dp) (concat cols)) EUB ;;
  OK (filter (fun kM => negb (mat_is_zero (snd kM))) (fold_left (radd (r_q D) dp) (concat cols) [])).

(** the assertions dr_nd.cc 391-399 and the same lines in the other routines *)
Definition nd_pre (D : dR) (u v : vec) : res unit :=
  _ <- check (sumf (fun i => nth i v 0) (seq 0 (S (r_n D))) =? r_d D) EAssert ;;
  check (Z.rem (sumf (fun i => nth i u 0) (seq 0 (S (r_n D)))) (r_d D) =? 0) EAssert.

(** dr_nd.cc 411-413: prod_i u_i^(key_i) *)
Definition mono_ev (n : nat) (u key : vec) : Z :=
  fold_left (fun a i => a * nth i u 0 ^ nth i key 0) (seq 0 (S n)) 1.

(** dr_nd.cc 384-418 (r = q) and 420-453 (r = 0; the monomial is reduced) *)
Definition get_reduction_matrix_ND (slv : solver) (N : dND) (r : Z) (u v : vec) : res mat :=
  let D := nd_dr N in
  let dp := length (nd_basis N) in
  _ <- nd_pre D u v ;;
  R <- compute_reduction_matrix_ND slv N v ;;
  foldM (fun A kM => mat_add r A (mat_scal r (mono_ev (r_n D) u (fst kM) mod r_q D) (snd kM)))
    R (mzero dp dp).

(** dr_nd.cc 455-488 *)
Definition reduce_vector_ND (slv : solver) (N : dND) (u v : vec) (G : list Z) : res (list Z) :=
  let D := nd_dr N in
  let q := r_q D in
  _ <- nd_pre D u v ;;
  R <- compute_reduction_matrix_ND slv N v ;;
  foldM (fun A kM =>
      t <- mat_vec q (snd kM) (lvec_scal q (mono_ev (r_n D) u (fst kM) mod q) G) ;;
      lvec_add q A t)
    R (repeat 0 (length (nd_basis N))).

(** dr_nd.cc 490-522; begin() of an empty map is dereferenced *)
Definition reduce_vector_ND_ZZ (slv : solver) (N : dND) (u v : vec) (G : list Z) : res (list Z) :=
  let D := nd_dr N in
  _ <- nd_pre D u v ;;
  R <- compute_reduction_matrix_ND slv N v ;;
  match R with
  | [] => Err EUB
  | kM :: R =>
      A0 <- mat_vec 0 (snd kM) (lvec_scal 0 (mono_ev (r_n D) u (fst kM)) G) ;;
      foldM (fun A kM =>
          t <- mat_vec 0 (snd kM) (lvec_scal 0 (mono_ev (r_n D) u (fst kM)) G) ;;
          lvec_add 0 A t)
        R A0
  end.

(** P[0] += c * M[0] *)
Definition row0_add (r : Z) (P : mat) (c : Z) (M : mat) : res mat :=
  p0 <- get_at P 0 ;;
  m0 <- get_at M 0 ;;
  w <- lvec_add r p0 (lvec_scal r c m0) ;;
  OK (upd P 0 w).

(** dr_nd.cc 1134-1160: one monomial of the expansion *)
Definition poly_put (q : Z) (n dp : nat) (top : bool) (M : mat) (R : vmap mat) (ec : vec * Z)
  : res (vmap mat) :=
  let P := match vfind (fst ec) R with Some P => P | None => mzero dp dp end in
  P' <- (if top then row0_add q P (snd ec) M else mat_add q P (mat_scal q (snd ec) M)) ;;
  OK (vinsert (fst ec) P' R).

(** dr_nd.cc 1106-1178: the matrices after the substitution u -> u + x v; the
    last exponent is that of x *)
Definition compute_reduction_matrix_ND_poly (slv : solver) (N : dND) (v : vec) : res (vmap mat) :=
  let D := nd_dr N in
  let q := r_q D in
  let dp := length (nd_basis N) in
  R <- compute_reduction_matrix_ND slv N v ;;
  P <- foldM (fun P kM =>
      ex <- change_of_variables_monomial (fst kM) v ;;
      foldM (poly_put q (r_n D) dp
               (sumf (fun i => nth i (fst kM) 0) (seq 0 (S (r_n D))) =? Z.of_nat (r_n D) + 1) (snd kM)) ex P)
    R [] ;;
  OK (filter (fun kM => negb (mat_is_zero (snd kM))) P).

(** dr_nd.cc 1180-1212: the same matrices over ZZ.  Only the loop over the
    matrices creates the entry for v; if there are none, end() is dereferenced by
    the callers. *)
Definition compute_reduction_matrix_ND_poly_ZZ (slv : solver) (N : dND) (v : vec) : res (vmap mat) :=
  P <- compute_reduction_matrix_ND_poly slv N v ;;
  _ <- check (negb (Nat.eqb (length P) 0)) EUB ;;
  OK P.

(** dr_nd.cc 554-568, 627-653, 714-743: the matrix coefficients of x^0..x^(n+1).
    r = q: Mat<ZZ_p>; r = 0: Mat<ZZ>, reduced at the end *)
Definition get_ND_poly (slv : solver) (N : dND) (r : Z) (u v : vec) : res (list mat) :=
  let D := nd_dr N in
  let n := r_n D in
  let dp := length (nd_basis N) in
  P <- (if r =? 0 then compute_reduction_matrix_ND_poly_ZZ slv N v
        else compute_reduction_matrix_ND_poly slv N v) ;;
  Ps <- foldM (fun (Ps : list mat) (kM : vec * mat) =>
      let i := nth (S n) (fst kM) 0 in
      Pi <- get_at Ps i ;;
      let sum := i + sumf (fun j => nth j (fst kM) 0) (seq 0 (S n)) in
      let c := if r =? 0 then mono_ev n u (fst kM) else mono_ev n u (fst kM) mod r_q D in
      Pi' <- (if sum =? Z.of_nat n + 1 then row0_add r Pi c (snd kM)
              else mat_add r Pi (mat_scal r c (snd kM))) ;;
      OK (upd Ps (Z.to_nat i) Pi'))
    P (repeat (mzero dp dp) (S (S n))) ;;
  OK (map (map (lvec_red (r_q D))) Ps).

(** one iteration of the loops dr_nd.cc 574-592 (r = q), 663-683 (r = 0, then
    rem), 773-786 (r = 0, then mod), 831-845 (r = q): sum_i x^i P_i G, where only
    row 0 of the last coefficient is used *)
Definition nd_poly_step (q r : Z) (n : nat) (Ps : list mat) (G : list Z) (x : Z) : res (list Z) :=
  G0 <- mat_vec r (nth 0 Ps []) G ;;
  st <- foldM (fun (st : Z * list Z) i =>
      let xp := (fst st * x) mod r in
      t <- mat_vec r (nth i Ps []) G ;;
      o <- lvec_add r (snd st) (lvec_scal r xp t) ;;
      OK (xp, o)) (seq 1 n) (1, G0) ;;
  let xp := (fst st * x) mod r in
  row <- get_at (nth (S n) Ps []) 0 ;;
  _ <- check (Nat.ltb 0 (length (snd st))) EUB ;;
  OK (lvec_red q (upd (snd st) 0 ((nth 0 (snd st) 0 + xp * (vdot row G mod r)) mod r))).

(** dr_nd.cc 524-595 (r = q), 600-686 (r = 0).  A negative iteration count wraps
    around ([EFuel]). *)
Definition reduce_vector_ND_poly (slv : solver) (N : dND) (r : Z) (u v : vec) (iterations : Z)
    (G : list Z) : res (list Z) :=
  let D := nd_dr N in
  _ <- nd_pre D u v ;;
  Ps <- get_ND_poly slv N r u v ;;
  if iterations <? 0 then Err EFuel
  else foldM (nd_poly_step (r_q D) r (r_n D) Ps) (rev (zseq 0 iterations)) G.

(** dr_nd.cc 688-744 *)
Definition get_ND_poly_flint (slv : solver) (N : dND) (u v : vec) : res (list mat) :=
  _ <- nd_pre (nd_dr N) u v ;; get_ND_poly slv N 0 u v.

(** dr_nd.cc 749-859.  In the word-size branch x has to be reduced
    (precondition of nmod_mul). *)
Definition reduce_vector_ND_poly_flint (n : nat) (q : Z) (Ps : list mat) (iterations : Z)
    (G : list Z) : res (list Z) :=
  if 2 ^ 64 <=? q then foldM (nd_poly_step q 0 n Ps) (rev (zseq 0 iterations)) G
  else if Z.of_nat n + 1 <? iterations then finitediff q Ps iterations G
  else foldM (fun Gin x => _ <- check (x <? q) EUB ;; nd_poly_step q q n Ps Gin x)
         (rev (zseq 0 iterations)) G.

(** dr_nd.cc 749-859 with the enlarged rectangles of [finitediff_joined] (not in
    the source) *)
Definition reduce_vector_ND_poly_flint_joined (n : nat) (q : Z) (Ps : list mat) (iterations : Z)
    (G : list Z) : res (list Z) :=
  if 2 ^ 64 <=? q then foldM (nd_poly_step q 0 n Ps) (rev (zseq 0 iterations)) G
  else if Z.of_nat n + 1 <? iterations then finitediff_joined q Ps iterations G
  else foldM (fun Gin x => _ <- check (x <? q) EUB ;; nd_poly_step q q n Ps Gin x)
         (rev (zseq 0 iterations)) G.

(** dr_nd.cc 1217-1239 and 1243-1275 for one l: the columns are the basis
    monomials of level l, all entries 0 or 1 *)
Definition get_inclusion_matrix_ND (slv : solver) (N : dND) (u : vec) (l : Z) : res (list (list Z)) :=
  let D := nd_dr N in
  let n1 := Z.of_nat (r_n D) + 1 in
  _ <- check (forallb (fun i => 0 <? nth i u 0) (seq 0 (S (r_n D)))) EAssert ;;
  _ <- check (sumf (fun i => nth i u 0) (seq 0 (S (r_n D))) =? r_d D) EAssert ;;
  _ <- check (l <? Z.of_nat (r_n D)) EAssert ;;
  BU <- get_solve_ND slv D (l * r_d D) ;;
  lo <- get_at (r_tl D) (l * r_d D) ;;
  hi <- get_at (r_tl D) ((l + 1) * r_d D - n1) ;;
  dict <- get_at (r_td D) ((l + 1) * r_d D - n1) ;;
  mapM (fun b =>
      m <- get_at lo (Z.of_nat b) ;;
      w <- vec_add m (map (fun x => x - 1) u) ;;
      j <- dget dict w ;;
      _ <- check (Nat.ltb j (length hi)) EUB ;;
      OK (unit_at (length hi) j)) (fst BU).

(** dr_nd.cc 1361-1396: the column of one basis monomial of degree nd *)
Definition ckn_column (slv : solver) (N : dND) (u : vec) (topJ : list nat * mat)
    (lo listH : list vec) (dictT dictH : vmap nat) (m : vec) : res (list Z) :=
  let D := nd_dr N in
  let q := r_q D in
  let zn := Z.of_nat (r_n D) in
  tt <- tweak m zn ;;
  a <- vec_sub m tt ;;
  tu <- vec_add tt u ;;
  w <- vec_sub tu (repeat 1 (S (r_n D))) ;;
  cw <- dget dictT w ;;
  let F := map (fun row => nth cw row 0) (snd topJ) in
  let dimF := length lo in
  _ <- check (Nat.leb (S (r_n D) * dimF) (length F)) EUB ;;
  us <- mapM (fun ik =>
      let i := fst ik in let s := nth (snd ik) lo [] in
      let e := nth i a 0 + nth i s 0 in
      if 0 <? e then
        as_ <- vec_add a s ;;
        row <- dget dictH (upd as_ i (nth i as_ 0 - 1)) ;;
        OK [(row, (e * nth (i * dimF + snd ik) F 0) mod q)]
      else OK [])
    (list_prod (seq 0 (S (r_n D))) (seq 0 dimF)) ;;
  _ <- check (forallb (fun u => Nat.ltb (fst u) (length listH)) (concat us)) EUB ;;
  M <- get_final_reduction_matrix_J slv D zn ;;
  mat_vec q M (vadd_all q (concat us) (repeat 0 (length listH))).

(** dr_nd.cc 1277-1398: the matrix from W_u to the cohomology basis *)
Definition get_coKernels_ND_to_basis (slv : solver) (N : dND) (u : vec) : res mat :=
  let D := nd_dr N in
  let q := r_q D in
  let zn := Z.of_nat (r_n D) in
  _ <- check (forallb (fun i => 0 <? nth i u 0) (seq 0 (S (r_n D)))) EAssert ;;
  _ <- check (sumf (fun i => nth i u 0) (seq 0 (S (r_n D))) =? r_d D) EAssert ;;
  low <- mapM (fun l =>
      M <- get_final_reduction_matrix_J slv D (l + 1) ;;
      incl <- get_inclusion_matrix_ND slv N u l ;;
      mapM (mat_vec q M) incl) (zseq 0 zn) ;;
  topJ <- get_solve_J slv D (deg_top D) ;;
  BU <- get_solve_ND slv D (r_d D * zn) ;;
  lo <- get_at (r_tl D) (r_d D * zn - 2 * zn) ;;
  listT <- get_at (r_tl D) (r_d D * zn) ;;
  listH <- get_at (r_tl D) (r_d D * zn - (zn + 1)) ;;
  dictT <- get_at (r_td D) (deg_top D) ;;
  dictH <- get_at (r_td D) (r_d D * zn - (zn + 1)) ;;
  high <- mapM (fun b =>
      m <- get_at listT (Z.of_nat b) ;;
      ckn_column slv N u topJ lo listH dictT dictH m) (fst BU) ;;
  let cols := concat low ++ high in
  _ <- check (Nat.leb (length cols) (length (nd_basis N))) EUB ;;
  OK (transpose (length (nd_basis N)) (length (r_basis D)) cols).

(** dr_nd.cc 1474-1485: while(sum < d), the first i with u_i > v_i + 1 is
    incremented; if there is none the loop spins forever *)
Fixpoint nd_bump (u v : vec) : option vec :=
  match u, v with
  | x :: u', y :: v' => if y + 1 <? x then Some (y + 1 :: v') else option_map (cons y) (nd_bump u' v')
  | _, _ => None
  end.
Fixpoint nd_dir_loop (fuel : nat) (d : Z) (u v : vec) (sum : Z) : res vec :=
  if sum <? d then
    match fuel with
    | O => Err EFuel
    | S fuel => match nd_bump u v with
                | Some v' => nd_dir_loop fuel d u v' (sum + 1)
                | None => Err EFuel
                end
    end
  else OK v.
Definition nd_dir (d : Z) (u : vec) : res vec :=
  nd_dir_loop (Z.to_nat d) d u (map (fun _ => 0) u) 0.

(** dr_nd.cc 1467-1492: for(e = m; e > 1; e--), [k] iterations *)
Fixpoint mtb_ND_loop (slv : solver) (N : dND) (k : nat) (u : vec) (G : list Z) : res (vec * list Z) :=
  match k with
  | O => OK (u, G)
  | S k =>
      v <- nd_dir (r_d (nd_dr N)) u ;;
      u' <- vec_sub u v ;;
      G' <- reduce_vector_ND slv N u' v G ;;
      mtb_ND_loop slv N k u' G'
  end.

(** dr_nd.cc 1443-1500 *)
Definition monomial_to_basis_ND (slv : solver) (N : dND) (u : vec) : res (list Z) :=
  let D := nd_dr N in
  _ <- check (Nat.eqb (length u) (S (r_n D))) EUB ;;
  _ <- check (forallb (fun x => 0 <? x) u) EAssert ;;
  _ <- check (Z.rem (zsum u) (r_d D) =? 0) EAssert ;;
  let m := Z.quot (zsum u) (r_d D) in
  _ <- check (Nat.ltb 0 (length (nd_basis N))) EUB ;;
  uG <- mtb_ND_loop slv N (Z.to_nat (m - 1)) u (unit_at (length (nd_basis N)) 0) ;;
  _ <- check (zsum (fst uG) =? r_d D) EAssert ;;
  M <- get_coKernels_ND_to_basis slv N (fst uG) ;;
  mat_vec (r_q D) M (snd uG).
