(** Model of /repo/dr.h and /repo/dr/*.cc: the de Rham object, relation
    matrices, reduction matrices, and the reduction of monomials to the
    cohomology basis.  The caches of the C++ object are not part of these
    functions; they are modelled in CacheModel.v, where every cached getter is
    shown to return the value computed here. *)
From Coq Require Import ZArith List Bool.
From Verif Require Import Base VecModel ToolsModel MatModel.
Import ListNotations.
Open Scope Z_scope.

(** dr.h 25-110: the fields that are fixed after construction.  [r_q] is the
    global ZZ_p modulus (p^precision in every caller). *)
Record dR := mk_dR {
  r_p : Z; r_prec : Z; r_q : Z;
  r_n : nat; r_d : Z;
  r_f : poly;
  r_tl : list (list vec);        (* tuple_list *)
  r_td : list (vmap nat);        (* tuple_dict *)
  r_basis : list vec;            (* coKernels_J_basis *)
  r_bdict : vmap nat             (* coKernels_J_basis_dict *)
}.

(** solve_system_padic(B, U, T, precision) as called in dr/get_solve_J.cc 28:
    number of columns of T, T, result (B, U).  Modelled in SolveModel.v. *)
Definition solver := nat -> mat -> res (list nat * mat).

(** dr/init.cc 53-57: tuple_dict[i][ tuple_list[i][j] ] = j for all j *)
Definition tuple_index (l : list vec) : vmap nat :=
  fold_left (fun m kj => vinsert (fst kj) (snd kj) m) (combine l (seq 0 (length l))) [].

(** map::operator[] used as a lookup.  In C++ a missing key is silently inserted
    with the value 0; the model makes a miss an error outcome, so that every
    theorem concluding [OK] also shows that no lookup misses. *)
Definition dget {V} (m : vmap V) (k : vec) : res V :=
  match vfind k m with Some j => OK j | None => Err EUB end.

(** dr/init.cc 60-72: coefficients of (1 + x + ... + x^(d-2))^(n+1) *)
Definition conv_coeff (a b : list Z) (k : nat) : Z :=
  sumf (fun i => nth i a 0 * nth (k - i) b 0) (seq 0 (S k)).
Definition conv_mul (a b : list Z) : list Z :=
  map (conv_coeff a b) (seq 0 (length a + length b - 1)).
Fixpoint hilbert_pow (n : nat) (a : list Z) : list Z :=
  match n with O => [1] | S n => conv_mul (hilbert_pow n a) a end.
Definition hilbert_J (n : nat) (d : Z) : list Z :=
  hilbert_pow (S n) (repeat 1 (Z.to_nat (d - 1))).

(** dr/matrix_J.cc 40-53: the assignments result[row][i*len+j] = a_i * c, in
    loop order (i, j, term of f) *)
Definition matrix_J_ups (D : dR) (lo : list vec) (dict : vmap nat)
  : res (list (nat * nat * Z)) :=
  mapM (fun ijt =>
      let i := fst (fst ijt) in let j := snd (fst ijt) in
      let a := fst (snd ijt) in let c := snd (snd ijt) in
      da <- vec_diff a i ;;
      k <- vec_add da (nth j lo []) ;;
      row <- dget dict k ;;
      OK (row, (i * length lo + j)%nat, (nth i a 0 * c) mod r_q D))
    (flat_map (fun i => flat_map (fun j =>
        map (fun t => ((i, j), t)) (filter (fun t => 0 <? nth i (fst t) 0) (r_f D)))
        (seq 0 (length lo))) (seq 0 (S (r_n D)))).

(** dr/matrix_J.cc 11-55: (number of columns, matrix) *)
Definition matrix_J (D : dR) (l : Z) : res (nat * mat) :=
  tl <- get_at (r_tl D) l ;;
  if l <? r_d D - 1 then OK (0%nat, mzero (length tl) 0)
  else
    lo <- get_at (r_tl D) (l - (r_d D - 1)) ;;
    dict <- get_at (r_td D) l ;;
    let nc := (S (r_n D) * length lo)%nat in
    ups <- matrix_J_ups D lo dict ;;
    _ <- check (in_range (length tl) nc ups) EUB ;;
    OK (nc, mset_all ups (mzero (length tl) nc)).

(** dr/get_solve_J.cc 10-36 (without the cache) *)
Definition get_solve_J (slv : solver) (D : dR) (l : Z) : res (list nat * mat) :=
  cM <- matrix_J D l ;; slv (fst cM) (snd cM).

(** dr/compute_reduction_matrix_J.cc 65-76: decrement every entry, or give up at
    the first one that is not positive *)
Fixpoint dec_all (w : vec) : option vec :=
  match w with
  | [] => Some []
  | x :: r => if 0 <? x then option_map (cons (x - 1)) (dec_all r) else None
  end.

(** degrees used by dr/compute_reduction_matrix_J.cc 35-40 *)
Definition degG (D : dR) : Z := r_d D * Z.of_nat (r_n D) - Z.of_nat (r_n D).
Definition deg_top (D : dR) : Z := (r_d D - 2) * (Z.of_nat (r_n D) + 1) + 1.

(** 1 - e_i, dr/compute_reduction_matrix_J.cc 59-63, 91 *)
Definition one_minus (n i : nat) : vec := upd (repeat 1 (S n)) i 0.

(** dr/compute_reduction_matrix_J.cc 59-106: one iteration of the (parallel)
    loop over the monomials g of degree dn-n; the list of its updates
    (k, (row, col, x)) meaning M[k][row][col] += x, in order *)
Definition red_column (D : dR) (v : vec) (listF : list vec) (dictG dictW : vmap nat)
    (U : mat) (c : nat) (g : vec) : res (list (nat * (nat * nat * Z))) :=
  w0 <- vec_add g v ;;
  match dec_all w0 with
  | None => OK []
  | Some w =>
      _ <- check (zsum w =? r_d D * Z.of_nat (r_n D) - 2 * Z.of_nat (r_n D) + r_d D - 1) EAssert ;;
      cw <- dget dictW w ;;
      let F := map (fun row => nth cw row 0) U in
      _ <- check (Nat.leb (S (r_n D) * length listF) (length F)) EUB ;;
      us <- mapM (fun ik =>
          let i := fst ik in let k := snd ik in
          let s := nth k listF [] in
          key <- vec_add s (one_minus (r_n D) i) ;;
          row <- dget dictG key ;;
          let x := nth (i * length listF + k) F 0 in
          OK [(0%nat, (row, c, (nth i s 0 * x) mod r_q D)); (S i, (row, c, x))])
        (list_prod (seq 0 (S (r_n D))) (seq 0 (length listF))) ;;
      OK (concat us)
  end.

(** applying updates to the vector of matrices M[0..n+1] *)
Definition apply_ups (q : Z) (ups : list (nat * (nat * nat * Z))) (Ms : list mat) : list mat :=
  fold_left (fun Ms u =>
    let '(k, (r, c, x)) := u in upd Ms k (madd_at q (nth k Ms []) r c x)) ups Ms.

(** all updates of all iterations of the loop, in sequential order *)
Definition red_ups (slv : solver) (D : dR) (v : vec) : res (list (list (nat * (nat * nat * Z)))) :=
  BU <- get_solve_J slv D (deg_top D) ;;
  listG <- get_at (r_tl D) (degG D) ;;
  dictG <- get_at (r_td D) (degG D) ;;
  dictW <- get_at (r_td D) (degG D + r_d D - (Z.of_nat (r_n D) + 1)) ;;
  listF <- get_at (r_tl D) (degG D - Z.of_nat (r_n D)) ;;
  mapM (fun cg => red_column D v listF dictG dictW (snd BU) (fst cg) (snd cg))
    (combine (seq 0 (length listG)) listG).

Definition red_range (n g : nat) (ups : list (nat * (nat * nat * Z))) : bool :=
  forallb (fun u => Nat.ltb (fst u) (S (S n)) && Nat.ltb (fst (fst (snd u))) g &&
                    Nat.ltb (snd (fst (snd u))) g) ups.

(** dr/compute_reduction_matrix_J.cc 13-111: the n+2 matrices M[0], M[1..n+1] *)
Definition compute_reduction_matrix_J (slv : solver) (D : dR) (v : vec) : res (list mat) :=
  listG <- get_at (r_tl D) (degG D) ;;
  ups <- red_ups slv D v ;;
  let g := length listG in
  _ <- check (red_range (r_n D) g (concat ups)) EUB ;;
  OK (apply_ups (r_q D) (concat ups) (repeat (mzero g g) (S (S (r_n D))))).

(** the assertions at the start of every reduction routine
    (dr/get_reduction_matrix_J.cc 13-19 and the same lines in the _ZZ,
    reduce_vector_J* files) *)
Definition step_pre (D : dR) (u v : vec) : res unit :=
  _ <- check (forallb (fun i => (nth i u 0 =? 0) || (0 <? nth i v 0)) (seq 0 (S (r_n D)))) EAssert ;;
  check (sumf (fun i => nth i v 0) (seq 0 (S (r_n D))) =? r_d D) EAssert.

(** dr/get_reduction_matrix_J.cc 9-31 (ring modulus r = q) and
    dr/get_reduction_matrix_J_ZZ.cc 10-30 (r = 0, matrices converted to ZZ) *)
Definition get_reduction_matrix_J (slv : solver) (D : dR) (r : Z) (u v : vec) : res mat :=
  _ <- step_pre D u v ;;
  Ms <- compute_reduction_matrix_J slv D v ;;
  foldM (fun R i => mat_add r R (mat_scal r (nth i u 0) (nth (S i) Ms [])))
    (seq 0 (S (r_n D))) (nth 0 Ms []).

(** dr/reduce_vector_J.cc 7-29 (r = q) and dr/reduce_vector_J_ZZ.cc 8-29 (r = 0) *)
Definition reduce_vector_J (slv : solver) (D : dR) (r : Z) (u v : vec) (G : list Z) : res (list Z) :=
  _ <- step_pre D u v ;;
  Ms <- compute_reduction_matrix_J slv D v ;;
  R0 <- mat_vec r (nth 0 Ms []) G ;;
  foldM (fun R i => t <- mat_vec r (nth (S i) Ms []) G ;; lvec_add r R (lvec_scal r (nth i u 0) t))
    (seq 0 (S (r_n D))) R0.

(** dr/reduce_vector_J_poly.cc 9-48 (r = q) and dr/reduce_vector_J_poly_ZZ.cc
    10-47 (r = 0, with a rem by the modulus after each iteration; for r = q that
    rem changes nothing).  A negative iteration count wraps around ([EFuel]). *)
Definition reduce_vector_J_poly (slv : solver) (D : dR) (r : Z) (u v : vec) (iterations : Z)
    (G : list Z) : res (list Z) :=
  _ <- step_pre D u v ;;
  Ms <- compute_reduction_matrix_J slv D v ;;
  M0 <- foldM (fun R i => mat_add r R (mat_scal r (nth i u 0) (nth (S i) Ms [])))
    (seq 0 (S (r_n D))) (nth 0 Ms []) ;;
  M1 <- foldM (fun R i => mat_add r R (mat_scal r (nth i v 0) (nth (S i) Ms [])))
    (seq 0 (S (r_n D))) (mzero (length G) (length G)) ;;
  if iterations <? 0 then Err EFuel
  else
    foldM (fun Gin x =>
        G0 <- mat_vec r M0 Gin ;;
        G1 <- mat_vec r M1 Gin ;;
        G' <- lvec_add r G0 (lvec_scal r x G1) ;;
        OK (lvec_red (r_q D) G'))
      (rev (zseq 0 iterations)) G.

(** dr/compute_inclusion_matrix_J.cc 11-43 with the assertion of
    dr/get_inclusion_matrix_J.cc 19-22 *)
Definition get_inclusion_matrix_J (D : dR) (u : vec) : res mat :=
  _ <- check (sumf (fun i => nth i u 0) (seq 0 (S (r_n D))) =? Z.of_nat (r_n D)) EAssert ;;
  listG <- get_at (r_tl D) (degG D) ;;
  dictH <- get_at (r_td D) (degG D - 1) ;;
  ups <- mapM (fun cg =>
      w0 <- vec_add (snd cg) u ;;
      match dec_all w0 with
      | None => OK []
      | Some w => row <- dget dictH w ;; OK [(row, fst cg, 1)]
      end) (combine (seq 0 (length listG)) listG) ;;
  _ <- check (in_range (length dictH) (length listG) (concat ups)) EUB ;;
  OK (mset_all (concat ups) (mzero (length dictH) (length listG))).

(** dr/compute_final_reduction_matrix_J.cc 23-36: pole order 1 *)
Definition final_one (D : dR) (listG : list vec) : mat :=
  map (fun b => map (fun g => if list_eq_dec Z.eq_dec g b then 1 else 0) listG) (r_basis D).

(** dr/compute_final_reduction_matrix_J.cc 72-103: the column of one monomial *)
Definition final_column (D : dR) (k : Z) (Mlow : mat) (listG listF listH : list vec)
    (dictH : vmap nat) (B : list nat) (U : mat) (c : nat) : res (list Z) :=
  let F := map (fun row => nth c row 0) U in
  let dimF := length listF in
  _ <- check (Nat.leb (S (r_n D) * dimF + length B) (length F)) EUB ;;
  us <- mapM (fun ik =>
      let i := fst ik in let j := snd ik in
      let s := nth j listF [] in
      if 0 <? nth i s 0 then
        h <- vec_diff s i ;;
        row <- dget dictH h ;;
        OK [(row, (nth i s 0 * nth (i * dimF + j) F 0) mod r_q D)]
      else OK [])
    (list_prod (seq 0 (S (r_n D))) (seq 0 dimF)) ;;
  _ <- check (forallb (fun u => Nat.ltb (fst u) (length listH)) (concat us)) EUB ;;
  let H := vadd_all (r_q D) (concat us) (repeat 0 (length listH)) in
  row <- mat_vec (r_q D) Mlow H ;;
  bs <- mapM (fun ib =>
      b <- get_at listG (Z.of_nat (snd ib)) ;;
      pos <- dget (r_bdict D) b ;;
      OK (pos, (zfact (k - 1) * nth (S (r_n D) * dimF + fst ib) F 0) mod r_q D))
    (combine (seq 0 (length B)) B) ;;
  _ <- check (forallb (fun u => Nat.ltb (fst u) (length row)) bs) EUB ;;
  OK (vadd_all (r_q D) bs row).

(** dr/compute_final_reduction_matrix_J.cc 11-107 for pole order S k, given the
    matrix for pole order k (64-bit overflow of (k-1)! is not modelled) *)
Fixpoint final_reduction (slv : solver) (D : dR) (k : nat) : res mat :=
  match k with
  | O => Err EAssert
  | S k' =>
      let deg := Z.of_nat k * r_d D - (Z.of_nat (r_n D) + 1) in
      listG <- get_at (r_tl D) deg ;;
      match k' with
      | O => OK (final_one D listG)
      | S _ =>
          Mlow <- final_reduction slv D k' ;;
          listF <- get_at (r_tl D) (deg - (r_d D - 1)) ;;
          listH <- get_at (r_tl D) (deg - r_d D) ;;
          dictH <- get_at (r_td D) (deg - r_d D) ;;
          BU <- get_solve_J slv D deg ;;
          cols <- mapM (final_column D (Z.of_nat k) Mlow listG listF listH dictH (fst BU) (snd BU))
                    (seq 0 (length listG)) ;;
          OK (transpose (length listG) (length (r_basis D)) cols)
      end
  end.

(** dr/get_final_reduction_matrix_J.cc 10-27 (assertions; without the cache) *)
Definition get_final_reduction_matrix_J (slv : solver) (D : dR) (k : Z) : res mat :=
  _ <- check (k <=? Z.of_nat (r_n D)) EAssert ;;
  _ <- check (0 <? k) EAssert ;;
  final_reduction slv D (Z.to_nat k).

(** choice of a direction: dr/monomial_to_basis_J.cc 46-72,
    hypersurface/frob_J_ZZ.cc 128-152, frob_J_ZZ_p.cc.
    First v_i = 1 where w_i > 0; then, while sum < d, the first i with
    v_i < w_i is incremented.  If there is none the C++ loop spins forever. *)
Fixpoint dir_bump (w v : vec) : option vec :=
  match w, v with
  | x :: w', y :: v' =>
      if (0 <? x) && (y <? x) then Some (y + 1 :: v') else option_map (cons y) (dir_bump w' v')
  | _, _ => None
  end.
Fixpoint dir_loop (fuel : nat) (d : Z) (w v : vec) (sum : Z) : res vec :=
  if sum <? d then
    match fuel with
    | O => Err EFuel
    | S fuel => match dir_bump w v with
                | Some v' => dir_loop fuel d w v' (sum + 1)
                | None => Err EFuel
                end
    end
  else OK v.
Definition choose_dir (d : Z) (w : vec) : res vec :=
  let v0 := map (fun x => if 0 <? x then 1 else 0) w in
  dir_loop (Z.to_nat d) d w v0 (zsum v0).

(** dr/monomial_to_basis_J.cc 44-80: for(e = m; e > n; e--), [k] iterations *)
Fixpoint mtb_loop (slv : solver) (D : dR) (k : nat) (w : vec) (G : list Z) : res (vec * list Z) :=
  match k with
  | O => OK (w, G)
  | S k =>
      v <- choose_dir (r_d D) w ;;
      w' <- vec_sub w v ;;
      M <- get_reduction_matrix_J slv D (r_q D) w' v ;;
      G' <- mat_vec (r_q D) M G ;;
      mtb_loop slv D k w' G'
  end.

(** a vector of length n with a single entry 1 (v.SetLength; set(v[i])) *)
Definition unit_at (n i : nat) : list Z := upd (repeat 0 n) i 1.

(** dr/monomial_to_basis_J.cc 11-112 *)
Definition monomial_to_basis_J (slv : solver) (D : dR) (u : vec) : res (list Z) :=
  let n := Z.of_nat (r_n D) in
  _ <- check (Nat.eqb (length u) (S (r_n D))) EAssert ;;
  _ <- check (forallb (fun x => 0 <? x) u) EAssert ;;
  let sum := zsum u in
  _ <- check (sum mod r_d D =? 0) EAssert ;;
  let m := sum / r_d D in
  if n <? m then
    w <- tweak u (degG D) ;;
    s <- vec_sub u w ;;
    listG <- get_at (r_tl D) (degG D) ;;
    dictG <- get_at (r_td D) (degG D) ;;
    j <- dget dictG s ;;
    _ <- check (Nat.ltb j (length listG)) EUB ;;
    wG <- mtb_loop slv D (Z.to_nat (m - n)) w (unit_at (length listG) j) ;;
    _ <- check (zsum (fst wG) =? n) EAssert ;;
    M <- get_inclusion_matrix_J D (fst wG) ;;
    G1 <- mat_vec (r_q D) M (snd wG) ;;
    M2 <- get_final_reduction_matrix_J slv D n ;;
    mat_vec (r_q D) M2 G1
  else
    list0 <- get_at (r_tl D) (sum - (n + 1)) ;;
    dict0 <- get_at (r_td D) (sum - (n + 1)) ;;
    j <- dget dict0 (map (fun x => x - 1) u) ;;
    _ <- check (Nat.ltb j (length list0)) EUB ;;
    M <- get_final_reduction_matrix_J slv D m ;;
    mat_vec (r_q D) M (unit_at (length list0) j).

(** dr/init.cc 49-58: the enumerations of all degrees 0..(n+1)d *)
Definition init_tuples (n : nat) (d : Z) : res (list (list vec)) :=
  mapM (fun i => tuple_list_generator i (Z.of_nat n + 1)) (zseq 0 ((Z.of_nat n + 1) * d + 1)).

(** dr/init.cc 85-94: basis elements of the level (i+1)d-(n+1) *)
Definition init_basis_level (slv : solver) (D : dR) (hil : list Z) (i : Z) : res (list vec) :=
  let l := (i + 1) * r_d D - (Z.of_nat (r_n D) + 1) in
  BU <- get_solve_J slv D l ;;
  h <- get_at hil l ;;
  _ <- check (h =? zlen (fst BU)) EAssert ;;
  tl <- get_at (r_tl D) l ;;
  mapM (fun b => get_at tl (Z.of_nat b)) (fst BU).

(** dr/init.cc 7-106.  An empty f dereferences f.begin(). *)
Definition init (slv : solver) (q p prec : Z) (f : poly) : res dR :=
  match f with
  | [] => Err EUB
  | (a0, _) :: _ =>
      let n := (length a0 - 1)%nat in
      let d := zsum a0 in
      _ <- check (Z.of_nat n <? d) EAssert ;;
      _ <- check (negb (p =? 0)) EUB ;;
      _ <- check (negb (Z.rem d p =? 0)) EAssert ;;
      tl <- init_tuples n d ;;
      let D0 := mk_dR p prec q n d f tl (map tuple_index tl) [] [] in
      top <- get_solve_J slv D0 (deg_top D0) ;;
      _ <- check (Nat.eqb (length (fst top)) 0) EAssert ;;
      bs <- mapM (init_basis_level slv D0 (hilbert_J n d)) (zseq 0 (Z.of_nat n)) ;;
      let basis := concat bs in
      OK (mk_dR p prec q n d f tl (map tuple_index tl) basis (tuple_index basis))
  end.
