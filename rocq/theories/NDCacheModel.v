(** Model of the memo tables of de_Rham_non_degenerate_local, and of the routines
    of /repo/dr_nd and /repo/hypersurface_nd as programs (ProgModel.v) that use
    them.

    Every table entry is computed by a program over the requests it makes in turn:
    the base requests (tables of the Jacobian object, linear systems of the
    non-degenerate object), then the inclusion matrices, then the rest. *)
From Coq Require Import ZArith List Bool.
From Verif Require Import Base VecModel ToolsModel MatModel DRModel FrobModel FdModel ProgModel CacheModel
  NDModel FrobNDModel.
Import ListNotations.
Open Scope Z_scope.

(** the mutable fields: those of de_Rham_local and hypersurface (CacheModel.v);
    dr_nd.h 47 solve_ND, 57 inclusion_matrix_ND_dict, 65 coKernels_ND_to_basis_dict,
    72 reduction_matrix_ND_dict, 76 reduction_matrix_ND_ZZ_dict,
    82 reduction_matrix_ND_poly_dict, 86 reduction_matrix_ND_poly_ZZ_dict.  An
    inclusion matrix is stored as its list of columns, as in NDModel.v. *)
Record ncache := mk_ncache {
  nc_j : cache;
  nc_solve : list (Z * (list nat * mat));
  nc_incl : vmap (list (list (list Z)));
  nc_ckn : vmap mat;
  nc_red : vmap (vmap mat);
  nc_redZ : vmap (vmap mat);
  nc_poly : vmap (vmap mat);
  nc_polyZ : vmap (vmap mat)
}.

Definition nset_j c x := mk_ncache x (nc_solve c) (nc_incl c) (nc_ckn c) (nc_red c) (nc_redZ c) (nc_poly c) (nc_polyZ c).
Definition nset_solve c x := mk_ncache (nc_j c) x (nc_incl c) (nc_ckn c) (nc_red c) (nc_redZ c) (nc_poly c) (nc_polyZ c).
Definition nset_incl c x := mk_ncache (nc_j c) (nc_solve c) x (nc_ckn c) (nc_red c) (nc_redZ c) (nc_poly c) (nc_polyZ c).
Definition nset_ckn c x := mk_ncache (nc_j c) (nc_solve c) (nc_incl c) x (nc_red c) (nc_redZ c) (nc_poly c) (nc_polyZ c).
Definition nset_red c x := mk_ncache (nc_j c) (nc_solve c) (nc_incl c) (nc_ckn c) x (nc_redZ c) (nc_poly c) (nc_polyZ c).
Definition nset_redZ c x := mk_ncache (nc_j c) (nc_solve c) (nc_incl c) (nc_ckn c) (nc_red c) x (nc_poly c) (nc_polyZ c).
Definition nset_poly c x := mk_ncache (nc_j c) (nc_solve c) (nc_incl c) (nc_ckn c) (nc_red c) (nc_redZ c) x (nc_polyZ c).
Definition nset_polyZ c x := mk_ncache (nc_j c) (nc_solve c) (nc_incl c) (nc_ckn c) (nc_red c) (nc_redZ c) (nc_poly c) x.

(** ** Base requests *)
Inductive breq :=
| BJ (r : req)          (* a table of the Jacobian object or of hypersurface *)
| BSolve (l : Z).       (* get_solve_ND(l) *)
Definition bans (r : breq) : Type :=
  match r with BJ r => ans r | BSolve _ => (list nat * mat)%type end.

(** dr_nd.cc 358-382 *)
Definition nsolve_c (slv : solver) (N : dND) (c : ncache) (l : Z) : res ((list nat * mat) * ncache) :=
  match mfind Z.ltb l (nc_solve c) with
  | Some x => OK (x, c)
  | None => x <- get_solve_ND slv (nd_dr N) l ;; OK (x, nset_solve c (minsert Z.ltb l x (nc_solve c)))
  end.
Definition bserve (sm : bool) (slv : solver) (N : dND) (c : ncache) (r : breq) : res (bans r * ncache) :=
  match r with
  | BJ r => xc <- serve sm slv (nd_dr N) (nc_j c) r ;; OK (fst xc, nset_j c (snd xc))
  | BSolve l => nsolve_c slv N c l
  end.
Definition bvalue (slv : solver) (N : dND) (T : list poly) (r : breq) : res (bans r) :=
  match r with
  | BJ r => value slv (nd_dr N) T r
  | BSolve l => get_solve_ND slv (nd_dr N) l
  end.

(** ** Inclusion matrices *)
(** the assertions dr_nd.cc 1221-1227 and 1281-1288 (and 336-340) *)
Definition nd_positive (N : dND) (u : vec) : bool :=
  forallb (fun i => 0 <? nth i u 0) (seq 0 (S (r_n (nd_dr N)))).
Definition nd_pos_pre (N : dND) (u : vec) : res unit :=
  _ <- check (nd_positive N u) EAssert ;;
  check (sumf (fun i => nth i u 0) (seq 0 (S (r_n (nd_dr N)))) =? r_d (nd_dr N)) EAssert.

(** dr_nd.cc 1268-1273: one level, given the solution of the system of degree ld *)
Definition incl_level (N : dND) (u : vec) (l : Z) (BU : list nat * mat) : res (list (list Z)) :=
  let D := nd_dr N in
  let n1 := Z.of_nat (r_n D) + 1 in
  lo <- get_at (r_tl D) (l * r_d D) ;;
  hi <- get_at (r_tl D) ((l + 1) * r_d D - n1) ;;
  dict <- get_at (r_td D) ((l + 1) * r_d D - n1) ;;
  mapM (fun b =>
      m <- get_at lo (Z.of_nat b) ;;
      w <- vec_add m (map (fun x => x - 1) u) ;;
      j <- dget dict w ;;
      _ <- check (Nat.ltb j (length hi)) EUB ;;
      OK (unit_at (length hi) j)) (fst BU).
(** dr_nd.cc 1243-1275: all levels l < n *)
Definition incl_p (N : dND) (u : vec) : gprog breq bans (list (list (list Z))) :=
  mapP (fun l => BU <~ ask (BSolve (l * r_d (nd_dr N))) ;; lift (incl_level N u l BU))
    (zseq 0 (Z.of_nat (r_n (nd_dr N)))).
(** dr_nd.cc 1217-1240 up to the choice of the level, and 336-345: the entry for u,
    computed if it is absent *)
Definition nincl_c (sm : bool) (slv : solver) (N : dND) (c : ncache) (u : vec)
  : res (list (list (list Z)) * ncache) :=
  _ <- nd_pos_pre N u ;;
  match vfind u (nc_incl c) with
  | Some x => OK (x, c)
  | None =>
      xc <- srun (bserve sm slv N) c (incl_p N u) ;;
      OK (fst xc, nset_incl (snd xc) (vinsert u (fst xc) (nc_incl (snd xc))))
  end.

Inductive ireq := IB (r : breq) | IIncl (u : vec).
Definition ians (r : ireq) : Type :=
  match r with IB r => bans r | IIncl _ => list (list (list Z)) end.
Definition iserve (sm : bool) (slv : solver) (N : dND) (c : ncache) (r : ireq) : res (ians r * ncache) :=
  match r with IB r => bserve sm slv N c r | IIncl u => nincl_c sm slv N c u end.
Definition ivalue (slv : solver) (N : dND) (T : list poly) (r : ireq) : res (ians r) :=
  match r with
  | IB r => bvalue slv N T r
  | IIncl u => _ <- nd_pos_pre N u ;; mapM (get_inclusion_matrix_ND slv N u) (zseq 0 (Z.of_nat (r_n (nd_dr N))))
  end.

(** dr_nd.cc 1217-1240 *)
Definition get_inclusion_ND_p (N : dND) (u : vec) (l : Z) : gprog ireq ians (list (list Z)) :=
  _ <~ lift (check (l <? Z.of_nat (r_n (nd_dr N))) EAssert) ;;
  L <~ ask (IIncl u) ;;
  lift (get_at L l).

(** ** Matrices to the basis of the cohomology *)
(** dr_nd.cc 1361-1396 (as [ckn_column]) *)
Definition ckn_column_p (N : dND) (u : vec) (topJ : list nat * mat)
    (lo listH : list vec) (dictT dictH : vmap nat) (m : vec) : gprog ireq ians (list Z) :=
  let D := nd_dr N in
  let q := r_q D in
  let zn := Z.of_nat (r_n D) in
  H <~ lift (
    tt <- tweak m zn ;;
    a <- vec_sub m tt ;;
    tu <- vec_add tt u ;;
    w <- vec_sub tu (repeat 1 (S (r_n D))) ;;
    cw <- dget dictT w ;;
    let F := map (fun row => nth cw row 0) (snd topJ) in
    let dimF := length lo in
    _ <- check (Nat.leb (S (r_n D) * dimF) (length F)) EUB ;;
    us <- mapM (fun ik =>
        let i := fst ik in let s := nth (snd ik) lo [] in
        let e := nth i a 0 + nth i s 0 in
        if 0 <? e then
          as_ <- vec_add a s ;;
          row <- dget dictH (upd as_ i (nth i as_ 0 - 1)) ;;
          OK [(row, (e * nth (i * dimF + snd ik) F 0) mod q)]
        else OK [])
      (list_prod (seq 0 (S (r_n D))) (seq 0 dimF)) ;;
    _ <- check (forallb (fun u => Nat.ltb (fst u) (length listH)) (concat us)) EUB ;;
    OK (vadd_all q (concat us) (repeat 0 (length listH)))) ;;
  M <~ ask (IB (BJ (QFinal zn))) ;;
  lift (mat_vec q M H).
(** dr_nd.cc 1303-1398 *)
Definition ckn_p (N : dND) (u : vec) : gprog ireq ians mat :=
  let D := nd_dr N in
  let q := r_q D in
  let zn := Z.of_nat (r_n D) in
  low <~ mapP (fun l =>
      M <~ ask (IB (BJ (QFinal (l + 1)))) ;;
      incl <~ get_inclusion_ND_p N u l ;;
      lift (mapM (mat_vec q M) incl)) (zseq 0 zn) ;;
  topJ <~ ask (IB (BJ (QSolve (deg_top D)))) ;;
  BU <~ ask (IB (BSolve (r_d D * zn))) ;;
  lo <~ lift (get_at (r_tl D) (r_d D * zn - 2 * zn)) ;;
  listT <~ lift (get_at (r_tl D) (r_d D * zn)) ;;
  listH <~ lift (get_at (r_tl D) (r_d D * zn - (zn + 1))) ;;
  dictT <~ lift (get_at (r_td D) (deg_top D)) ;;
  dictH <~ lift (get_at (r_td D) (r_d D * zn - (zn + 1))) ;;
  high <~ mapP (fun b =>
      m <~ lift (get_at listT (Z.of_nat b)) ;;
      ckn_column_p N u topJ lo listH dictT dictH m) (fst BU) ;;
  let cols := concat low ++ high in
  _ <~ lift (check (Nat.leb (length cols) (length (nd_basis N))) EUB) ;;
  Ret (transpose (length (nd_basis N)) (length (r_basis D)) cols).
(** dr_nd.cc 1277-1300 *)
Definition nckn_c (sm : bool) (slv : solver) (N : dND) (c : ncache) (u : vec) : res (mat * ncache) :=
  _ <- nd_pos_pre N u ;;
  match vfind u (nc_ckn c) with
  | Some x => OK (x, c)
  | None =>
      xc <- srun (iserve sm slv N) c (ckn_p N u) ;;
      OK (fst xc, nset_ckn (snd xc) (vinsert u (fst xc) (nc_ckn (snd xc))))
  end.

(** ** Reduction matrices *)
(** dr_nd.cc 896-1071, given the solutions of the systems *)
Definition nd_red_from (N : dND) (v : vec) (solves : list (list nat * mat)) (top : list nat * mat)
  : res (vmap mat) :=
  let D := nd_dr N in
  let dp := length (nd_basis N) in
  cols <- mapM (fun cb =>
      us <- nd_column N solves top v (snd cb) ;;
      OK (map (fun u => (fst u, (fst (snd u), fst cb, snd (snd u)))) us))
    (combine (seq 0 dp) (nd_basis N)) ;;
  _ <- check (forallb (fun u => Nat.ltb (fst (fst (snd u))) dp) (concat cols)) EUB ;;
  OK (filter (fun kM => negb (mat_is_zero (snd kM))) (fold_left (radd (r_q D) dp) (concat cols) [])).
(** dr_nd.cc 863-1072 after the lookup *)
Definition nd_red_p (N : dND) (v : vec) : gprog breq bans (vmap mat) :=
  let D := nd_dr N in
  _ <~ lift (check (zsum v =? r_d D) EAssert) ;;
  solves <~ mapP (fun i => ask (BSolve ((i + 1) * r_d D)) : gprog breq bans (list nat * mat)) (zseq 0 (Z.of_nat (r_n D))) ;;
  top <~ ask (BSolve (top_ND D)) ;;
  lift (nd_red_from N v solves top).
Definition nred_c (sm : bool) (slv : solver) (N : dND) (c : ncache) (v : vec) : res (vmap mat * ncache) :=
  match vfind v (nc_red c) with
  | Some x => OK (x, c)
  | None =>
      xc <- srun (bserve sm slv N) c (nd_red_p N v) ;;
      OK (fst xc, nset_red (snd xc) (vinsert v (fst xc) (nc_red (snd xc))))
  end.

(** dr_nd.cc 1085-1088, 1118-1122: compute the matrices if they are absent, and
    1093-1094, 1173-1174: erase them again if they were absent and save_memory is
    set.  [f] is what is computed from them, [put] stores it. *)
Definition with_red (sm : bool) (slv : solver) (N : dND) (c : ncache) (v : vec)
    (f : vmap mat -> res (vmap mat)) (put : ncache -> vmap mat -> ncache) : res (vmap mat * ncache) :=
  let exist := match vfind v (nc_red c) with Some _ => true | None => false end in
  Rc <- nred_c sm slv N c v ;;
  x <- f (fst Rc) ;;
  let c1 := put (snd Rc) x in
  OK (x, if negb exist && sm then nset_red c1 (verase v (nc_red c1)) else c1).

(** dr_nd.cc 1074-1100 *)
Definition nredZ_c (sm : bool) (slv : solver) (N : dND) (c : ncache) (v : vec) : res (vmap mat * ncache) :=
  match vfind v (nc_redZ c) with
  | Some x => OK (x, c)
  | None => with_red sm slv N c v (fun R => OK R) (fun c x => nset_redZ c (vinsert v x (nc_redZ c)))
  end.

(** dr_nd.cc 1124-1172 *)
Definition nd_poly_from (N : dND) (v : vec) (R : vmap mat) : res (vmap mat) :=
  let D := nd_dr N in
  let dp := length (nd_basis N) in
  P <- foldM (fun P kM =>
      ex <- change_of_variables_monomial (fst kM) v ;;
      foldM (poly_put (r_q D) (r_n D) dp
               (sumf (fun i => nth i (fst kM) 0) (seq 0 (S (r_n D))) =? Z.of_nat (r_n D) + 1) (snd kM)) ex P)
    R [] ;;
  OK (filter (fun kM => negb (mat_is_zero (snd kM))) P).
(** dr_nd.cc 1106-1178 *)
Definition npoly_c (sm : bool) (slv : solver) (N : dND) (c : ncache) (v : vec) : res (vmap mat * ncache) :=
  match vfind v (nc_poly c) with
  | Some x => OK (x, c)
  | None => with_red sm slv N c v (nd_poly_from N v) (fun c x => nset_poly c (vinsert v x (nc_poly c)))
  end.

(** dr_nd.cc 1180-1212.  If there are no matrices no entry is created and the
    result is end(); this is an error here although a caller that ignores the
    result would not notice. *)
Definition npolyZ_c (sm : bool) (slv : solver) (N : dND) (c : ncache) (v : vec) : res (vmap mat * ncache) :=
  match vfind v (nc_polyZ c) with
  | Some x => OK (x, c)
  | None =>
      let exist := match vfind v (nc_poly c) with Some _ => true | None => false end in
      Pc <- npoly_c sm slv N c v ;;
      _ <- check (negb (Nat.eqb (length (fst Pc)) 0)) EUB ;;
      let c1 := nset_polyZ (snd Pc) (vinsert v (fst Pc) (nc_polyZ (snd Pc))) in
      OK (fst Pc, if negb exist && sm then nset_poly c1 (verase v (nc_poly c1)) else c1)
  end.

(** ** Requests to the object *)
Inductive nreq :=
| NI (r : ireq)
| NRed (zz : bool) (v : vec)
| NPoly (zz : bool) (v : vec)
| NCkn (u : vec).
Definition nans (r : nreq) : Type :=
  match r with NI r => ians r | NRed _ _ => vmap mat | NPoly _ _ => vmap mat | NCkn _ => mat end.
Definition nserve (sm : bool) (slv : solver) (N : dND) (c : ncache) (r : nreq) : res (nans r * ncache) :=
  match r with
  | NI r => iserve sm slv N c r
  | NRed false v => nred_c sm slv N c v
  | NRed true v => nredZ_c sm slv N c v
  | NPoly false v => npoly_c sm slv N c v
  | NPoly true v => npolyZ_c sm slv N c v
  | NCkn u => nckn_c sm slv N c u
  end.
Definition nvalue (slv : solver) (N : dND) (T : list poly) (r : nreq) : res (nans r) :=
  match r with
  | NI r => ivalue slv N T r
  | NRed _ v => compute_reduction_matrix_ND slv N v
  | NPoly false v => compute_reduction_matrix_ND_poly slv N v
  | NPoly true v => compute_reduction_matrix_ND_poly_ZZ slv N v
  | NCkn u => get_coKernels_ND_to_basis slv N u
  end.
Notation nprog := (gprog nreq nans).
Definition NFpow (power : Z) : nreq := NI (IB (BJ (QFpow power))).

(** ** The routines as programs (same bodies as in NDModel.v and FrobNDModel.v) *)
(** dr_nd.cc 384-418, 420-453 *)
Definition get_reduction_matrix_ND_p (N : dND) (r : Z) (u v : vec) : nprog mat :=
  let D := nd_dr N in
  let dp := length (nd_basis N) in
  _ <~ lift (nd_pre D u v) ;;
  R <~ ask (NRed (ring_zz r) v) ;;
  lift (foldM (fun A kM => mat_add r A (mat_scal r (mono_ev (r_n D) u (fst kM) mod r_q D) (snd kM)))
    R (mzero dp dp)).

(** dr_nd.cc 455-488 *)
Definition reduce_vector_ND_p (N : dND) (u v : vec) (G : list Z) : nprog (list Z) :=
  let D := nd_dr N in
  let q := r_q D in
  _ <~ lift (nd_pre D u v) ;;
  R <~ ask (NRed false v) ;;
  lift (foldM (fun A kM =>
      t <- mat_vec q (snd kM) (lvec_scal q (mono_ev (r_n D) u (fst kM) mod q) G) ;;
      lvec_add q A t)
    R (repeat 0 (length (nd_basis N)))).

(** dr_nd.cc 490-522 *)
Definition reduce_vector_ND_ZZ_p (N : dND) (u v : vec) (G : list Z) : nprog (list Z) :=
  let D := nd_dr N in
  _ <~ lift (nd_pre D u v) ;;
  R <~ ask (NRed true v) ;;
  lift (match R with
  | [] => Err EUB
  | kM :: R =>
      A0 <- mat_vec 0 (snd kM) (lvec_scal 0 (mono_ev (r_n D) u (fst kM)) G) ;;
      foldM (fun A kM =>
          t <- mat_vec 0 (snd kM) (lvec_scal 0 (mono_ev (r_n D) u (fst kM)) G) ;;
          lvec_add 0 A t)
        R A0
  end).

(** dr_nd.cc 554-568, 627-653, 714-743 *)
Definition get_ND_poly_p (N : dND) (r : Z) (u v : vec) : nprog (list mat) :=
  let D := nd_dr N in
  let n := r_n D in
  let dp := length (nd_basis N) in
  P <~ ask (NPoly (ring_zz r) v) ;;
  lift (
    Ps <- foldM (fun (Ps : list mat) (kM : vec * mat) =>
      let i := nth (S n) (fst kM) 0 in
      Pi <- get_at Ps i ;;
      let sum := i + sumf (fun j => nth j (fst kM) 0) (seq 0 (S n)) in
      let c := if r =? 0 then mono_ev n u (fst kM) else mono_ev n u (fst kM) mod r_q D in
      Pi' <- (if sum =? Z.of_nat n + 1 then row0_add r Pi c (snd kM)
              else mat_add r Pi (mat_scal r c (snd kM))) ;;
      OK (upd Ps (Z.to_nat i) Pi'))
    P (repeat (mzero dp dp) (S (S n))) ;;
    OK (map (map (lvec_red (r_q D))) Ps)).

(** dr_nd.cc 524-595, 600-686 *)
Definition reduce_vector_ND_poly_p (N : dND) (r : Z) (u v : vec) (iterations : Z) (G : list Z) : nprog (list Z) :=
  let D := nd_dr N in
  _ <~ lift (nd_pre D u v) ;;
  Ps <~ get_ND_poly_p N r u v ;;
  lift (if iterations <? 0 then Err EFuel
        else foldM (nd_poly_step (r_q D) r (r_n D) Ps) (rev (zseq 0 iterations)) G).

(** dr_nd.cc 688-744 *)
Definition get_ND_poly_flint_p (N : dND) (u v : vec) : nprog (list mat) :=
  _ <~ lift (nd_pre (nd_dr N) u v) ;; get_ND_poly_p N 0 u v.

(** dr_nd.cc 1467-1492 *)
Fixpoint mtb_ND_loop_p (N : dND) (k : nat) (u : vec) (G : list Z) : nprog (vec * list Z) :=
  match k with
  | O => Ret (u, G)
  | S k =>
      v <~ lift (nd_dir (r_d (nd_dr N)) u) ;;
      u' <~ lift (vec_sub u v) ;;
      G' <~ reduce_vector_ND_p N u' v G ;;
      mtb_ND_loop_p N k u' G'
  end.
(** dr_nd.cc 1443-1500 *)
Definition monomial_to_basis_ND_p (N : dND) (u : vec) : nprog (list Z) :=
  let D := nd_dr N in
  _ <~ lift (check (Nat.eqb (length u) (S (r_n D))) EUB) ;;
  _ <~ lift (check (forallb (fun x => 0 <? x) u) EAssert) ;;
  _ <~ lift (check (Z.rem (zsum u) (r_d D) =? 0) EAssert) ;;
  let m := Z.quot (zsum u) (r_d D) in
  _ <~ lift (check (Nat.ltb 0 (length (nd_basis N))) EUB) ;;
  uG <~ mtb_ND_loop_p N (Z.to_nat (m - 1)) u (unit_at (length (nd_basis N)) 0) ;;
  _ <~ lift (check (zsum (fst uG) =? r_d D) EAssert) ;;
  M <~ ask (NCkn (fst uG)) ;;
  lift (mat_vec (r_q D) M (snd uG)).

(** dr_nd.cc 318-356; the argument J is false in its only use with several
    threads (hypersurface_nd.cc 786); with J compute_everything_J runs first *)
Definition compute_everything_ND_p (N : dND) (zz : bool) : nprog unit :=
  tld <~ lift (get_at (r_tl (nd_dr N)) (r_d (nd_dr N))) ;;
  foldP (fun _ u =>
      _ <~ ask (NRed false u) ;;
      _ <~ (if zz then _ <~ ask (NRed true u) ;; Ret tt else Ret tt) ;;
      _ <~ ask (NPoly false u) ;;
      _ <~ ask (NPoly true u) ;;
      if nd_positive N u then _ <~ ask (NI (IIncl u)) ;; _ <~ ask (NCkn u) ;; Ret tt
      else Ret tt) tld tt.

(** ** The Frobenius routines *)
(** hypersurface_nd.cc 207-213 and 216-221, 401-406 *)
Definition fnd_steps_p (N : dND) (step : vec -> list Z -> nprog (list Z)) (v : vec) (end_ : Z)
    (h : vec) (G : list Z) : nprog (vec * list Z) :=
  foldP (fun (st : vec * list Z) (_ : Z) =>
      dest <~ lift (vec_sub (fst st) v) ;;
      G' <~ step dest (snd st) ;;
      Ret (dest, G')) (zseq 0 end_) (vscale (r_p (nd_dr N)) h, G).

(** hypersurface_nd.cc 196-224, 390-408, 706-716 *)
Definition fnd_reduce_p (N : dND) (k : fnd_kind) (end_ : Z) (v h : vec) (G : list Z)
  : nprog (vec * list Z) :=
  let D := nd_dr N in
  let q := r_q D in
  match k with
  | KZZ O =>
      dest <~ lift (vec_sub (vscale (r_p D) h) (vscale end_ v)) ;;
      G' <~ reduce_vector_ND_poly_p N 0 dest v end_ G ;;
      Ret (dest, G')
  | KZZ 1 => fnd_steps_p N (fun dest G => G' <~ reduce_vector_ND_ZZ_p N dest v G ;; Ret (lvec_red q G')) v end_ h G
  | KZZ 2 => fnd_steps_p N (fun dest G => M <~ get_reduction_matrix_ND_p N 0 dest v ;; lift (mat_vec 0 M G)) v end_ h G
  | KZZ _ => Ret (vscale (r_p D) h, G)
  | KZZp O =>
      dest <~ lift (vec_sub (vscale (r_p D) h) (vscale end_ v)) ;;
      G' <~ reduce_vector_ND_poly_p N q dest v end_ G ;;
      Ret (dest, G')
  | KZZp 1 => fnd_steps_p N (fun dest G => M <~ get_reduction_matrix_ND_p N q dest v ;; lift (mat_vec q M G)) v end_ h G
  | KZZp _ => Ret (vscale (r_p D) h, G)
  | KFlint =>
      dest <~ lift (vec_sub (vscale (r_p D) h) (vscale end_ v)) ;;
      Ps <~ get_ND_poly_flint_p N dest v ;;
      G' <~ lift (reduce_vector_ND_poly_flint (r_n D) q Ps end_ G) ;;
      Ret (dest, G')
  end.

(** hypersurface_nd.cc 225-242, 409-426, 631-647, 721-737: what is done with the
    reduced entry (v, dest, G) of h *)
Definition fnd_collect_p (N : dND) (k : fnd_kind) (e : Z) (st : vmap (list Z) * list Z)
    (h v dest : vec) (G0 : list Z) : nprog (vmap (list Z) * list Z) :=
  let D := nd_dr N in
  let q := r_q D in
  let G := lvec_red q G0 in
  if all_zero q G then Ret st
  else if 1 <? e then
    y <~ lift (vec_sub h v) ;;
    _ <~ lift (check (veqb (vscale (r_p D) y) dest) EAssert) ;;
    match vfind y (fst st) with
    | None => Ret (vinsert y G (fst st), snd st)
    | Some G0 => S <~ lift (lvec_add q G0 G) ;; Ret (vinsert y S (fst st), snd st)
    end
  else
    _ <~ lift (check (match k with KFlint => true | _ => veqb dest h end) EAssert) ;;
    M <~ ask (NCkn h) ;;
    G1 <~ lift (mat_vec q M G) ;;
    F' <~ lift (lvec_add q (snd st) G1) ;;
    Ret (fst st, F').

(** hypersurface_nd.cc 163-245, 358-429, 660-746 *)
Definition fnd_pass_p (N : dND) (k : fnd_kind) (ei : vec) (m e : Z)
    (H : vmap (list Z)) (F : list Z) : nprog (vmap (list Z) * list Z) :=
  let end_ := if 1 <? e then r_p (nd_dr N) else r_p (nd_dr N) - 1 in
  foldP (fun (st : vmap (list Z) * list Z) (hG : vec * list Z) =>
      v <~ lift (fnd_dir N k ei m e (fst hG)) ;;
      dG <~ fnd_reduce_p N k end_ v (fst hG) (snd hG) ;;
      fnd_collect_p N k e st (fst hG) v (fst dG) (snd dG))
    H ([], F).

(** hypersurface_nd.cc 563-656, the branch of frob_ND_flint for several threads:
    first all polynomials (572-616), then the reductions on separate slices
    (618-620; [slices_run] below), then all entries are collected (625-648). *)
Definition fnd_slice : Type := vec * vec * vec * list mat * list Z.
Definition fnd_slice_p (N : dND) (ei : vec) (m e : Z) (end_ : Z) (hG : vec * list Z) : nprog fnd_slice :=
  v <~ lift (fnd_dir N KFlint ei m e (fst hG)) ;;
  dest <~ lift (vec_sub (vscale (r_p (nd_dr N)) (fst hG)) (vscale end_ v)) ;;
  Ps <~ get_ND_poly_flint_p N dest v ;;
  Ret (fst hG, v, dest, Ps, snd hG).
Definition slice_reduce (N : dND) (end_ : Z) (s : fnd_slice) : res (list Z) :=
  let '(_, _, _, Ps, G) := s in reduce_vector_ND_poly_flint (r_n (nd_dr N)) (r_q (nd_dr N)) Ps end_ G.
Definition fnd_pass_mt_p (N : dND) (ei : vec) (m e : Z)
    (H : vmap (list Z)) (F : list Z) : nprog (vmap (list Z) * list Z) :=
  let end_ := if 1 <? e then r_p (nd_dr N) else r_p (nd_dr N) - 1 in
  ss <~ mapP (fnd_slice_p N ei m e end_) H ;;
  Gs <~ lift (mapM (slice_reduce N end_) ss) ;;
  foldP (fun st sG =>
      let '(h, v, dest, _, _) := fst sG in fnd_collect_p N KFlint e st h v dest (snd sG))
    (combine ss Gs) ([], F).

(** hypersurface_nd.cc 618-620: the iterations of the parallel loop; each reads
    and writes its own slice.  A schedule lists which iteration runs next. *)
Fixpoint slices_run (N : dND) (end_ : Z) (ss : list fnd_slice) (sched : list nat)
    (st : list (option (list Z))) : res (list (option (list Z))) :=
  match sched with
  | [] => OK st
  | i :: sched =>
      match nth_error ss i, nth_error st i with
      | Some s, Some None => G <- slice_reduce N end_ s ;; slices_run N end_ ss sched (upd st i (Some G))
      | _, _ => slices_run N end_ ss sched st
      end
  end.

(** hypersurface_nd.cc 114-246, 311-430, 503-749; [mt]: several threads, which
    only changes frob_ND_flint *)
Fixpoint fnd_loop_p (N : dND) (mt : bool) (k : fnd_kind) (dj : Z -> res Z) (ei : vec) (m : Z)
    (fpow : list poly) (e : nat) (st : vmap (list Z) * list Z * Z)
  : nprog (vmap (list Z) * list Z * Z) :=
  match e with
  | O => Ret st
  | S e' =>
      let ez := Z.of_nat e in
      let '(H, F, fact) := st in
      H1 <~ lift (if m <=? ez
             then c <- dj (ez - m) ;; P <- get_at fpow (ez - m) ;;
                  fnd_add N (match k with KFlint => true | _ => false end) ei c fact P H
             else OK H) ;;
      HF <~ match k, mt with
            | KFlint, true => fnd_pass_mt_p N ei m ez H1 F
            | _, _ => fnd_pass_p N k ei m ez H1 F
            end ;;
      fnd_loop_p N mt k dj ei m fpow e'
        (fst HF, snd HF, frob_fact (r_q (nd_dr N)) (r_p (nd_dr N)) ez fact)
  end.

(** hypersurface_nd.cc 62-269, 271-454, 456-777 *)
Definition frob_ND_kind_p (N : dND) (mt : bool) (k : fnd_kind) (coordinate : nat) (prec : Z) : nprog (list Z) :=
  let D := nd_dr N in
  ei <~ lift (get_at (r_basis D) (Z.of_nat coordinate)) ;;
  _ <~ lift (check (0 <? prec) EAssert) ;;
  fpow <~ ask (NFpow (prec - 1)) ;;
  let m := pole_order D ei in
  st <~ fnd_loop_p N mt k (fnd_dj k m prec) ei m fpow (Z.to_nat (m + prec - 1))
          ([], repeat 0 (length (r_basis D)), 1 mod r_q D) ;;
  lift (fnd_finish k (r_q D) (r_p D) (Z.of_nat (r_n D)) (r_p D * (m + prec - 1)) (snd (fst st))).

(** hypersurface_nd.cc 793-823: one iteration of the parallel loop.
    omp_get_max_threads() is the same inside the parallel region, so frob_ND_flint
    takes its branch for several threads there. *)
Definition frob_row_ND_p (N : dND) (mt : bool) (prec : list Z) (i : nat) : nprog (list Z) :=
  let D := nd_dr N in
  let m := pole_order D (nth i (r_basis D) []) in
  Nm <~ lift (get_at prec (m - 1)) ;;
  if 0 <? Nm then frob_ND_kind_p N mt KFlint i Nm else Ret (repeat 0 (length (r_basis D))).

(** hypersurface_nd.cc 784-788 *)
Definition frob_prepare_ND (N : dND) (prec : list Z) : nprog unit :=
  _ <~ compute_everything_ND_p N false ;;
  mx <~ lift (vmax prec) ;;
  _ <~ ask (NFpow (mx - 1)) ;;
  Ret tt.

(** dr_nd.cc 194-243: the tables after construction contain the systems solved by
    the constructor; here all tables may start empty or not, see [ncache_ok] *)
Definition empty_ncache (T : list poly) : ncache := mk_ncache (empty_cache T) [] [] [] [] [] [] [].

(** a sequence of calls, all successful *)
Fixpoint nhistory (sm : bool) (slv : solver) (N : dND) (hist : list nreq) (c : ncache) : res ncache :=
  match hist with
  | [] => OK c
  | r :: hist => xc <- nserve sm slv N c r ;; nhistory sm slv N hist (snd xc)
  end.
