(** Model of the memo tables of de_Rham_local and hypersurface, and of the
    programs that use them, including several threads sharing one object.

    A routine that uses the object is a [prog] (ProgModel.v).  [value] answers
    every request with the functions of DRModel.v (no tables), [serve] answers it
    as the C++ code does, from the tables and updating them. *)
From Coq Require Import ZArith List Bool.
From Verif Require Import Base VecModel ToolsModel MatModel DRModel FrobModel ProgModel.
Import ListNotations.
Open Scope Z_scope.

(** the mutable fields: dr.h solve_J, reduction_matrix_J_dict,
    reduction_matrix_J_ZZ_dict, inclusion_matrix_J_dict,
    final_reduction_matrix_J_dict; hypersurface.h fpow *)
Record cache := mk_cache {
  c_solve : list (Z * (list nat * mat));
  c_red : vmap (list mat);
  c_redZ : vmap (list mat);
  c_incl : vmap mat;
  c_final : list mat;
  c_fpow : list poly
}.

Definition set_solve c x := mk_cache x (c_red c) (c_redZ c) (c_incl c) (c_final c) (c_fpow c).
Definition set_red c x := mk_cache (c_solve c) x (c_redZ c) (c_incl c) (c_final c) (c_fpow c).
Definition set_redZ c x := mk_cache (c_solve c) (c_red c) x (c_incl c) (c_final c) (c_fpow c).
Definition set_incl c x := mk_cache (c_solve c) (c_red c) (c_redZ c) x (c_final c) (c_fpow c).
Definition set_final c x := mk_cache (c_solve c) (c_red c) (c_redZ c) (c_incl c) x (c_fpow c).
Definition set_fpow c x := mk_cache (c_solve c) (c_red c) (c_redZ c) (c_incl c) (c_final c) x.

(** dr/get_solve_J.cc 10-36 *)
Definition solve_c (slv : solver) (D : dR) (c : cache) (l : Z) : res ((list nat * mat) * cache) :=
  match mfind Z.ltb l (c_solve c) with
  | Some x => OK (x, c)
  | None => x <- get_solve_J slv D l ;; OK (x, set_solve c (minsert Z.ltb l x (c_solve c)))
  end.

(** dr/compute_reduction_matrix_J.cc 35-108: the matrices, given the solution of
    the top system *)
Definition red_from (D : dR) (v : vec) (BU : list nat * mat) : res (list mat) :=
  listG <- get_at (r_tl D) (degG D) ;;
  dictG <- get_at (r_td D) (degG D) ;;
  dictW <- get_at (r_td D) (degG D + r_d D - (Z.of_nat (r_n D) + 1)) ;;
  listF <- get_at (r_tl D) (degG D - Z.of_nat (r_n D)) ;;
  ups <- mapM (fun cg => red_column D v listF dictG dictW (snd BU) (fst cg) (snd cg))
           (combine (seq 0 (length listG)) listG) ;;
  let g := length listG in
  _ <- check (red_range (r_n D) g (concat ups)) EUB ;;
  OK (apply_ups (r_q D) (concat ups) (repeat (mzero g g) (S (S (r_n D))))).

(** dr/compute_reduction_matrix_J.cc 13-111 *)
Definition red_c (slv : solver) (D : dR) (c : cache) (v : vec) : res (list mat * cache) :=
  match vfind v (c_red c) with
  | Some x => OK (x, c)
  | None =>
      sc <- solve_c slv D c (deg_top D) ;;
      x <- red_from D v (fst sc) ;;
      OK (x, set_red (snd sc) (vinsert v x (c_red (snd sc))))
  end.

(** dr/compute_reduction_matrix_J_ZZ.cc 11-37; [sm] is save_memory *)
Definition redZ_c (sm : bool) (slv : solver) (D : dR) (c : cache) (v : vec) : res (list mat * cache) :=
  match vfind v (c_redZ c) with
  | Some x => OK (x, c)
  | None =>
      match vfind v (c_red c) with
      | None =>
          xc <- red_c slv D c v ;;
          let c1 := set_redZ (snd xc) (vinsert v (fst xc) (c_redZ (snd xc))) in
          OK (fst xc, if sm then set_red c1 (verase v (c_red c1)) else c1)
      | Some x => OK (x, set_redZ c (vinsert v x (c_redZ c)))
      end
  end.

(** dr/get_inclusion_matrix_J.cc 14-34 *)
Definition incl_c (D : dR) (c : cache) (u : vec) : res (mat * cache) :=
  _ <- check (sumf (fun i => nth i u 0) (seq 0 (S (r_n D))) =? Z.of_nat (r_n D)) EAssert ;;
  match vfind u (c_incl c) with
  | Some x => OK (x, c)
  | None => x <- get_inclusion_matrix_J D u ;; OK (x, set_incl c (vinsert u x (c_incl c)))
  end.

(** dr/compute_final_reduction_matrix_J.cc 11-107 for pole order k >= 2, given
    the matrix for k - 1 and the solution of the system of degree kd-(n+1) *)
Definition final_step (D : dR) (k : nat) (Mlow : mat) (BU : list nat * mat) : res mat :=
  let deg := Z.of_nat k * r_d D - (Z.of_nat (r_n D) + 1) in
  listG <- get_at (r_tl D) deg ;;
  listF <- get_at (r_tl D) (deg - (r_d D - 1)) ;;
  listH <- get_at (r_tl D) (deg - r_d D) ;;
  dictH <- get_at (r_td D) (deg - r_d D) ;;
  cols <- mapM (final_column D (Z.of_nat k) Mlow listG listF listH dictH (fst BU) (snd BU))
            (seq 0 (length listG)) ;;
  OK (transpose (length listG) (length (r_basis D)) cols).

(** dr/get_final_reduction_matrix_J.cc 17-25: the loop i = length+1..k; [k]
    counts the remaining iterations *)
Fixpoint final_loop (slv : solver) (D : dR) (k : nat) (c : cache) : res cache :=
  match k with
  | O => OK c
  | S k =>
      let i := S (length (c_final c)) in
      match i with
      | 1%nat =>
          listG <- get_at (r_tl D) (r_d D - (Z.of_nat (r_n D) + 1)) ;;
          final_loop slv D k (set_final c [final_one D listG])
      | _ =>
          sc <- solve_c slv D c (Z.of_nat i * r_d D - (Z.of_nat (r_n D) + 1)) ;;
          M <- final_step D i (last (c_final c) []) (fst sc) ;;
          final_loop slv D k (set_final (snd sc) (c_final (snd sc) ++ [M]))
      end
  end.

(** dr/get_final_reduction_matrix_J.cc 10-27 *)
Definition final_c (slv : solver) (D : dR) (c : cache) (k : Z) : res (mat * cache) :=
  _ <- check (k <=? Z.of_nat (r_n D)) EAssert ;;
  _ <- check (0 <? k) EAssert ;;
  c' <- final_loop slv D (Z.to_nat k - length (c_final c)) c ;;
  M <- get_at (c_final c') (k - 1) ;;
  OK (M, c').

(** hypersurface/compute_fpow.cc 11-57 *)
Definition fpow_c (D : dR) (c : cache) (power : Z) : res (list poly * cache) :=
  T <- compute_fpow (r_q D) (r_f D) power (c_fpow c) ;; OK (T, set_fpow c T).

(** ** Requests to the object *)
Inductive req :=
| QSolve (l : Z)
| QRed (zz : bool) (v : vec)      (* zz: the table of integer matrices *)
| QIncl (u : vec)
| QFinal (k : Z)
| QFpow (power : Z).

Definition ans (r : req) : Type :=
  match r with
  | QSolve _ => (list nat * mat)%type
  | QRed _ _ => list mat
  | QIncl _ => mat
  | QFinal _ => mat
  | QFpow _ => list poly
  end.

(** the answer of the C++ object *)
Definition serve (sm : bool) (slv : solver) (D : dR) (c : cache) (r : req) : res (ans r * cache) :=
  match r with
  | QSolve l => solve_c slv D c l
  | QRed false v => red_c slv D c v
  | QRed true v => redZ_c sm slv D c v
  | QIncl u => incl_c D c u
  | QFinal k => final_c slv D c k
  | QFpow power => fpow_c D c power
  end.

(** the value without tables; [T] is the table of powers the routine may assume *)
Definition value (slv : solver) (D : dR) (T : list poly) (r : req) : res (ans r) :=
  match r with
  | QSolve l => get_solve_J slv D l
  | QRed _ v => compute_reduction_matrix_J slv D v
  | QIncl u => get_inclusion_matrix_J D u
  | QFinal k => get_final_reduction_matrix_J slv D k
  | QFpow power => compute_fpow (r_q D) (r_f D) power T
  end.

(** programs using the object: ProgModel.v *)
Notation prog := (gprog req ans).

(** ** The routines of dr/ as programs (same bodies as in DRModel.v) *)
(** which table a ring modulus uses: the ZZ versions have r = 0 *)
Definition ring_zz (r : Z) : bool := r =? 0.

(** dr/get_reduction_matrix_J.cc 9-31, dr/get_reduction_matrix_J_ZZ.cc 10-30 *)
Definition get_reduction_matrix_p (D : dR) (r : Z) (u v : vec) : prog mat :=
  _ <~ lift (step_pre D u v) ;;
  Ms <~ ask (QRed (ring_zz r) v) ;;
  lift (foldM (fun R i => mat_add r R (mat_scal r (nth i u 0) (nth (S i) Ms [])))
    (seq 0 (S (r_n D))) (nth 0 Ms [])).

(** dr/reduce_vector_J.cc 7-29, dr/reduce_vector_J_ZZ.cc 8-29 *)
Definition reduce_vector_p (D : dR) (r : Z) (u v : vec) (G : list Z) : prog (list Z) :=
  _ <~ lift (step_pre D u v) ;;
  Ms <~ ask (QRed (ring_zz r) v) ;;
  lift (R0 <- mat_vec r (nth 0 Ms []) G ;;
    foldM (fun R i => t <- mat_vec r (nth (S i) Ms []) G ;; lvec_add r R (lvec_scal r (nth i u 0) t))
      (seq 0 (S (r_n D))) R0).

(** dr/reduce_vector_J_poly.cc 9-48, dr/reduce_vector_J_poly_ZZ.cc 10-47 *)
Definition reduce_vector_poly_p (D : dR) (r : Z) (u v : vec) (iterations : Z) (G : list Z) : prog (list Z) :=
  _ <~ lift (step_pre D u v) ;;
  Ms <~ ask (QRed (ring_zz r) v) ;;
  lift (M0 <- foldM (fun R i => mat_add r R (mat_scal r (nth i u 0) (nth (S i) Ms [])))
      (seq 0 (S (r_n D))) (nth 0 Ms []) ;;
    M1 <- foldM (fun R i => mat_add r R (mat_scal r (nth i v 0) (nth (S i) Ms [])))
      (seq 0 (S (r_n D))) (mzero (length G) (length G)) ;;
    if iterations <? 0 then Err EFuel
    else
      foldM (fun Gin x =>
          G0 <- mat_vec r M0 Gin ;;
          G1 <- mat_vec r M1 Gin ;;
          G' <- lvec_add r G0 (lvec_scal r x G1) ;;
          OK (lvec_red (r_q D) G'))
        (rev (zseq 0 iterations)) G).

(** dr/compute_everything_J.cc 9-26 *)
Definition compute_everything_p (D : dR) : prog unit :=
  tld <~ lift (get_at (r_tl D) (r_d D)) ;;
  _ <~ foldP (fun _ u => _ <~ ask (QRed false u) ;; _ <~ ask (QRed true u) ;; Ret tt) tld tt ;;
  tln <~ lift (get_at (r_tl D) (Z.of_nat (r_n D))) ;;
  _ <~ foldP (fun _ u => _ <~ ask (QIncl u) ;; Ret tt) tln tt ;;
  _ <~ ask (QFinal (Z.of_nat (r_n D))) ;;
  Ret tt.

(** ** The Frobenius routine as a program (same bodies as in FrobModel.v) *)
(** hypersurface/frob_J_ZZ.cc 169-202 *)
Definition frob_single_p (D : dR) (r : Z) (matrices : bool) (h v : vec)
    (st : vec * list Z) (i : Z) : prog (vec * list Z) :=
  a <~ lift (vec_sub (vscale (r_p D) h) (vscale i v)) ;;
  src <~ lift (tweak a (degG D)) ;;
  b <~ lift (vec_sub (vscale (r_p D) h) (vscale (i + 1) v)) ;;
  dest <~ lift (tweak b (degG D)) ;;
  y <~ lift (vec_sub src dest) ;;
  G <~ (if matrices
        then M <~ get_reduction_matrix_p D r dest y ;; lift (mat_vec r M (snd st))
        else reduce_vector_p D r dest y (snd st)) ;;
  Ret (dest, lvec_red (r_q D) G).

(** hypersurface/frob_J_ZZ.cc 126-204 *)
Definition frob_entry_p (D : dR) (r : Z) (loop : nat) (end_ : Z)
    (h : vec) (G : list Z) : prog (vec * vec * list Z) :=
  let g := degG D in
  v <~ lift (choose_dir (r_d D) h) ;;
  match loop with
  | O =>
      if g <? end_ then
        hv <~ lift (vec_sub h v) ;;
        a <~ lift (vec_add (vscale (r_p D) hv) (vscale (r_p D - end_) v)) ;;
        t <~ lift (tweak (vscale g v) g) ;;
        dest <~ lift (vec_add a t) ;;
        a' <~ lift (vec_add a (vscale g v)) ;;
        t' <~ lift (tweak a' g) ;;
        _ <~ lift (check (if list_eq_dec Z.eq_dec dest t' then true else false) EAssert) ;;
        G1 <~ reduce_vector_poly_p D r dest v (end_ - g) G ;;
        st <~ foldP (frob_single_p D r false h v) (zseq (end_ - g) end_) (dest, G1) ;;
        Ret (v, fst st, snd st)
      else
        st <~ foldP (frob_single_p D r false h v) (zseq 0 end_) ([], G) ;;
        Ret (v, fst st, snd st)
  | 1%nat =>
      st <~ foldP (frob_single_p D r false h v) (zseq 0 end_) ([], G) ;;
      Ret (v, fst st, snd st)
  | 2%nat =>
      st <~ foldP (frob_single_p D r true h v) (zseq 0 end_) ([], G) ;;
      Ret (v, fst st, snd st)
  | _ => Fail EAbort
  end.

(** hypersurface/frob_J_ZZ.cc 121-229 *)
Definition frob_pass_p (D : dR) (r : Z) (loop : nat) (e : Z)
    (H : vmap (list Z)) (Hlast : list Z) : prog (vmap (list Z) * list Z) :=
  let n := Z.of_nat (r_n D) in
  let p := r_p D in
  let q := r_q D in
  foldP (fun st uG =>
      let u := fst uG in
      vdG <~ frob_entry_p D r loop (if n / p + 1 <? e then p else p - n mod p) u (snd uG) ;;
      let v := fst (fst vdG) in
      let dest := snd (fst vdG) in
      let G := snd vdG in
      if (r =? 0) && all_zero q G then Ret st
      else if n / p + 1 <? e then
        y <~ lift (vec_sub u v) ;;
        match vfind y (fst st) with
        | None => Ret (vinsert y G (fst st), snd st)
        | Some G0 => S <~ lift (lvec_add q G0 G) ;; Ret (vinsert y S (fst st), snd st)
        end
      else
        M <~ ask (QIncl dest) ;;
        G1 <~ lift (mat_vec q M G) ;;
        L <~ lift (lvec_add q (snd st) G1) ;;
        Ret (fst st, L))
    H ([], Hlast).

(** hypersurface/frob_J_ZZ.cc 62-233 *)
Fixpoint frob_loop_p (D : dR) (r : Z) (loop : nat)
    (dj : Z -> res Z) (dictV : vmap nat) (ei : vec) (m : Z) (fpow : list poly) (k : nat)
    (st : vmap (list Z) * list Z * Z) : prog (vmap (list Z) * list Z * Z) :=
  match k with
  | O => Ret st
  | S k' =>
      let e := Z.of_nat (r_n D) / r_p D + Z.of_nat k in
      let '(H, Hlast, fact) := st in
      H1 <~ lift (if m <=? e
             then c <- dj (e - m) ;; P <- get_at fpow (e - m) ;; frob_add D dictV ei c fact P H
             else OK H) ;;
      HL <~ frob_pass_p D r loop e H1 Hlast ;;
      frob_loop_p D r loop dj dictV ei m fpow k'
        (fst HL, snd HL, frob_fact (r_q D) (r_p D) e fact)
  end.

(** hypersurface/frob_J_ZZ.cc 246-268 *)
Definition frob_low_terms_p (D : dR) (c : Z) (ei : vec) (P : poly) (e fact : Z)
    (F : list Z) : prog (list Z) :=
  dict <~ lift (get_at (r_td D) (r_d D * r_p D * e - (Z.of_nat (r_n D) + 1))) ;;
  ups <~ lift (mapM (fun t =>
      m0 <- vec_add (fst t) ei ;;
      m1 <- vec_add m0 (ones_vec (r_n D)) ;;
      mono <- vec_sub (vscale (r_p D) m1) (ones_vec (r_n D)) ;;
      j <- dget dict mono ;;
      OK (j, (c * snd t * fact) mod r_q D)) P) ;;
  _ <~ lift (check (forallb (fun u => Nat.ltb (fst u) (length dict)) ups) EUB) ;;
  let G0 := vadd_all (r_q D) ups (repeat 0 (length dict)) in
  M <~ ask (QFinal (r_p D * e)) ;;
  G1 <~ lift (mat_vec (r_q D) M G0) ;;
  lift (lvec_add (r_q D) F G1).

(** hypersurface/frob_J_ZZ.cc 238-281 *)
Fixpoint frob_low_prog (D : dR) (dj : Z -> res Z) (ei : vec) (m N : Z)
    (fpow : list poly) (e : nat) (st : list Z * Z) : prog (list Z * Z) :=
  match e with
  | O => Ret st
  | S e' =>
      let ez := Z.of_nat e in
      let '(F, fact) := st in
      _ <~ lift (check (fact =? factorial (r_q D) (r_p D * (m + N - 1) - 1) (r_p D * ez)) EAssert) ;;
      F1 <~ (if m <=? ez
             then c <~ lift (dj (ez - m)) ;; P <~ lift (get_at fpow (ez - m)) ;;
                  frob_low_terms_p D c ei P ez fact F
             else Ret F) ;;
      frob_low_prog D dj ei m N fpow e' (F1, frob_fact (r_q D) (r_p D) ez fact)
  end.

(** hypersurface/frob_J_ZZ.cc 58-237 *)
Definition frob_high_p (D : dR) (r : Z) (loop : nat) (dj : Z -> res Z)
    (ei : vec) (m N : Z) (fpow : list poly) : prog (list Z * Z) :=
  let n := Z.of_nat (r_n D) in
  dictV <~ lift (get_at (r_td D) (degG D)) ;;
  hl <~ lift (binomial (r_d D * n - 1) n) ;;
  _ <~ lift (check (0 <=? hl) EAbort) ;;
  st <~ frob_loop_p D r loop dj dictV ei m fpow (Z.to_nat (m + N - 1 - n / r_p D))
          ([], repeat 0 (Z.to_nat hl), 1 mod r_q D) ;;
  M <~ ask (QFinal n) ;;
  F <~ lift (mat_vec (r_q D) M (snd (fst st))) ;;
  Ret (F, snd st).

(** hypersurface/frob_J_ZZ.cc 11-305 *)
Definition frob_J_ZZ_prog (D : dR) (coordinate : nat) (N : Z) (loop : nat) : prog (list Z) :=
  ei <~ lift (get_at (r_basis D) (Z.of_nat coordinate)) ;;
  _ <~ lift (check (0 <? N) EAssert) ;;
  fpow <~ ask (QFpow (N - 1)) ;;
  let m := pole_order D ei in
  Ff <~ frob_high_p D 0 loop (djm djm_ZZ m N) ei m N fpow ;;
  Ff <~ frob_low_prog D (djm djm_64 m N) ei m N fpow (Z.to_nat (Z.of_nat (r_n D) / r_p D)) Ff ;;
  lift (frob_finish (r_q D) (r_p D) (Z.of_nat (r_n D)) (r_p D * (m + N - 1)) (fst Ff) (snd Ff)).

(** hypersurface/frob_matrix_J.cc 29-44: one iteration of the parallel loop *)
Definition frob_row_p (D : dR) (N : list Z) (i : nat) : prog (list Z) :=
  let m := pole_order D (nth i (r_basis D) []) in
  Nm <~ lift (get_at N (m - 1)) ;;
  if 0 <? Nm then frob_J_ZZ_prog D i Nm 0 else Ret (repeat 0 (length (r_basis D))).

(** hypersurface/frob_matrix_J.cc 20-23: what is done before the parallel loop
    if there is more than one thread *)
Definition frob_prepare (D : dR) (N : list Z) : prog unit :=
  _ <~ compute_everything_p D ;;
  mx <~ lift (vmax N) ;;
  _ <~ ask (QFpow (mx - 1)) ;;
  Ret tt.

(** dr/constructors.cc: all tables empty; the table of powers as given *)
Definition empty_cache (T : list poly) : cache := mk_cache [] [] [] [] [] T.

(** a sequence of calls, all successful (a failed assertion ends the program) *)
Fixpoint history (sm : bool) (slv : solver) (D : dR) (hist : list req) (c : cache) : res cache :=
  match hist with
  | [] => OK c
  | r :: hist => xc <- serve sm slv D c r ;; history sm slv D hist (snd xc)
  end.
