(** Model of /repo/hypersurface.h and /repo/hypersurface/*.cc: the powers of f,
    and the p-adic approximation of Frobenius on the basis of cohomology. *)
From Coq Require Import ZArith List Bool.
From Verif Require Import Base VecModel ToolsModel MatModel DRModel.
Import ListNotations.
Open Scope Z_scope.

(** hypersurface/constructors.cc 13-20: fpow[0] = { 0 -> 1 } *)
Definition fpow_init (q : Z) (n : nat) : list poly := [[(repeat 0 (S n), 1 mod q)]].

(** hypersurface/compute_fpow.cc 21-53: for(k = length; k <= power; k++), [k]
    counts the remaining iterations; the next power is fpow[k-1] * f *)
Fixpoint fpow_loop (q : Z) (f : poly) (k : nat) (fpow : list poly) : list poly :=
  match k with
  | O => fpow
  | S k => fpow_loop q f k (fpow ++ [pmul q (last fpow []) f])
  end.

(** hypersurface/compute_fpow.cc 11-57.  An empty table reads fpow[-1]. *)
Definition compute_fpow (q : Z) (f : poly) (power : Z) (fpow : list poly) : res (list poly) :=
  if zlen fpow <=? power then
    match fpow with
    | [] => Err EUB
    | _ =>
        let fpow' := fpow_loop q f (Z.to_nat (power + 1 - zlen fpow)) fpow in
        _ <- check (zlen fpow' =? power + 1) EAssert ;;
        OK fpow'
    end
  else OK fpow.

(** hypersurface/frob_J_ZZ.cc 78: binomial_ZZ(m+i-1, m-1) * binomial(i, j) *)
Definition djm_ZZ (m i j : Z) : res Z :=
  a <- binomial_ZZ (m + i - 1) (m - 1) ;;
  b <- binomial i j ;;
  OK (a * b).

(** hypersurface/frob_J_ZZ.cc 255, frob_J_ZZ_p.cc 68, 230: the product of two
    int64_t binomials; overflow is undefined behaviour *)
Definition djm_64 (m i j : Z) : res Z :=
  a <- binomial (m + i - 1) (m - 1) ;;
  b <- binomial i j ;;
  _ <- check (Z.abs (a * b) <? 2 ^ 63) EUB ;;
  OK (a * b).

(** hypersurface/frob_J_ZZ.cc 74-83, 252-260 (accumulated in a ZZ) *)
Definition djm (term : Z -> Z -> Z -> res Z) (m N j : Z) : res Z :=
  foldM (fun acc i =>
      t <- term m i j ;; OK (if j mod 2 =? 0 then acc + t else acc - t))
    (zseq j N) 0.

(** hypersurface/frob_J_ZZ_p.cc 64-73, 227-235 (accumulated in an int64_t) *)
Definition djm_acc64 (m N j : Z) : res Z :=
  foldM (fun acc i =>
      t <- djm_64 m i j ;;
      let acc' := if j mod 2 =? 0 then acc + t else acc - t in
      _ <- check (Z.abs acc' <? 2 ^ 63) EUB ;;
      OK acc')
    (zseq j N) 0.

Definition ones_vec (n : nat) : vec := repeat 1 (S n).

(** hypersurface/frob_J_ZZ.cc 84-100, frob_J_ZZ_p.cc 74-90: add the terms of
    fpow[j] to H; H[monomial] creates a missing entry and SetLength makes it a
    zero vector *)
Definition frob_add (D : dR) (dictV : vmap nat) (ei : vec) (Djm fact : Z)
    (P : poly) (H : vmap (list Z)) : res (vmap (list Z)) :=
  foldM (fun H t =>
      m0 <- vec_add (fst t) ei ;;
      mono <- vec_add m0 (ones_vec (r_n D)) ;;
      let pm := vscale (r_p D) mono in
      w <- tweak pm (degG D) ;;
      s <- vec_sub pm w ;;
      j <- dget dictV s ;;
      let G := match vfind mono H with Some G => G | None => repeat 0 (length dictV) end in
      _ <- check (Nat.ltb j (length G)) EUB ;;
      OK (vinsert mono (vadd_all (r_q D) [(j, (Djm * snd t * fact) mod r_q D)] G) H))
    P H.

(** hypersurface/frob_J_ZZ.cc 110-113, 277-280; frob_J_ZZ_p.cc 100-103, 251-254 *)
Definition frob_fact (q p e fact : Z) : Z :=
  fold_left (fun a i => (a * (p * e - i - 1)) mod q)
    (zseq 0 (if 1 <? e then p else p - 1)) fact.

(** hypersurface/frob_J_ZZ.cc 169-177, 182-190 (modes 0, 1), 193-202 (mode 2), and
    frob_J_ZZ_p.cc 160-166, 169-175, 178-185: one step from
    tweak(p h - i v) to tweak(p h - (i+1) v).  The ZZ version (r = 0) takes
    remainders by the modulus; for r = q that changes nothing. *)
Definition frob_single (slv : solver) (D : dR) (r : Z) (matrices : bool) (h v : vec)
    (st : vec * list Z) (i : Z) : res (vec * list Z) :=
  a <- vec_sub (vscale (r_p D) h) (vscale i v) ;;
  src <- tweak a (degG D) ;;
  b <- vec_sub (vscale (r_p D) h) (vscale (i + 1) v) ;;
  dest <- tweak b (degG D) ;;
  y <- vec_sub src dest ;;
  G <- (if matrices
        then M <- get_reduction_matrix_J slv D r dest y ;; mat_vec r M (snd st)
        else reduce_vector_J slv D r dest y (snd st)) ;;
  OK (dest, lvec_red (r_q D) G).

(** hypersurface/frob_J_ZZ.cc 126-204, frob_J_ZZ_p.cc 117-187: reduce one entry
    (h, G) of H by [end_] steps in the chosen direction; the result is
    (direction, last dest, G).  Only the modes 0, 1, 2 of the switch. *)
Definition frob_entry (slv : solver) (D : dR) (r : Z) (loop : nat) (end_ : Z)
    (h : vec) (G : list Z) : res (vec * vec * list Z) :=
  let g := degG D in
  v <- choose_dir (r_d D) h ;;
  match loop with
  | O =>
      if g <? end_ then
        hv <- vec_sub h v ;;
        a <- vec_add (vscale (r_p D) hv) (vscale (r_p D - end_) v) ;;
        t <- tweak (vscale g v) g ;;
        dest <- vec_add a t ;;
        a' <- vec_add a (vscale g v) ;;
        t' <- tweak a' g ;;
        _ <- check (if list_eq_dec Z.eq_dec dest t' then true else false) EAssert ;;
        G1 <- reduce_vector_J_poly slv D r dest v (end_ - g) G ;;
        st <- foldM (frob_single slv D r false h v) (zseq (end_ - g) end_) (dest, G1) ;;
        OK (v, fst st, snd st)
      else
        st <- foldM (frob_single slv D r false h v) (zseq 0 end_) ([], G) ;;
        OK (v, fst st, snd st)
  | 1%nat =>
      st <- foldM (frob_single slv D r false h v) (zseq 0 end_) ([], G) ;;
      OK (v, fst st, snd st)
  | 2%nat =>
      st <- foldM (frob_single slv D r true h v) (zseq 0 end_) ([], G) ;;
      OK (v, fst st, snd st)
  | _ => Err EAbort
  end.

(** hypersurface/frob_J_ZZ.cc 207: IsZero(G_ZZ_p); the ZZ_p version has no such
    test *)
Definition all_zero (q : Z) (G : list Z) : bool := forallb (fun x => x mod q =? 0) G.

(** hypersurface/frob_J_ZZ.cc 121-229, frob_J_ZZ_p.cc 112-208: reduce every entry
    of H; either collect in Hnew (e > n/p + 1) or include in H_last *)
Definition frob_pass (slv : solver) (D : dR) (r : Z) (loop : nat) (e : Z)
    (H : vmap (list Z)) (Hlast : list Z) : res (vmap (list Z) * list Z) :=
  let n := Z.of_nat (r_n D) in
  let p := r_p D in
  let q := r_q D in
  foldM (fun st uG =>
      let u := fst uG in
      vdG <- frob_entry slv D r loop (if n / p + 1 <? e then p else p - n mod p) u (snd uG) ;;
      let v := fst (fst vdG) in
      let dest := snd (fst vdG) in
      let G := snd vdG in
      if (r =? 0) && all_zero q G then OK st
      else if n / p + 1 <? e then
        y <- vec_sub u v ;;
        match vfind y (fst st) with
        | None => OK (vinsert y G (fst st), snd st)
        | Some G0 => S <- lvec_add q G0 G ;; OK (vinsert y S (fst st), snd st)
        end
      else
        M <- get_inclusion_matrix_J D dest ;;
        G1 <- mat_vec q M G ;;
        L <- lvec_add q (snd st) G1 ;;
        OK (fst st, L))
    H ([], Hlast).

(** hypersurface/frob_J_ZZ.cc 62-233: for(e = m+N-1; e > n/p; e--); [k] counts
    the remaining iterations, so e = n/p + k.  State (H, H_last, fact). *)
Fixpoint frob_loop (slv : solver) (D : dR) (r : Z) (loop : nat)
    (dj : Z -> res Z) (dictV : vmap nat) (ei : vec) (m : Z) (fpow : list poly) (k : nat)
    (st : vmap (list Z) * list Z * Z) : res (vmap (list Z) * list Z * Z) :=
  match k with
  | O => OK st
  | S k' =>
      let e := Z.of_nat (r_n D) / r_p D + Z.of_nat k in
      let '(H, Hlast, fact) := st in
      H1 <- (if m <=? e
             then c <- dj (e - m) ;; P <- get_at fpow (e - m) ;; frob_add D dictV ei c fact P H
             else OK H) ;;
      HL <- frob_pass slv D r loop e H1 Hlast ;;
      frob_loop slv D r loop dj dictV ei m fpow k'
        (fst HL, snd HL, frob_fact (r_q D) (r_p D) e fact)
  end.

(** hypersurface/frob_J_ZZ.cc 246-268, frob_J_ZZ_p.cc 222-242: terms of pole
    order p e <= n go directly to the basis *)
Definition frob_low_terms (slv : solver) (D : dR) (c : Z) (ei : vec) (P : poly) (e fact : Z)
    (F : list Z) : res (list Z) :=
  dict <- get_at (r_td D) (r_d D * r_p D * e - (Z.of_nat (r_n D) + 1)) ;;
  ups <- mapM (fun t =>
      m0 <- vec_add (fst t) ei ;;
      m1 <- vec_add m0 (ones_vec (r_n D)) ;;
      mono <- vec_sub (vscale (r_p D) m1) (ones_vec (r_n D)) ;;
      j <- dget dict mono ;;
      OK (j, (c * snd t * fact) mod r_q D)) P ;;
  _ <- check (forallb (fun u => Nat.ltb (fst u) (length dict)) ups) EUB ;;
  let G0 := vadd_all (r_q D) ups (repeat 0 (length dict)) in
  M <- get_final_reduction_matrix_J slv D (r_p D * e) ;;
  G1 <- mat_vec (r_q D) M G0 ;;
  lvec_add (r_q D) F G1.

(** hypersurface/frob_J_ZZ.cc 238-281: for(e = n/p; e != 0; e--) *)
Fixpoint frob_low (slv : solver) (D : dR) (dj : Z -> res Z) (ei : vec) (m N : Z)
    (fpow : list poly) (e : nat) (st : list Z * Z) : res (list Z * Z) :=
  match e with
  | O => OK st
  | S e' =>
      let ez := Z.of_nat e in
      let '(F, fact) := st in
      _ <- check (fact =? factorial (r_q D) (r_p D * (m + N - 1) - 1) (r_p D * ez)) EAssert ;;
      F1 <- (if m <=? ez
             then c <- dj (ez - m) ;; P <- get_at fpow (ez - m) ;;
                  frob_low_terms slv D c ei P ez fact F
             else OK F) ;;
      frob_low slv D dj ei m N fpow e' (F1, frob_fact (r_q D) (r_p D) ez fact)
  end.

(** hypersurface/frob_J_ZZ_p.cc 217-255: for(e = n/p; e != 0 && e >= m; e--) *)
Fixpoint frob_low_p (slv : solver) (D : dR) (dj : Z -> res Z) (ei : vec) (m N : Z)
    (fpow : list poly) (e : nat) (st : list Z * Z) : res (list Z * Z) :=
  match e with
  | O => OK st
  | S e' =>
      let ez := Z.of_nat e in
      let '(F, fact) := st in
      if m <=? ez then
        c <- dj (ez - m) ;; P <- get_at fpow (ez - m) ;;
        F1 <- frob_low_terms slv D c ei P ez fact F ;;
        frob_low_p slv D dj ei m N fpow e' (F1, frob_fact (r_q D) (r_p D) ez fact)
      else OK st
  end.

(** NTL inv(ZZ_p): the inverse in [0, q), or an error *)
Definition inv_mod (q a : Z) : res Z :=
  match find (fun x => (a * x) mod q =? 1 mod q) (zseq 0 q) with
  | Some x => OK x
  | None => Err EAbort
  end.

(** hypersurface/frob_J_ZZ.cc 296-301: DivRem of every entry, remainder asserted
    to be zero *)
Definition div_all (q pp : Z) (F : list Z) : res (list Z) :=
  mapM (fun x => _ <- check (x mod pp =? 0) EAssert ;; OK ((x / pp) mod q)) F.

(** hypersurface/frob_J_ZZ.cc 283-302, frob_J_ZZ_p.cc 257-276: division by
    (p(m+N-1)-1)! / p^(n-1).  P = p(m+N-1). *)
Definition frob_finish (q p n P : Z) (F : list Z) (fact : Z) : res (list Z) :=
  _ <- check (fact =? factorial q (P - 1) 1) EAssert ;;
  val <- valuation_of_factorial (P - 1) p ;;
  let full := factorial 0 (P - 1) 1 in
  let pv := p ^ val in
  _ <- check (full mod pv =? 0) EAssert ;;
  u <- inv_mod q ((full / pv) mod q) ;;
  let F1 := lvec_scal q u F in
  if val <=? n - 1 then OK (lvec_scal q ((p ^ (n - 1 - val)) mod q) F1)
  else div_all q (p ^ (val - (n - 1))) F1.

(** hypersurface/frob_J_ZZ.cc 52-56, frob_matrix_J.cc 33-37 *)
Definition pole_order (D : dR) (b : vec) : Z :=
  (sumf (fun i => nth i b 0) (seq 0 (S (r_n D))) + Z.of_nat (r_n D) + 1) / r_d D.

(** hypersurface/frob_J_ZZ.cc 58-237: everything up to F = final(n) * H_last *)
Definition frob_high (slv : solver) (D : dR) (r : Z) (loop : nat) (dj : Z -> res Z)
    (ei : vec) (m N : Z) (fpow : list poly) : res (list Z * Z) :=
  let n := Z.of_nat (r_n D) in
  dictV <- get_at (r_td D) (degG D) ;;
  hl <- binomial (r_d D * n - 1) n ;;
  _ <- check (0 <=? hl) EAbort ;;
  st <- frob_loop slv D r loop dj dictV ei m fpow (Z.to_nat (m + N - 1 - n / r_p D))
          ([], repeat 0 (Z.to_nat hl), 1 mod r_q D) ;;
  M <- get_final_reduction_matrix_J slv D n ;;
  F <- mat_vec (r_q D) M (snd (fst st)) ;;
  OK (F, snd st).

(** hypersurface/frob_J_ZZ.cc 11-281: (F, fact) before the final division *)
Definition frob_sum_ZZ (slv : solver) (D : dR) (fpow : list poly) (coordinate : nat) (N : Z)
    (loop : nat) : res (list Z * Z) :=
  _ <- check (0 <? N) EAssert ;;
  ei <- get_at (r_basis D) (Z.of_nat coordinate) ;;
  fpow' <- compute_fpow (r_q D) (r_f D) (N - 1) fpow ;;
  let m := pole_order D ei in
  Ff <- frob_high slv D 0 loop (djm djm_ZZ m N) ei m N fpow' ;;
  frob_low slv D (djm djm_64 m N) ei m N fpow' (Z.to_nat (Z.of_nat (r_n D) / r_p D)) Ff.

(** hypersurface/frob_J_ZZ.cc 11-305 *)
Definition frob_J_ZZ (slv : solver) (D : dR) (fpow : list poly) (coordinate : nat) (N : Z)
    (loop : nat) : res (list Z) :=
  ei <- get_at (r_basis D) (Z.of_nat coordinate) ;;
  Ff <- frob_sum_ZZ slv D fpow coordinate N loop ;;
  frob_finish (r_q D) (r_p D) (Z.of_nat (r_n D)) (r_p D * (pole_order D ei + N - 1))
    (fst Ff) (snd Ff).

(** hypersurface/frob_J_ZZ_p.cc 11-255: (F, fact) before the final division *)
Definition frob_sum_ZZ_p (slv : solver) (D : dR) (fpow : list poly) (coordinate : nat) (N : Z)
    (loop : nat) : res (list Z * Z) :=
  _ <- check (0 <? N) EAssert ;;
  ei <- get_at (r_basis D) (Z.of_nat coordinate) ;;
  fpow' <- compute_fpow (r_q D) (r_f D) (N - 1) fpow ;;
  let m := pole_order D ei in
  Ff <- frob_high slv D (r_q D) loop (djm_acc64 m N) ei m N fpow' ;;
  frob_low_p slv D (djm_acc64 m N) ei m N fpow' (Z.to_nat (Z.of_nat (r_n D) / r_p D)) Ff.

(** hypersurface/frob_J_ZZ_p.cc 11-279 *)
Definition frob_J_ZZ_p (slv : solver) (D : dR) (fpow : list poly) (coordinate : nat) (N : Z)
    (loop : nat) : res (list Z) :=
  ei <- get_at (r_basis D) (Z.of_nat coordinate) ;;
  Ff <- frob_sum_ZZ_p slv D fpow coordinate N loop ;;
  frob_finish (r_q D) (r_p D) (Z.of_nat (r_n D)) (r_p D * (pole_order D ei + N - 1))
    (fst Ff) (snd Ff).

(** hypersurface.h 66-70: frob_J = frob_J_ZZ in mode 0 *)
Definition frob_J (slv : solver) (D : dR) (fpow : list poly) (coordinate : nat) (N : Z) : res (list Z) :=
  frob_J_ZZ slv D fpow coordinate N 0.

(** hypersurface/frob_matrix_J.cc 29-44: row i of the matrix before transposing;
    rows with N[m-1] <= 0 stay zero *)
Definition frob_row (slv : solver) (D : dR) (fpow : list poly) (N : list Z) (i : nat) : res (list Z) :=
  let m := pole_order D (nth i (r_basis D) []) in
  Nm <- get_at N (m - 1) ;;
  if 0 <? Nm then frob_J slv D fpow i Nm else OK (repeat 0 (length (r_basis D))).

(** hypersurface/frob_matrix_J.cc 14-46 *)
Definition frob_matrix_J (slv : solver) (D : dR) (fpow : list poly) (N : list Z) : res mat :=
  _ <- check (Nat.eqb (length N) (r_n D)) EAssert ;;
  rows <- mapM (frob_row slv D fpow N) (seq 0 (length (r_basis D))) ;;
  OK (transpose (length (r_basis D)) (length (r_basis D)) rows).
