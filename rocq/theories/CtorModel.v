(** Model of the constructors of de_Rham_local and de_Rham_non_degenerate_local
    that take a polynomial in another form or draw one at random:
    dr/constructors.cc 7-93, dr_nd/dr_nd.cc 19-102.  (The constructors from a file
    are in SaveModel, SaveNDModel.)

    An element of zz_p is its representative in [0, p), one of ZZ_p its
    representative in [0, q); p and q are the current moduli.  Random numbers are
    those of TestModel.  Verbose output is left out. *)
From Coq Require Import ZArith List Bool.
From Verif Require Import Base VecModel ToolsModel MatModel DRModel NDModel TestModel.
Import ListNotations.
Open Scope Z_scope.

(** ** polynomials given by vectors or modulo p *)
(** dr/constructors.cc 12-18, 36-43, dr_nd.cc 20-26, 47-53: m[tuple_d[i]] = conv(v[i]) *)
Definition vector_map (q n d : Z) (v : list Z) : res poly :=
  td <- tuple_list_generator d (n + 1) ;;
  _ <- check (Nat.eqb (length td) (length v)) EAssert ;;
  OK (fold_left (fun m i => vinsert (nth i td []) (nth i v 0 mod q) m) (seq 0 (length v)) []).
(** dr/constructors.cc 27-30, dr_nd.cc 37-40 *)
Definition lift_map (q : Z) (fbar : poly) : poly :=
  fold_left (fun m kc => vinsert (fst kc) (snd kc mod q) m) fbar [].

(** dr/constructors.cc 11-21 and 34-47 (assignment of the representative of an
    element of zz_p to a ZZ_p reduces it modulo q) *)
Definition ctor_vector (slv : solver) (q p prec n d : Z) (v : list Z) : res dR :=
  f <- vector_map q n d v ;; init slv q p prec f.
(** dr/constructors.cc 24-32 *)
Definition ctor_lift (slv : solver) (q p prec : Z) (fbar : poly) : res dR := init slv q p prec (lift_map q fbar).
(** dr_nd.cc 19-31 and 45-57 *)
Definition ctor_vector_ND (slv : solver) (q p prec n d : Z) (v : list Z) : res dND :=
  f <- vector_map q n d v ;; init_ND slv q p prec f.
(** dr_nd.cc 35-42 *)
Definition ctor_lift_ND (slv : solver) (q p prec : Z) (fbar : poly) : res dND := init_ND slv q p prec (lift_map q fbar).

(** ** init with the tables solve_J and solve_ND as they are when it is called *)
(** the maps solve_J (dr.h) and solve_ND (dr_nd.h) *)
Definition stab : Type := list (Z * (list nat * mat)).
(** dr/get_solve_J.cc 10-36, dr_nd.cc 358-382: [get] computes and solves the system *)
Definition solve_t (get : Z -> res (list nat * mat)) (tab : stab) (l : Z) : res ((list nat * mat) * stab) :=
  match mfind Z.ltb l tab with
  | Some x => OK (x, tab)
  | None => x <- get l ;; OK (x, minsert Z.ltb l x tab)
  end.

(** dr/init.cc 87-92, dr_nd.cc 226-229: the level of degree l of the basis *)
Definition level_t (get : Z -> res (list nat * mat)) (hil : list Z) (tl : list (list vec))
  (st : stab * list vec) (l : Z) : res (stab * list vec) :=
  xt <- solve_t get (fst st) l ;;
  h <- get_at hil l ;;
  _ <- check (h =? zlen (fst (fst xt))) EAssert ;;
  tll <- get_at tl l ;;
  bs <- mapM (fun b => get_at tll (Z.of_nat b)) (fst (fst xt)) ;;
  OK (snd xt, snd st ++ bs).

(** dr/init.cc 7-106, on an object whose table is [tab] *)
Definition init_t (slv : solver) (q p prec : Z) (f : poly) (tab : stab) : res dR :=
  match f with
  | [] => Err EUB
  | (a0, _) :: _ =>
      let n := (length a0 - 1)%nat in
      let d := zsum a0 in
      _ <- check (Z.of_nat n <? d) EAssert ;;
      _ <- check (negb (p =? 0)) EUB ;;
      _ <- check (negb (Z.rem d p =? 0)) EAssert ;;
      tl <- init_tuples n d ;;
      let D0 := mk_dR p prec q n d f tl (map tuple_index tl) [] [] in
      top <- solve_t (get_solve_J slv D0) tab (deg_top D0) ;;
      _ <- check (Nat.eqb (length (fst (fst top))) 0) EAssert ;;
      st <- foldM (level_t (get_solve_J slv D0) (hilbert_J n d) tl)
              (map (fun i => (i + 1) * d - (Z.of_nat n + 1)) (zseq 0 (Z.of_nat n))) (snd top, []) ;;
      OK (mk_dR p prec q n d f tl (map tuple_index tl) (snd st) (tuple_index (snd st)))
  end.

(** dr_nd.cc 194-243, on an object whose tables are [tabJ] and [tab] *)
Definition init_ND_t (slv : solver) (q p prec : Z) (f : poly) (tabJ tab : stab) : res dND :=
  D <- init_t slv q p prec f tabJ ;;
  top <- solve_t (get_solve_ND slv D) tab (top_ND D) ;;
  _ <- check (Nat.eqb (length (fst (fst top))) 0) EAssert ;;
  st <- foldM (level_t (get_solve_ND slv D) (hilbert_ND (r_n D) (r_d D)) (r_tl D))
          (map (fun i => i * r_d D) (zseq 0 (Z.of_nat (r_n D) + 1))) (snd top, []) ;;
  _ <- check (zlen (snd st) =? r_d D ^ Z.of_nat (r_n D)) EAssert ;;
  OK (mk_dND D (snd st) (tuple_index (snd st))).

(** ** random polynomials *)
(** dr/constructors.cc 76-82, dr_nd.cc 86-92: x = random_zz_p(); f[t] = rep(x), for
    every monomial t of degree d *)
Fixpoint draw_coeffs (p q : Z) (l : list vec) (f : poly) : draws poly :=
  match l with
  | [] => dret f
  | t :: l => dbind (random_bnd p) (fun x => draw_coeffs p q l (vinsert t (x mod q) f))
  end.

(** dr/constructors.cc 73-85, dr_nd.cc 83-95: while(B.length() != 0).  [fuel] bounds
    the iterations.  [get D] computes and solves the system of the object D in its
    top degree [l]; the precision of the object is 1 and its p is not yet set (it is
    not used).  The table is emptied first (75, 85).  The polynomial and the table
    left in the object are returned. *)
Fixpoint random_loop (get : dR -> Z -> res (list nat * mat)) (q p : Z) (n : nat) (d : Z) (tl : list (list vec)) (l : Z)
  (fuel : nat) (f : poly) : draws (poly * stab) :=
  match fuel with
  | O => fun _ => Err EFuel
  | S fuel =>
      dbind (dlift (get_at tl d)) (fun tld =>
      dbind (draw_coeffs p q tld f) (fun f =>
      dbind (dlift (solve_t (get (mk_dR p 1 q n d f tl (map tuple_index tl) [] [])) [] l)) (fun xt =>
      if Nat.eqb (length (fst (fst xt))) 0 then dret (f, snd xt)
      else random_loop get q p n d tl l fuel f)))
  end.

(** dr/constructors.cc 49-93: [slv1] solves to precision 1, [slv] to the precision
    asked for; solve_J is emptied before init (87).  Every iteration uses at least
    one random number, so that the length of the list is enough fuel. *)
Definition ctor_random (slv1 slv : solver) (q p prec : Z) (n : nat) (d : Z) : draws dR := fun rs =>
  dbind (dlift (init_tuples n d)) (fun tl =>
  dbind (random_loop (get_solve_J slv1) q p n d tl ((d - 2) * (Z.of_nat n + 1) + 1) (S (length rs)) []) (fun ft =>
  dlift (init_t slv q p prec (fst ft) []))) rs.

(** dr_nd.cc 59-102; solve_ND is emptied before init_ND (97), solve_J is empty *)
Definition ctor_random_ND (slv1 slv : solver) (q p prec : Z) (n : nat) (d : Z) : draws dND := fun rs =>
  dbind (dlift (init_tuples n d)) (fun tl =>
  dbind (random_loop (get_solve_ND slv1) q p n d tl ((d - 1) * (Z.of_nat n + 1) + 1) (S (length rs)) []) (fun ft =>
  dlift (init_ND_t slv q p prec (fst ft) [] []))) rs.
