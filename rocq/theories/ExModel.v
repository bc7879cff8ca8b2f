(** Model of the program examples/frob.cc 41-297: reads a hypersurface from a file,
    writes its Frobenius matrix, the characteristic polynomial and the Picard rank.
    One thread (61: the others are the subject of C31, C51, C52); the seed of the
    random numbers is fixed (59), so that [rnd] is a constant of the program.
    Nothing the program prints on the terminal is modelled. *)
From Coq Require Import ZArith List Bool Ascii QArith.
From Verif Require Import Base VecModel ToolsModel MatModel DRModel FrobModel NDModel FrobNDModel SolveModel ChangeModel ArgsModel CharModel
  PicardModel IoModel SaveModel RunModel CtorModel.
Import ListNotations.
Open Scope Z_scope.

(** examples/frob.cc 89: the number of newline characters *)
Definition count_nl (s : text) : nat := length (filter (Ascii.eqb c_nl) s).

(** examples/frob.cc 101-130: (precision, N, absolute_precision) of the short form;
    the text in the buffer, read in 155-156, is given as vectors *)
Definition k3_args (p : Z) : res args :=
  if p =? 3 then OK (16, [7; 7; 8], [24; 23; 22; 21; 20; 19; 18; 17; 16; 15; 14; 13; 12; 11; 10; 9; 8; 7; 6; 5; 5; 5])
  else if p =? 5 then OK (9, [4; 5; 5], [23; 22; 21; 20; 19; 18; 17; 16; 15; 14; 13; 12; 11; 10; 9; 8; 7; 6; 5; 4; 4; 4])
  else if (6 <? p) && (p <? 20) then OK (6, [4; 4; 3], [23; 22; 21; 20; 19; 18; 17; 16; 15; 14; 13; 12; 11; 10; 9; 8; 7; 6; 5; 4; 3; 3])
  else if (20 <? p) && (p <? 42) then OK (5, [3; 3; 3], [22; 21; 20; 19; 18; 17; 16; 15; 14; 13; 12; 11; 10; 9; 8; 7; 6; 5; 4; 3; 3; 3])
  else _ <- check (42 <? p) EAssert ;;
       OK (4, [3; 3; 2], [22; 21; 20; 19; 18; 17; 16; 15; 14; 13; 12; 11; 10; 9; 8; 7; 6; 5; 4; 3; 2; 2]).

(** what is known after examples/frob.cc 164 *)
Record input := mk_input { in_p : Z; in_prec : Z; in_n : Z; in_d : Z; in_f : list Z; in_N : list Z; in_cprec : list Z }.

(** examples/frob.cc 139-140: zz_p::init wants p > 1, power_ZZ an exponent >= 0 and
    ZZ_p::init a modulus > 1 *)
Definition moduli_ok (p prec : Z) : bool := (1 <? p) && (0 <? prec).

(** examples/frob.cc 87-164.  Input that is not a number or not a vector is an
    error here ([EAbort], as in IoModel); in the program it leaves the stream in a
    failed state and the length assertion of 169 fails or, for the numbers of
    134-136, uninitialised variables are used. *)
Definition read_input (s : text) : res input :=
  let short := Nat.ltb (count_nl s) 7 in
  p <- parse_Z s ;;
  if short then
    a <- k3_args (fst p) ;;
    let '(prec, N, cprec) := a in
    _ <- check (moduli_ok (fst p) prec) EAbort ;;
    f <- parse_vec (parse_mod (fst p)) (snd p) ;;
    OK (mk_input (fst p) prec 3 4 (fst f) N cprec)
  else
    prec <- parse_Z (snd p) ;;
    n <- parse_Z (snd prec) ;;
    d <- parse_Z (snd n) ;;
    _ <- check (moduli_ok (fst p) (fst prec)) EAbort ;;
    f <- parse_vec (parse_mod (fst p)) (snd d) ;;
    N <- parse_vec parse_Z (snd f) ;;
    cprec <- parse_vec parse_Z (snd N) ;;
    OK (mk_input (fst p) (fst prec) (fst n) (fst d) (fst f) (fst N) (fst cprec)).

(** examples/frob.cc 171-174: f_original_map *)
Definition vector_poly (td : list vec) (v : list Z) : poly :=
  fold_left (fun m i => if nth i v 0 =? 0 then m else vinsert (nth i td []) (nth i v 0) m) (seq 0 (length v)) [].

(** examples/frob.cc 201-204: f_vector; a monomial that is not in the dictionary
    would be put at position 0 *)
Definition poly_vector (td : list vec) (k : nat) (g : poly) : res (list Z) :=
  foldM (fun v (kc : vec * Z) =>
      let i := match vfind (fst kc) (tuple_index td) with Some j => j | None => O end in
      _ <- check (Nat.ltb i (length v)) EUB ;;
      OK (upd v i (snd kc))) g (repeat 0 k).

(** what is written in examples/frob.cc 254-267, except for the times *)
Record output := mk_output { o_in : input; o_M : mat; o_f : list Z; o_Frob : mat; o_cp : list Z; o_rank : Z }.

(** the library functions and the random numbers of the computation *)
Record libs := mk_libs { l_lu : ech_fun; l_gauss : ech_fun; l_inv : inv_fun; l_det : Z -> nat -> mat -> Z; l_rnd : nat -> list mat * nat;
  l_fuel : nat; l_x : Z -> Q; l_cyc : Z -> fpoly; l_factor : fpoly -> list (fpoly * Z) }.

(** examples/frob.cc 166-228; the constructors from a polynomial modulo p (189, 196)
    are those of CtorModel *)
Definition frob_compute (L : libs) (tries : Z) (i : input) : res output :=
  let p := in_p i in
  let q := p ^ in_prec i in
  let slv := padic_solver (l_lu L) (l_inv L) p q (in_prec i) in
  td <- tuple_list_generator (in_d i) (in_n i + 1) ;;
  _ <- check (Nat.eqb (length td) (length (in_f i))) EAssert ;;
  let f := vector_poly td (in_f i) in
  sm <- is_smooth (l_lu L) p q f ;;
  _ <- check sm EAbort ;;
  M <- find_change_of_variables (l_lu L) (l_gauss L) (l_det L) p q (l_rnd L) f tries ;;
  let nd := negb (mat_zero M) in
  g <- (if nd then change_of_variables p f M else OK f) ;;
  fv <- poly_vector td (length (in_f i)) g ;;
  Frob <- frob_of slv q p (in_prec i) (Z.to_nat (in_n i)) (lift_map q g) nd (in_N i) (in_cprec i) ;;
  cp <- charpoly_frob Frob (in_cprec i) p (Z.to_nat (in_n i - 1)) ;;
  rank <- (if (in_n i =? 3) && (in_d i =? 4) then geometric_picard (l_fuel L) (l_x L) (l_cyc L) (l_factor L) cp p (in_n i - 1) else OK 0) ;;
  OK (mk_output i M fv Frob cp rank).

(** examples/frob.cc 254-267; [wall] and [user] are the times as printed *)
Definition output_text (o : output) (wall user : text) : text :=
  let i := o_in o in
  line (print_Z (in_p i)) ++ line (print_Z (in_prec i)) ++ line (print_Z (in_n i)) ++ line (print_Z (in_d i)) ++
  line (print_vec print_Z (in_f i)) ++ line (print_vec print_Z (in_N i)) ++ line (print_vec print_Z (in_cprec i)) ++
  line (print_mat print_Z (o_M o)) ++ line (print_vec print_Z (o_f o)) ++ line (print_mat print_Z (o_Frob o)) ++
  line (print_vec print_Z (o_cp o)) ++ line (print_Z (o_rank o)) ++ line wall ++ line user.

(** examples/frob.cc 87-228: [tries] is the fourth argument of the program (94-96) *)
Definition frob_main (L : libs) (tries : option Z) (s : text) : res output :=
  i <- read_input s ;;
  frob_compute L (match tries with Some t => t | None => in_p i * 100 end) i.
