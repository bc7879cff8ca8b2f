(** Model of dr/save.cc, of the file constructor dr/constructors.cc 95-162 and of
    the file operations of save in dr/save.cc and dr_nd/dr_nd.cc. *)
From Coq Require Import ZArith List Bool Ascii.
From Verif Require Import Base VecModel ToolsModel MatModel DRModel IoModel.
Import ListNotations.
Open Scope Z_scope.

(** ** the name of the temporary file *)
(** one byte written to a local array *)
Definition put_byte (buf : list (option ascii)) (i : nat) (c : ascii) : res (list (option ascii)) :=
  if Nat.ltb i (length buf) then OK (upd buf i (Some c)) else Err EUB.
(** strcpy(buf + at, s): the characters and the terminating zero byte *)
Definition str_write (buf : list (option ascii)) (at_ : nat) (s : text) : res (list (option ascii)) :=
  foldM (fun b i => put_byte b (at_ + i) (nth i (s ++ [zero]) zero)) (seq 0 (length s + 1)) buf.
(** ".swp" *)
Definition dot_swp : text := [chr 46; chr 115; chr 119; chr 112].
(** dr/save.cc 13-15 and dr_nd/dr_nd.cc 251-253: char fileswpname[sizeof(filename)+4]
    (the size of a pointer, 8), strcpy, strcat; strcat writes from the first zero
    byte, which is at the length of the file name (no zero byte in a file name) *)
Definition swp_name (filename : text) : res (list (option ascii)) :=
  b <- str_write (repeat None (8 + 4)) 0 filename ;;
  str_write b (length filename) dot_swp.

(** ** the text written (dr/save.cc 24-51) *)
Definition line (t : text) : text := t ++ [c_nl].
(** dr/save.cc 24-26: position tuple_dict[d][..] of each term of fbar;
    operator[] of an absent monomial gives position 0 *)
Definition fbar_vector (p : Z) (D : dR) : res (list Z) :=
  tl <- get_at (r_tl D) (r_d D) ;;
  td <- get_at (r_td D) (r_d D) ;;
  foldM (fun v (kc : vec * Z) =>
      let i := match vfind (fst kc) td with Some j => j | None => O end in
      _ <- check (Nat.ltb i (length v)) EUB ;;
      OK (upd v i (snd kc mod p))) (r_f D) (repeat 0 (length tl)).
Definition print_pair (BU : list nat * mat) : text :=
  line (print_vec print_Z (map Z.of_nat (fst BU))) ++ line (print_mat print_Z (snd BU)).
(** the degrees whose solve pairs are stored: dr/save.cc 45, 49 *)
Definition saved_degs (D : dR) : list Z :=
  map (fun i => (i + 1) * r_d D - (Z.of_nat (r_n D) + 1)) (zseq 0 (Z.of_nat (r_n D))) ++ [deg_top D].
Definition save_text (slv : solver) (D : dR) (verbose save_memory : bool) : res text :=
  fv <- fbar_vector (r_p D) D ;;
  ps <- mapM (get_solve_J slv D) (saved_degs D) ;;
  OK (line (print_Z (r_p D)) ++ line (print_Z (r_prec D)) ++ line (print_bool verbose) ++ line (print_bool save_memory) ++
      line (print_Z (Z.of_nat (r_n D))) ++ line (print_Z (r_d D)) ++ line (print_vec print_Z (hilbert_J (r_n D) (r_d D))) ++
      line (print_vec print_Z fv) ++ flat_map print_pair ps).

(** ** reading (dr/constructors.cc 95-162) *)
Definition parse_pair (q : Z) (s : text) : res ((list Z * mat) * text) :=
  b <- parse_vec parse_Z s ;;
  u <- parse_mat (parse_mod q) (snd b) ;;
  OK ((fst b, fst u), snd u).
(** 138-145: solve pair and basis elements of degree l *)
Definition read_level (q : Z) (hil : list Z) (tl : list (list vec))
  (st : list (Z * (list Z * mat)) * list vec * text) (l : Z) : res (list (Z * (list Z * mat)) * list vec * text) :=
  let '(tab, basis, s) := st in
  pr <- parse_pair q s ;;
  h <- get_at hil l ;;
  _ <- check (h =? zlen (fst (fst pr))) EAssert ;;
  tll <- get_at tl l ;;
  bs <- mapM (get_at tll) (fst (fst pr)) ;;
  OK (tab ++ [(l, fst pr)], basis ++ bs, snd pr).
(** 136-146 *)
Definition load_level (q : Z) (n d : Z) (hil : list Z) (tl : list (list vec))
  (st : list (Z * (list Z * mat)) * list vec * text) (i : Z) : res (list (Z * (list Z * mat)) * list vec * text) :=
  read_level q hil tl st ((i + 1) * d - (n + 1)).

(** the loaded object: the record, Hilbert_J, the stored solve pairs, verbose and
    save_memory.  p0 and q are the current NTL moduli (zz_p and ZZ_p). *)
Definition loaded : Type := dR * list Z * list (Z * (list Z * mat)) * bool * bool.
(** dr/constructors.cc 104-155 and dr_nd/dr_nd.cc 114-163 (the same statements):
    the loaded object and the text not yet read *)
Definition load_part (p0 q : Z) (s : text) : res (loaded * text) :=
  p <- parse_Z s ;;
  _ <- check (fst p =? p0) EAssert ;;
  pr <- parse_Z (snd p) ;;
  _ <- check (fst p ^ fst pr =? q) EAssert ;;
  vb <- parse_bool (snd pr) ;;
  sm <- parse_bool (snd vb) ;;
  n <- parse_Z (snd sm) ;;
  d <- parse_Z (snd n) ;;
  hil <- parse_vec parse_Z (snd d) ;;
  fv <- parse_vec (parse_mod p0) (snd hil) ;;
  let nn := Z.to_nat (fst n) in
  tl <- init_tuples nn (fst d) ;;
  tld <- get_at tl (fst d) ;;
  _ <- check (Nat.eqb (length tld) (length (fst fv))) EAssert ;;
  let f := fold_left (fun f i => if nth i (fst fv) 0 =? 0 then f else vinsert (nth i tld []) (nth i (fst fv) 0) f)
             (seq 0 (length (fst fv))) [] in
  st <- foldM (load_level q (fst n) (fst d) (fst hil) tl) (zseq 0 (fst n)) ([], [], snd fv) ;;
  let '(tab, basis, s) := st in
  top <- parse_pair q s ;;
  OK (mk_dR (fst p) (fst pr) q nn (fst d) f tl (map tuple_index tl) basis (tuple_index basis),
      fst hil, tab ++ [((fst d - 2) * (fst n + 1) + 1, fst top)], fst vb, fst sm, snd top).
Definition load_text (p0 q : Z) (s : text) : res loaded := x <- load_part p0 q s ;; OK (fst x).

(** ** file operations *)
Inductive fop := CreateSwp | TruncTarget | Append (t : text) | RemoveSwp.
(** contents of the target and presence of the .swp file *)
Definition fs : Type := option text * bool.
Definition fop_run (s : fs) (o : fop) : fs :=
  match o with
  | CreateSwp => (fst s, true)
  | TruncTarget => (Some [], snd s)
  | Append t => (match fst s with Some c => Some (c ++ t) | None => None end, snd s)
  | RemoveSwp => (fst s, false)
  end.
Definition fops_run (s : fs) (l : list fop) : fs := fold_left fop_run l s.
(** dr/save.cc 15-56: [parts] are the pieces flushed by endl; open_swp and
    open_file say whether the two files could be opened *)
Definition save_ops (open_swp open_file : bool) (parts : list text) : list fop * bool :=
  ((if open_swp then [CreateSwp] else []) ++ (if open_file then [TruncTarget] else []) ++
   (if open_swp && open_file then map Append parts ++ [RemoveSwp] else []), open_swp && open_file).
(** dr_nd/dr_nd.cc 254-315: only the target is tested; removing an absent .swp
    has no effect *)
Definition save_ops_ND (open_swp open_file : bool) (parts : list text) : list fop * bool :=
  ((if open_swp then [CreateSwp] else []) ++ (if open_file then [TruncTarget] else []) ++
   (if open_file then map Append parts ++ [RemoveSwp] else []), open_file).

(** ** lifetime of the fmpz modulus in frob_ND_flint
    (hypersurface_nd.cc 474-476, 563-656, 657-748, 750).  A value below 2^62 is
    kept inside the fmpz_t and fmpz_clear does nothing; larger ones are heap
    objects. *)
Inductive cell := Live | Freed.
Definition fm_use (big : bool) (c : cell) : res cell :=
  match c with Freed => if big then Err EUB else OK c | Live => OK c end.
Definition fm_clear (big : bool) (c : cell) : res cell :=
  if big then match c with Freed => Err EUB | Live => OK Freed end else OK c.
(** one iteration of the loop over e with [terms] terms in H *)
Definition fm_step (threads : nat) (big : bool) (c : cell) (terms : nat) : res cell :=
  c <- foldM (fun c _ => fm_use big c) (seq 0 terms) c ;;
  if Nat.ltb 1 threads then fm_clear big c else OK c.
(** the whole routine; one entry per value of e = m+N-1, ..., 1 *)
Definition fm_run (threads : nat) (modulus : Z) (terms : list nat) : res cell :=
  let big := 2 ^ 62 <=? modulus in
  c <- foldM (fm_step threads big) terms Live ;;
  fm_clear big c.
