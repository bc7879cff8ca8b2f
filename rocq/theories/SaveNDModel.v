(** Model of the text written and read for a non-degenerate object: save in
    dr_nd/dr_nd.cc 245-316 and the file constructor dr_nd/dr_nd.cc 104-192.  The
    parts shared with de_Rham_local are those of SaveModel; the file operations of
    save are SaveModel.save_ops_ND.

    As in SaveModel a failed extraction is an error, and n is not negative. *)
From Coq Require Import ZArith List Bool.
From Verif Require Import Base VecModel ToolsModel MatModel DRModel NDModel IoModel SaveModel CacheModel NDCacheModel.
Import ListNotations.
Open Scope Z_scope.

(** the degrees whose solve pairs are stored: dr_nd.cc 295, 300 *)
Definition saved_degs_ND (D : dR) : list Z :=
  map (fun i => i * r_d D) (zseq 0 (Z.of_nat (r_n D) + 1)) ++ [top_ND D].
(** dr_nd.cc 262-302 (272-289 are dr/save.cc 34-51) *)
Definition save_text_ND (slv : solver) (N : dND) (verbose save_memory : bool) : res text :=
  s <- save_text slv (nd_dr N) verbose save_memory ;;
  ps <- mapM (get_solve_ND slv (nd_dr N)) (saved_degs_ND (nd_dr N)) ;;
  OK (s ++ line (print_vec print_Z (hilbert_ND (r_n (nd_dr N)) (r_d (nd_dr N)))) ++ flat_map print_pair ps).

(** the loaded object: the record, Hilbert_J, solve_J, Hilbert_ND, solve_ND,
    verbose and save_memory *)
Definition loaded_ND : Type :=
  dND * list Z * list (Z * (list Z * mat)) * list Z * list (Z * (list Z * mat)) * bool * bool.
(** dr_nd.cc 114-184 *)
Definition load_text_ND (p0 q : Z) (s : text) : res loaded_ND :=
  x <- load_part p0 q s ;;
  let '(D, hilJ, tabJ, vb, sm, s) := x in
  hil <- parse_vec parse_Z s ;;
  st <- foldM (fun st i => read_level q (fst hil) (r_tl D) st (i * r_d D)) (zseq 0 (Z.of_nat (r_n D) + 1)) ([], [], snd hil) ;;
  let '(tab, basis, s) := st in
  top <- parse_pair q s ;;
  _ <- check (zlen basis =? r_d D ^ Z.of_nat (r_n D)) EAssert ;;
  OK (mk_dND D basis (tuple_index basis), hilJ, tabJ, fst hil, tab ++ [(top_ND D, fst top)], vb, sm).

(** ** the object after loading
    The constructors fill solve_J (dr/constructors.cc 138, 147; dr_nd.cc 147, 156)
    and solve_ND (dr_nd.cc 169, 181); the other tables of dr.h and dr_nd.h are empty.
    The entries of a Vec<int64_t> of positions are natural numbers here. *)
Definition table_of (t : list (Z * (list Z * mat))) : list (Z * (list nat * mat)) :=
  map (fun e => (fst e, (map Z.to_nat (fst (snd e)), snd (snd e)))) t.
Definition loaded_cache (T : list poly) (tabJ : list (Z * (list Z * mat))) : cache :=
  mk_cache (table_of tabJ) [] [] [] [] T.
Definition loaded_ncache (T : list poly) (tabJ tabN : list (Z * (list Z * mat))) : ncache :=
  mk_ncache (loaded_cache T tabJ) (table_of tabN) [] [] [] [] [] [].
