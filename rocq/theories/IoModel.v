(** Text input and output: decimal numbers, NTL vectors and matrices, and the
    stream operators of tools.h for polynomial maps. *)
From Coq Require Import ZArith List Bool Ascii.
From Verif Require Import Base VecModel MatModel.
Import ListNotations.
Open Scope Z_scope.

Definition text := list ascii.
Definition chr (n : N) : ascii := ascii_of_N n.
Definition c_nl := chr 10. Definition c_sp := chr 32. Definition c_minus := chr 45.
Definition c_open := chr 91. Definition c_close := chr 93.

(** ** C++ / NTL number formatting (ostream << int64_t, ZZ, zz_p, ZZ_p, bool) *)
Definition digit_char (d : Z) : ascii := chr (Z.to_N (48 + d)).
Definition is_digit (c : ascii) : bool := (N.leb 48 (N_of_ascii c)) && (N.leb (N_of_ascii c) 57).
Definition digit_val (c : ascii) : Z := Z.of_N (N_of_ascii c) - 48.

Fixpoint print_pos (fuel : nat) (n : Z) (acc : text) : text :=
  if n <? 10 then digit_char n :: acc
  else match fuel with
       | O => acc
       | S fuel => print_pos fuel (n / 10) (digit_char (n mod 10) :: acc)
       end.
Definition print_Z (x : Z) : text :=
  if x <? 0 then c_minus :: print_pos (Z.to_nat (Z.log2 (- x))) (- x) []
  else print_pos (Z.to_nat (Z.log2 x)) x [].
Definition print_bool (b : bool) : text := print_Z (if b then 1 else 0).

(** ** number parsing: white space, optional minus sign, at least one digit;
    otherwise the stream fails (NTL reports an error, [EAbort]).  A leading plus
    sign and 64-bit overflow are not modelled. *)
Definition is_ws (c : ascii) : bool :=
  let n := N_of_ascii c in N.eqb n 32 || (N.leb 9 n && N.leb n 13).
Fixpoint skip_ws (s : text) : text :=
  match s with
  | c :: r => if is_ws c then skip_ws r else s
  | [] => []
  end.
Fixpoint parse_digits (acc : Z) (s : text) : Z * text :=
  match s with
  | c :: r => if is_digit c then parse_digits (acc * 10 + digit_val c) r else (acc, s)
  | [] => (acc, [])
  end.
Definition parse_nat (s : text) : res (Z * text) :=
  match s with
  | c :: _ => if is_digit c then OK (parse_digits 0 s) else Err EAbort
  | [] => Err EAbort
  end.
Definition parse_Z (s : text) : res (Z * text) :=
  match skip_ws s with
  | c :: r => if Ascii.eqb c c_minus
              then x <- parse_nat r ;; OK (- fst x, snd x)
              else parse_nat (c :: r)
  | [] => Err EAbort
  end.
(** istream >> zz_p / ZZ_p: read an integer, reduce it *)
Definition parse_mod (q : Z) (s : text) : res (Z * text) :=
  x <- parse_Z s ;; OK (fst x mod q, snd x).
(** istream >> bool: only 0 and 1 are accepted *)
Definition parse_bool (s : text) : res (bool * text) :=
  x <- parse_Z s ;;
  if fst x =? 0 then OK (false, snd x) else if fst x =? 1 then OK (true, snd x) else Err EAbort.

(** ** NTL Vec<T>: "[" elements separated by blanks "]" *)
Fixpoint print_elems {A} (pr : A -> text) (l : list A) : text :=
  match l with
  | [] => []
  | [x] => pr x
  | x :: r => pr x ++ [c_sp] ++ print_elems pr r
  end.
Definition print_vec {A} (pr : A -> text) (l : list A) : text := [c_open] ++ print_elems pr l ++ [c_close].
(** NTL Mat<T>: "[" each row followed by a newline "]" *)
Definition print_mat {A} (pr : A -> text) (M : list (list A)) : text :=
  [c_open] ++ flat_map (fun r => print_vec pr r ++ [c_nl]) M ++ [c_close].

(** NTL istream >> Vec<T>: "[", elements until "]" *)
Fixpoint parse_elems {A} (pe : text -> res (A * text)) (fuel : nat) (s : text) : res (list A * text) :=
  match skip_ws s with
  | [] => Err EAbort
  | c :: r =>
      if Ascii.eqb c c_close then OK ([], r)
      else match fuel with
           | O => Err EFuel
           | S fuel =>
               x <- pe (c :: r) ;;
               l <- parse_elems pe fuel (snd x) ;;
               OK (fst x :: fst l, snd l)
           end
  end.
Definition parse_vec {A} (pe : text -> res (A * text)) (s : text) : res (list A * text) :=
  match skip_ws s with
  | c :: r => if Ascii.eqb c c_open then parse_elems pe (length r) r else Err EAbort
  | [] => Err EAbort
  end.
(** NTL istream >> Mat<T>: a vector of vectors of equal lengths *)
Definition parse_mat {A} (pe : text -> res (A * text)) (s : text) : res (list (list A) * text) :=
  x <- parse_vec (parse_vec pe) s ;;
  _ <- check (forallb (fun r => Nat.eqb (length r) (length (nth 0 (fst x) []))) (fst x)) EAbort ;;
  OK x.

(** ** m[k] = v for a std::map keyed by exponent vectors: the comparison with an
    existing key fails on a length mismatch and is undefined for length 0 *)
Definition mput {V} (k : vec) (v : V) (m : vmap V) : res (vmap V) :=
  match m with
  | [] => OK [(k, v)]
  | (k0, _) :: _ => _ <- vec_less k k0 ;; OK (vinsert k v m)
  end.

(** tools.h 178-181: entries inserted in the given order; an index past the end
    of the monomials cannot happen after the length test *)
Definition fill_map (ms : list vec) (cs : list Z) : res (vmap Z) :=
  foldM (fun m i => mput (nth i ms []) (nth i cs 0) m) (seq 0 (length cs)) [].

(** tools.h 171-183: istream >> map; coefficients in Z/q (q = 0: integers) *)
Definition parse_map (q : Z) (s : text) : res (vmap Z * text) :=
  ms <- parse_vec (parse_vec parse_Z) s ;;
  cs <- parse_vec (parse_mod q) (snd ms) ;;
  _ <- check (Nat.eqb (length (fst ms)) (length (fst cs))) EAbort ;;
  m <- fill_map (fst ms) (fst cs) ;;
  OK (m, snd cs).

(** tools.h 187-203: ostream << map; an empty map dereferences cbegin(); rows of
    different lengths are an NTL error *)
Definition print_map (m : vmap Z) : res text :=
  match m with
  | [] => Err EUB
  | (k0, _) :: _ =>
      _ <- check (forallb (fun kc => Nat.eqb (length (fst kc)) (length k0)) m) EAbort ;;
      OK (print_mat print_Z (map fst m) ++ [c_nl] ++ print_vec print_Z (map snd m) ++ [c_nl])
  end.

(** wrapper/zeta_function.cc 188-197: vectors of monomials and coefficients *)
Definition zeta_input_vectors (ms : list vec) (cs : list Z) : res (vmap Z) :=
  _ <- check (Nat.eqb (length ms) (length cs)) EAssert ;;
  foldM (fun m i => mput (nth i ms []) (nth i cs 0) m) (seq 0 (length ms)) [].

(** wrapper/zeta_function.cc 217: vector<ZZ>(first, last) converts each int64_t *)
Definition zeta_input_int64 (ms : list vec) (cs : list Z) : res (vmap Z) :=
  zeta_input_vectors ms (map (fun c => c) cs).

(** wrapper/zeta_function.cc 240-245: text "p monomials coefficients" *)
Definition zeta_input_text (s : text) : res (Z * vmap Z) :=
  p <- parse_Z s ;;
  m <- parse_map 0 (snd p) ;;
  OK (fst p, fst m).
