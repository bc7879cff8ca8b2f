(** The inputs that come with the programs: the texts in the two wrapper examples
    and in test_zeta_function, and the three input files of examples/frob.cc. *)
From Coq Require Import ZArith List Bool Ascii String.
From Verif Require Import Base VecModel MatModel SolveModel CharModel IoModel RunModel InvModel.
Import ListNotations.
Open Scope Z_scope.

(** the lines of a text, each but the last followed by a newline *)
Fixpoint lines (l : list string) : text :=
  match l with
  | [] => []
  | [s] => list_ascii_of_string s
  | s :: l => list_ascii_of_string s ++ [c_nl] ++ lines l
  end.

(** examples/zeta_function_wrapper_genus3.cc 13; the same text is in
    wrapper/test/test_zeta_function.cc 49 *)
Definition genus3_in : text := lines
  ["17"%string;
   "[[1 2 1] [2 0 2] [3 1 0] [1 3 0] [2 2 0] [0 2 2] [1 1 2] [3 0 1] [0 0 4] [2 1 1] [1 0 3] [0 4 0]]"%string;
   "[-3 1 1 -4 1 3 -3 1 2 3 -4 2]"%string].
(** examples/zeta_function_wrapper_K3.cc 20; the same text is in
    wrapper/test/test_zeta_function.cc 71 *)
Definition K3_in : text := lines
  ["23"%string;
   "[[4 0 0 0] [1  3  0  0]  [0  0  1  3]  [3  1  0  0]  [0  0  3  1]]"%string;
   "[1 1  1  1  1]"%string].

(** examples/example_quartic_curve.input *)
Definition curve_file : text := lines
  ["17"%string; "3"%string; "2"%string; "4"%string; "[1 6 -2 75 1 0 -2 -1 1 5 0 -1 0 -3 15]"%string; "[2 2]"%string; "[4 3 2 2 2 2 2]"%string; ""%string].
(** examples/example_quartic_curve_modp.input *)
Definition curve_modp_file : text := lines
  ["17"%string; "1"%string; "2"%string; "4"%string; "[1 6 -2 75 1 0 -2 -1 1 5 0 -1 0 -3 15]"%string; "[0 1]"%string; "[4 3 2 2 2 2 2]"%string; ""%string].
(** examples/example_quartic_surface.input *)
Definition surface_file : text := lines
  ["5"%string; "9"%string; "3"%string; "4"%string;
   "[0 -1 0 1 0 0 0 0 0 0 0 0 0 0 0 0 0 0 0 0 0 0 0 0 -1 0 0 0 0 0 0 0 0 1 0]"%string; "[4 5 5]"%string;
   "[23 22 21 20 19 18 17 16 15 14 13 12 11 10 9 8 7 6 5 4 4 4]"%string; ""%string].

Section Wrap.
  Variables (lu gauss : ech_fun) (inv : inv_fun) (det : Z -> nat -> mat -> Z) (rnd : nat -> list mat * nat).
  (** examples/zeta_function_wrapper_genus3.cc 11-21, examples/zeta_function_wrapper_K3.cc
      12-27: main; the polynomial that is printed, without the verbose output *)
  Definition wrapper_main (input : text) : res (list Z) :=
    pf <- zeta_input_text input ;; r <- zeta_default lu gauss inv det rnd (snd pf) (fst pf) ;; OK (fst r).
End Wrap.
