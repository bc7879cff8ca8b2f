(** Model of test_zeta_function.cc as its author meant it: the expected polynomial
    is read from the text, and a difference is a failure.  The texts are those of
    the file. *)
From Coq Require Import ZArith List Bool Ascii String.
From Verif Require Import Base VecModel MatModel SolveModel CharModel IoModel RunModel InvModel.
Import ListNotations.
Open Scope Z_scope.

(** test_zeta_function.cc 37-43, 58-64, 80-86 with the two repairs: ">>" instead of
    "<<" and "!=" instead of "=="; a text that is not a vector leaves the stream in
    the failed state, here an error *)
Definition compare_read (txt : text) (cp : list Z) : res Z :=
  e <- parse_vec parse_Z txt ;; OK (if zx_eqb cp (fst e) then 0 else 1).

Section ReadTests.
  Variables (lu gauss : ech_fun) (inv : inv_fun) (det : Z -> nat -> mat -> Z) (rnd : nat -> list mat * nat).
  (** test_zeta_function.cc 14-46 with the repaired comparison *)
  Definition test_vectors_read (ms : list vec) (cs : list Z) (p : Z) (txt : text) : res Z :=
    f <- zeta_input_vectors ms cs ;; r <- zeta_default lu gauss inv det rnd f p ;; compare_read txt (fst r).
End ReadTests.

(** test_zeta_function.cc 15-26: the monomials and the coefficients *)
Definition dwork_mon : list vec := [[4; 0; 0; 0]; [0; 4; 0; 0]; [0; 0; 4; 0]; [0; 0; 0; 4]; [1; 1; 1; 1]].
Definition dwork_coef : list Z := [1; 1; 1; 1; 1].
(** test_zeta_function.cc 36 *)
Definition dwork_txt : text := list_ascii_of_string
  "[-7400249944258160101211 3608386336456458231169 -277995865674611574050 -136470697694809318170 25042602775646827745 1533050078175543917 -641017719088510808 9666359400300680 8818983738586010 -482176723332590 -74181034358860 6743730396260 362266508890 -54758950510 -496037080 271854088 -5373247 -725395 32670 550 -59 1]".
(** test_zeta_function.cc 56 *)
Definition genus3_txt : text := list_ascii_of_string "[4913 -4046 1887 -548 111 -14 1]".
(** test_zeta_function.cc 78 *)
Definition K3_txt : text := list_ascii_of_string
  "[-39471584120695485887249589623 1716155831334586342923895201 694248294717583133054278966 -30184708465981875350186042 -5562277647022665774607627 241838158566202859765549 26802637582333589558408 -1165332068797112589496 -86212132515567942814 3748353587633388818 193710366435022724 -8422189845000988 -308075416095454 13394583308498 342258975368 -14880825016 -253815787 11035469 113206 -4922 -23 1]".
