(** Model of the programs dr/test/*.cc and dr_nd/test/*.cc, which run the self-tests
    of TestModel on random objects.

    As in TestModel the successive values of the random generator are the list [rs];
    GenPrime_long(13) takes the next one and returns gp of it, where gp is an
    argument.  PASS is the value tt; FAIL is abort().  Times and messages are left out. *)
From Coq Require Import ZArith List Bool.
From Verif Require Import Base VecModel MatModel DRModel NDModel SolveModel TestModel CtorModel.
Import ListNotations.
Open Scope Z_scope.

(** dr/test/test_paths_J.cc 20-22 (19-21 in the test_monomial_to_basis files):
    p = 0; while(p < 43) p = GenPrime_long(13) *)
Fixpoint draw_prime (gp : Z -> Z) (p : Z) (rs : list Z) : res (Z * list Z) :=
  if p <? 43 then match rs with [] => Err EFuel | x :: rs => draw_prime gp (gp x) rs end
  else OK (p, rs).

(** dr/test/test_paths_J.cc 19-45: the bodies of the loops one after the other *)
Fixpoint in_order (l : list (draws unit)) : draws unit :=
  match l with [] => dret tt | x :: l => dbind x (fun _ => in_order l) end.

(** dr/test/test_paths_J.cc 36-42: the object, the test, abort() if it fails *)
Definition one_case {A} (ctor : draws A) (test : A -> draws bool) : draws unit :=
  dbind ctor (fun D => dbind (test D) (fun ok => if ok : bool then dret tt else fun _ => Err EAbort)).

(** dr/test/test_paths_J.cc 24-31: for n = 2, 3, for d = n+1 .. degree_bound *)
Definition cases (bound : Z -> Z) : list (Z * Z) :=
  flat_map (fun n => map (fun d => (n, d)) (zseq (n + 1) (bound n + 1))) (zseq 2 4).

(** dr/test/test_paths_J.cc 19-46: for i = 0 .. 9 *)
Definition test_main (gp : Z -> Z) (bound : Z -> Z -> Z) (body : Z -> Z -> Z -> draws unit) : draws unit :=
  in_order (map (fun i => dbind (draw_prime gp 0) (fun p =>
    in_order (map (fun nd => body p (fst nd) (snd nd)) (cases (bound i))))) (zseq 0 10)).

Section Mains.
  Variables (lu : ech_fun) (inv : inv_fun) (gp : Z -> Z).
  (** dr/test/test_paths_J.cc 23, 32-36: precision = 4 in all four programs; the modulus is p^4 *)
  Definition main_J (p n d : Z) : draws dR :=
    ctor_random (padic_solver lu inv p (p ^ 4) 1) (padic_solver lu inv p (p ^ 4) 4) (p ^ 4) p 4 (Z.to_nat n) d.
  (** dr_nd/test/test_paths_ND.cc 23, 32-36 *)
  Definition main_ND (p n d : Z) : draws dND :=
    ctor_random_ND (padic_solver lu inv p (p ^ 4) 1) (padic_solver lu inv p (p ^ 4) 4) (p ^ 4) p 4 (Z.to_nat n) d.
  (** dr/test/test_paths_J.cc 13-50 *)
  Definition main_paths_J : draws unit :=
    test_main gp (fun _ n => if n =? 3 then 4 else 5) (fun p n d =>
      let N := if n =? 3 then 3 else 5 in
      one_case (main_J p n d) (fun D => test_paths_J (padic_solver lu inv p (p ^ 4) 4) D N N)).
  (** dr/test/test_monomial_to_basis_J.cc 12-49 *)
  Definition main_basis_J : draws unit :=
    test_main gp (fun _ n => if n =? 3 then 4 else 5) (fun p n d =>
      let N := if n =? 3 then 1 else 3 in
      one_case (main_J p n d) (fun D => dlift (test_monomial_to_basis_J (padic_solver lu inv p (p ^ 4) 4) D N))).
  (** dr_nd/test/test_paths_ND.cc 13-50 *)
  Definition main_paths_ND : draws unit :=
    test_main gp (fun _ n => if n =? 3 then 4 else 5) (fun p n d =>
      let N := if n =? 3 then 3 else 5 in
      one_case (main_ND p n d) (fun X => test_paths_ND (padic_solver lu inv p (p ^ 4) 4) X N N)).
  (** dr_nd/test/test_monomial_to_basis_ND.cc 12-53: surfaces only for i = 0, 4, 8 *)
  Definition main_basis_ND : draws unit :=
    test_main gp (fun i n => if n =? 3 then (if Z.rem i 4 =? 0 then 4 else 0) else 5) (fun p n d =>
      let N := if n =? 3 then 1 else 3 in
      one_case (main_ND p n d) (fun X => dlift (test_monomial_to_basis_ND (padic_solver lu inv p (p ^ 4) 4) X N))).
End Mains.
