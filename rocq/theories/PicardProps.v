(** C46, C49: the cyclotomic search of geometric_picard is exhaustive and in bounds,
    and the result is the number of roots p*zeta. *)
From Coq Require Import ZArith QArith List Lia.
From mathcomp Require Import all_ssreflect all_algebra all_field.
From mathcomp Require Import zify ssrZ.
From Verif Require Import Base VecModel ToolsModel MatModel MatProofs PicardModel PicardSpec PicardProofs PicardNum PicardMC PicardRoots PicardTop.
Set Implicit Arguments.
Unset Strict Implicit.
Unset Printing Implicit Defensive.
Import Order.TTheory GRing.Theory Num.Theory.
Local Open Scope ring_scope.

(** Every k with totient k = deg is reached: the condition holds for all j <= k. *)
Theorem C46_exhaustive x k j : double_ok x -> (0 < k)%N -> Z.le (Zpos xH) j -> Z.le j (Z.of_nat k) ->
  loop_cond x j (Z.of_nat (totient k)) = true.
Proof.
move=> X K J1 J2; have T0 : (0 < totient k)%N by rewrite totient_gt0.
apply: (@cond_prefix x X (Z.of_nat k)) => //; try by lia.
by move=> K3; apply: phi_margin; lia.
Qed.

(** The loop of the table ends, at an N such that every number that the search
    reads is smaller. *)
Theorem C46_in_bounds x md : double_ok x -> Z.le Z0 md ->
  exists N F, (forall fuel, (F <= fuel)%N -> table_size fuel x md (Zpos xH) = OK N) /\ Z.le (Zpos xH) N /\
  forall cyc g p, normal g -> Z.le (Zpos xH) p -> Z.le (fdeg g) md ->
    exists r, number_of_roots_of_unity x (List.map cyc (zseq 0 N)) g p = OK r.
Proof.
move=> X M0; have HE := cond_ends x X md M0.
set B := Z.mul _ _ in HE.
have B1 : Z.le (Zpos xH) B by rewrite /B; nia.
have [N1 [T1 [T2 [T3 T4]]]] := @table_size_from x md (S (Z.to_nat B)) (Zpos xH) B B1 ltac:(lia) HE.
exists N1, (S (Z.to_nat B)); split; [|split; first by lia].
  move=> fuel Hf.
  have [N2 [T1' [T2' [T3' T4']]]] := @table_size_from x md fuel (Zpos xH) B B1 ltac:(lia) HE.
  have -> // : N1 = N2.
  case: (Z.lt_trichotomy N1 N2) => [L|[//|L]]; [rewrite (T4' N1) in T3 | rewrite (T4 N2) in T3'] => //; lia.
move=> cyc g p Ng P1 D; rewrite /number_of_roots_of_unity.
case U : (unscale p g) => [g'|]; last by exists Z0.
have CN' : loop_cond x N1 (fdeg g) = false.
  by case E : (loop_cond _ _ _) => //; rewrite (cond_mono x N1 _ _ D E) in T3.
have [|||r [R1 R2]] := @cyc_loop_ok x cyc g' (fdeg g) N1 (S (List.length (List.map cyc (zseq 0 N1)))) 1.
- by lia.
- by rewrite List.map_length zseq_length; lia.
- by [].
by exists r.
Qed.

(** The result: if s are the roots of charpoly_frob (with multiplicity) then it is
    the number of z in s such that z/p is a root of unity, plus one in even
    dimension; the assertion is the comparison of parities. *)
Theorem C49_count x cyc factor cs p dim s :
  double_ok x -> cyc_spec cyc -> factor_spec (fnorm (List.rev cs)) (factor (fnorm (List.rev cs))) -> Z.le (Zpos xH) p ->
  normal cs -> cs <> nil -> pZtoC (pz cs) = lead_coef (pZtoC (pz cs)) *: prodX s ->
  exists us vs F, perm_eq s (us ++ vs) /\
    (forall z, z \in us -> unity (z / (int_of_Z p)%:~R)) /\ (forall z, z \in vs -> ~ unity (z / (int_of_Z p)%:~R)) /\
    forall fuel, (F <= fuel)%N -> geometric_picard fuel x cyc factor cs p dim =
      (if negb (Z.eqb dim (Zpos (xO xH))) || Bool.eqb (Z.even (Z.of_nat (List.length cs))) (Z.even (picard_count dim (size us)))
       then OK (picard_count dim (size us)) else Err EAssert).
Proof. exact: picard_ok. Qed.

(** If all roots have absolute value p (the Weil conjectures) the assertion never fails. *)
Theorem C49_assertion x cyc factor cs p dim s :
  double_ok x -> cyc_spec cyc -> factor_spec (fnorm (List.rev cs)) (factor (fnorm (List.rev cs))) -> Z.le (Zpos xH) p ->
  normal cs -> cs <> nil -> pZtoC (pz cs) = lead_coef (pZtoC (pz cs)) *: prodX s ->
  (forall z, z \in s -> `|z| = (int_of_Z p)%:~R) ->
  exists us vs F, perm_eq s (us ++ vs) /\
    (forall z, z \in us -> unity (z / (int_of_Z p)%:~R)) /\ (forall z, z \in vs -> ~ unity (z / (int_of_Z p)%:~R)) /\
    forall fuel, (F <= fuel)%N -> geometric_picard fuel x cyc factor cs p dim = OK (picard_count dim (size us)).
Proof. exact: picard_weil. Qed.

Print Assumptions C46_exhaustive.
Print Assumptions C46_in_bounds.
Print Assumptions C49_count.
Print Assumptions C49_assertion.
