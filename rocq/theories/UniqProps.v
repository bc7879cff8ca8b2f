(** Property C55: the forms of the basis are independent and the coordinates the
    code computes are the only possible ones modulo q. *)
From Coq Require Import ZArith List Bool Lia Znumtheory.
From Verif Require Import Base VecModel VecSpec VecProofs ToolsModel ToolsSpec ToolsProofs MatModel MatProofs DRModel DRSpec DRProofs DRRed DRFinal BasisProps
  NDModel NDSpec NDRed NDProps FrobSpec FrobModel FrobPath FrobProofs FrobProps FrobNDModel FrobND FrobNDTop FrobNDProps SolveModel SolveSpec SolveProofs SolveProps LuInst LuFast UniqCode.
Import ListNotations.
Open Scope Z_scope.

(** any values on the basis are taken by a functional that kills exact forms:
    the statements C20-C28, C35-C38 about all functionals are not vacuous *)
Theorem C55_functionals_exist : forall slv p k prec f D,
  let q := p ^ k in
  init slv q p prec f = OK D -> wf_poly (r_n D) (r_d D) f -> solver_ok q slv -> prime p -> 1 <= k -> (1 <= r_n D)%nat ->
  forall psi, exists phi, GD q (r_n D) (r_d D) f phi /\ basis_val q (r_n D) (r_d D) (r_basis D) phi psi.
Proof.
  intros slv p k prec f D q H W Hs Pp Hk Hn. destruct (init_inv _ _ _ _ _ _ H W) as (inv & Eq & <-).
  exact (functional p k slv D Pp Hk inv Eq Hs Hn).
Qed.
Print Assumptions C55_functionals_exist.

(** two coordinate vectors of the same class modulo q are equal modulo q *)
Theorem C55_coordinates_unique : forall slv p k prec f D,
  let q := p ^ k in
  init slv q p prec f = OK D -> wf_poly (r_n D) (r_d D) f -> solver_ok q slv -> prime p -> 1 <= k -> (1 <= r_n D)%nat ->
  forall F F', length F = length (r_basis D) -> length F' = length (r_basis D) ->
  (forall phi psi, GD q (r_n D) (r_d D) f phi -> basis_val q (r_n D) (r_d D) (r_basis D) phi psi ->
     cong q (ev_basis psi (r_basis D) F) (ev_basis psi (r_basis D) F')) ->
  vcong q F F'.
Proof.
  intros slv p k prec f D q H W Hs Pp Hk Hn. destruct (init_inv _ _ _ _ _ _ H W) as (inv & Eq & <-).
  exact (coords_unique p k slv D Pp Hk inv Eq Hs Hn).
Qed.
Print Assumptions C55_coordinates_unique.

(** a functional is determined by its values on the basis *)
Theorem C55_functionals_unique : forall slv q p prec f D,
  init slv q p prec f = OK D -> wf_poly (r_n D) (r_d D) f -> solver_ok q slv -> 2 <= q -> (1 <= r_n D)%nat ->
  forall phi phi' psi, GD q (r_n D) (r_d D) f phi -> GD q (r_n D) (r_d D) f phi' ->
  basis_val q (r_n D) (r_d D) (r_basis D) phi psi -> basis_val q (r_n D) (r_d D) (r_basis D) phi' psi ->
  forall m w, is_tuple (S (r_n D)) (m * r_d D - (Z.of_nat (r_n D) + 1)) w -> cong q (phi m w) (phi' m w).
Proof.
  intros slv q p prec f D H W Hs Hq Hn phi phi' psi G G' B B' m w (L & NN & S).
  set (u := map (fun x => x + 1) w).
  assert (Lu : length u = Datatypes.S (r_n D)) by (unfold u; rewrite map_length; exact L).
  assert (Eu : epred u = w). { unfold u, epred. rewrite map_map. rewrite <- (map_id w) at 2. apply map_ext. intros; lia. }
  destruct (C23_monomial_to_basis slv q p prec f D H W Hs Hq Hn u m) as (F & _ & _ & HF); auto.
  - intros i Hi. unfold u. rewrite (nth_indep _ 0 (0 + 1)) by (rewrite map_length, L; lia). rewrite (map_nth (fun x => x + 1)). pose proof (nonneg_nth w i NN). lia.
  - assert (E : forall l, zsum (map (fun x => x + 1) l) = zsum l + zlen l).
    { induction l as [|x l IH]; [reflexivity|]. unfold zlen in *. cbn [map zsum length]. rewrite IH. lia. }
    unfold u. rewrite E, S. unfold zlen. rewrite L. lia.
  - pose proof (HF phi psi G B) as H1. pose proof (HF phi' psi G' B') as H2. rewrite Eu in *. eapply cong_trans; [apply cong_sym, H1|exact H2].
Qed.
Print Assumptions C55_functionals_unique.

(** a combination of the basis that represents zero has coordinates zero *)
Theorem C55_basis_independent : forall slv p k prec f D,
  let q := p ^ k in
  init slv q p prec f = OK D -> wf_poly (r_n D) (r_d D) f -> solver_ok q slv -> prime p -> 1 <= k -> (1 <= r_n D)%nat ->
  forall F, length F = length (r_basis D) ->
  (forall phi psi, GD q (r_n D) (r_d D) f phi -> basis_val q (r_n D) (r_d D) (r_basis D) phi psi ->
     cong q (ev_basis psi (r_basis D) F) 0) ->
  forall i, (i < length F)%nat -> cong q (nth i F 0) 0.
Proof.
  intros slv p k prec f D q H W Hs Pp Hk Hn F LF HF i Hi.
  destruct (C55_coordinates_unique slv p k prec f D H W Hs Pp Hk Hn F (repeat 0 (length F))) as (_ & X); auto.
  - now rewrite repeat_length.
  - intros phi psi G B. eapply cong_trans; [apply (HF phi psi G B)|]. apply cong_of_eq. symmetry. unfold ev_basis. apply sumf_zero. intros j _. rewrite nth_repeat. lia.
  - specialize (X i Hi). now rewrite nth_repeat in X.
Qed.
Print Assumptions C55_basis_independent.

Lemma prime_pow_2 p k : prime p -> 1 <= k -> 2 <= p ^ k.
Proof. intros Pp Hk. pose proof (prime_ge_2 p Pp). apply Z.le_trans with (p ^ 1); [lia|]. apply Z.pow_le_mono_r; lia. Qed.

(** the two reductions of a monomial form give the same coordinates *)
Theorem C55_J_and_ND_agree : forall slv p k prec f N,
  let q := p ^ k in
  init_ND slv q p prec f = OK N -> wf_poly (r_n (nd_dr N)) (r_d (nd_dr N)) f -> solver_ok q slv -> prime p -> 1 <= k ->
  (1 <= r_n (nd_dr N))%nat ->
  forall u m, length u = S (r_n (nd_dr N)) -> (forall i, (i <= r_n (nd_dr N))%nat -> 0 < nth i u 0) ->
  zsum u = m * r_d (nd_dr N) ->
  exists F F', monomial_to_basis_J slv (nd_dr N) u = OK F /\ monomial_to_basis_ND slv N u = OK F' /\ vcong q F F'.
Proof.
  intros slv p k prec f N q H W Hs Pp Hk Hn u m Lu Pu Su. pose proof (prime_pow_2 p k Pp Hk) as Q2. fold q in Q2.
  assert (HD : init slv q p prec f = OK (nd_dr N)).
  { pose proof H as H'. unfold init_ND in H'. apply bind_ok in H'. destruct H' as (D & H1 & H'). apply bind_ok in H'. destruct H' as (top & _ & H').
    apply bind_ok in H'. destruct H' as (? & _ & H'). apply bind_ok in H'. destruct H' as (bs & _ & H'). apply bind_ok in H'. destruct H' as (? & _ & H'). injection H' as <-. exact H1. }
  destruct (C23_monomial_to_basis slv q p prec f (nd_dr N) HD W Hs Q2 Hn u m Lu Pu Su) as (F & E1 & L1 & V1).
  destruct (C37_monomial_to_basis_ND slv q p prec f N H W Hs Q2 Hn u m Lu Pu Su) as (F' & E2 & L2 & V2).
  exists F, F'. split; auto. split; auto. apply (C55_coordinates_unique slv p k prec f (nd_dr N) HD W Hs Pp Hk Hn); auto.
  intros phi psi G B. exact (cong_trans _ _ _ _ (V1 phi psi G B) (cong_sym _ _ _ (V2 phi psi G B))).
Qed.
Print Assumptions C55_J_and_ND_agree.

(** the sums of the Frobenius routines do not depend on the mode, on the table of
    powers or on the method *)
Theorem C55_frobenius_modes_agree : forall slv p k prec f D,
  let q := p ^ k in
  init slv q p prec f = OK D -> wf_poly (r_n D) (r_d D) f -> solver_ok q slv -> prime p -> 1 <= k -> (1 <= r_n D)%nat ->
  forall reqs T reqs' T', foldM (fun T power => compute_fpow q f power T) reqs (fpow_init q (r_n D)) = OK T ->
  foldM (fun T power => compute_fpow q f power T) reqs' (fpow_init q (r_n D)) = OK T' ->
  forall i N loop loop', (i < length (r_basis D))%nat -> 1 <= N -> (loop <= 2)%nat -> (loop' <= 2)%nat ->
  let n := Z.of_nat (r_n D) in
  let m := pole_of (r_n D) (r_d D) (nth i (r_basis D) []) in
  n / p <= m + N - 1 ->
  (forall k j, 0 <= j <= k -> k < N -> choose (Z.to_nat k) (Z.to_nat j) < 2 ^ 63) ->
  (forall k j, 0 <= j <= k -> k < N -> m + j <= n / p ->
     choose (Z.to_nat (m + k - 1)) (Z.to_nat (m - 1)) * choose (Z.to_nat k) (Z.to_nat j) < 2 ^ 63) ->
  exists F fact F', frob_sum_ZZ slv D T i N loop = OK (F, fact) /\ frob_sum_ZZ slv D T' i N loop' = OK (F', fact) /\ vcong q F F'.
Proof.
  intros slv p k prec f D q H W Hs Pp Hk Hn reqs T reqs' T' HT HT' i N loop loop' Hi HN Hl Hl' n m C1 C2 C3.
  pose proof (prime_pow_2 p k Pp Hk) as Q2. fold q in Q2. pose proof (prime_ge_2 p Pp) as P2.
  destruct (C26_frobenius_series slv q p prec f D H W Hs P2 Q2 Hn reqs T HT i N loop Hi HN Hl C1 C2 C3) as (F & fact & E1 & L1 & R1 & X1 & V1).
  destruct (C26_frobenius_series slv q p prec f D H W Hs P2 Q2 Hn reqs' T' HT' i N loop' Hi HN Hl' C1 C2 C3) as (F' & fact' & E2 & L2 & R2 & X2 & V2).
  assert (fact' = fact) as ->.
  { assert (X : cong q fact' fact) by (eapply cong_trans; [exact X2|apply cong_sym, X1]). apply cong_iff_mod in X; [|lia]. now rewrite !Z.mod_small in X by lia. }
  exists F, fact, F'. split; auto. split; auto. apply (C55_coordinates_unique slv p k prec f D H W Hs Pp Hk Hn); auto.
  intros phi psi G B. exact (cong_trans _ _ _ _ (V1 phi psi G B) (cong_sym _ _ _ (V2 phi psi G B))).
Qed.
Print Assumptions C55_frobenius_modes_agree.

Theorem C55_frobenius_methods_agree : forall slv p k prec f N,
  let q := p ^ k in
  init_ND slv q p prec f = OK N -> wf_poly (r_n (nd_dr N)) (r_d (nd_dr N)) f -> solver_ok q slv -> prime p -> 1 <= k ->
  (1 <= r_n (nd_dr N))%nat ->
  forall reqs T, foldM (fun T power => compute_fpow q f power T) reqs (fpow_init q (r_n (nd_dr N))) = OK T ->
  forall kd i P loop, (i < length (r_basis (nd_dr N)))%nat -> 1 <= P -> (loop <= 2)%nat ->
  let n := Z.of_nat (r_n (nd_dr N)) in
  let b := nth i (r_basis (nd_dr N)) [] in
  let m := pole_of (r_n (nd_dr N)) (r_d (nd_dr N)) b in
  n / p <= m + P - 1 ->
  (forall k j, 0 <= j <= k -> k < P -> choose (Z.to_nat k) (Z.to_nat j) < 2 ^ 63) ->
  (forall k j, 0 <= j <= k -> k < P -> m + j <= n / p ->
     choose (Z.to_nat (m + k - 1)) (Z.to_nat (m - 1)) * choose (Z.to_nat k) (Z.to_nat j) < 2 ^ 63) ->
  kind_fine slv N b m P kd -> coef_fits kd m P ->
  exists F fact F', frob_sum_ZZ slv (nd_dr N) T i P loop = OK (F, fact) /\ fnd_sum slv N kd T i P = OK (F', fact) /\ vcong q F F'.
Proof.
  intros slv p k prec f N q H W Hs Pp Hk Hn reqs T HT kd i P loop Hi HP Hl n b m C1 C2 C3 K1 K2.
  pose proof (prime_pow_2 p k Pp Hk) as Q2. fold q in Q2. pose proof (prime_ge_2 p Pp) as P2.
  assert (HD : init slv q p prec f = OK (nd_dr N)).
  { pose proof H as H'. unfold init_ND in H'. apply bind_ok in H'. destruct H' as (D & H1 & H'). apply bind_ok in H'. destruct H' as (top & _ & H').
    apply bind_ok in H'. destruct H' as (? & _ & H'). apply bind_ok in H'. destruct H' as (bs & _ & H'). apply bind_ok in H'. destruct H' as (? & _ & H'). injection H' as <-. exact H1. }
  destruct (C26_frobenius_series slv q p prec f (nd_dr N) HD W Hs P2 Q2 Hn reqs T HT i P loop Hi HP Hl C1 C2 C3) as (F & fact & E1 & L1 & R1 & X1 & V1).
  destruct (C38_frobenius_series slv q p prec f N H W Hs P2 Q2 Hn reqs T HT kd i P Hi HP K1 K2) as (F' & fact' & E2 & L2 & R2 & X2 & V2).
  assert (fact' = fact) as ->.
  { assert (X : cong q fact' fact) by (eapply cong_trans; [exact X2|apply cong_sym, X1]). apply cong_iff_mod in X; [|lia]. now rewrite !Z.mod_small in X by lia. }
  exists F, fact, F'. split; auto. split; auto. apply (C55_coordinates_unique slv p k prec f (nd_dr N) HD W Hs Pp Hk Hn); auto.
  intros phi psi G B. exact (cong_trans _ _ _ _ (V1 phi psi G B) (cong_sym _ _ _ (V2 phi psi G B))).
Qed.
Print Assumptions C55_frobenius_methods_agree.

(** the elliptic curve x^3 + y^3 + z^3 + xyz modulo 25: basis 1 (pole order 1) and
    x^3 (pole order 2) *)
Definition ex5_slv : solver := padic_solver lu_inst inv_fast 5 25 2.
Definition ex5_f : poly := [([0; 0; 3], 1); ([0; 3; 0], 1); ([1; 1; 1], 1); ([3; 0; 0], 1)].
Definition ex5_N : dND :=
  match init_ND ex5_slv 25 5 2 ex5_f with OK N => N | Err _ => mk_dND (mk_dR 0 0 0 0 0 [] [] [] [] []) [] [] end.
Lemma ex5_init : init_ND ex5_slv 25 5 2 ex5_f = OK ex5_N.
Proof. vm_compute. reflexivity. Qed.
Lemma prime_5 : prime 5.
Proof. constructor; [lia|]. intros n Hn. assert (n = 1 \/ n = 2 \/ n = 3 \/ n = 4) as [->|[->|[->| ->]]] by lia; apply Zgcd_1_rel_prime; reflexivity. Qed.
Lemma ex5_slv_ok : solver_ok 25 ex5_slv.
Proof. exact (proj1 (C18_de_Rham_solver 5 2 lu_inst inv_fast prime_5 ltac:(lia) (lu_inst_spec 5 prime_5) (inv_fast_ok 5 prime_5))). Qed.
Lemma ex5_wf : wf_poly 2 3 ex5_f.
Proof.
  split.
  - unfold vsorted, ex5_f. repeat (apply ms_cons; [reflexivity| |]); try apply ms_nil;
      intros k v H; cbn [In] in H; repeat destruct H as [H|H]; try contradiction; injection H as <- <-; reflexivity.
  - intros a c H. cbn in H. repeat destruct H as [H|H]; try contradiction; injection H as <- <-; repeat split; repeat constructor; lia.
Qed.
Example C55_ex : r_basis (nd_dr ex5_N) = [[0; 0; 0]; [3; 0; 0]] /\ length (nd_basis ex5_N) = 9%nat /\ monomial_to_basis_J ex5_slv (nd_dr ex5_N) [3; 3; 3] = OK [9; 22] /\ monomial_to_basis_ND ex5_slv ex5_N [3; 3; 3] = OK [9; 22].
Proof. vm_compute. repeat split. Qed.
Example C55_ex_hyps : init ex5_slv (5 ^ 2) 5 2 ex5_f = OK (nd_dr ex5_N) /\ wf_poly (r_n (nd_dr ex5_N)) (r_d (nd_dr ex5_N)) ex5_f /\ solver_ok (5 ^ 2) ex5_slv /\ prime 5 /\ (1 <= r_n (nd_dr ex5_N))%nat.
Proof.
  split; [vm_compute; reflexivity|]. split; [|split; [exact ex5_slv_ok|split; [exact prime_5|vm_compute; lia]]].
  replace (r_n (nd_dr ex5_N)) with 2%nat by (vm_compute; reflexivity). replace (r_d (nd_dr ex5_N)) with 3 by (vm_compute; reflexivity). exact ex5_wf.
Qed.
