(** The non-degenerate Frobenius routines: the complete sum and the division. *)
From Coq Require Import ZArith List Lia Bool Znumtheory.
From Verif Require Import Base VecModel VecSpec VecProofs ToolsModel ToolsSpec ToolsProofs PolyProofs MatModel MatProofs
  DRModel DRSpec DRProofs DRRed DRStep DRFinal DRPath
  FrobModel FrobSpec FrobSum FrobTop NDModel NDSpec NDRed NDCol NDStep NDPoly NDBasis FrobNDModel FrobND.
Import ListNotations.
Open Scope Z_scope.

(** the numbers the 64-bit loops for D_{j,m} must hold *)
Definition coef_fits (k : fnd_kind) (m P : Z) : Prop :=
  match k with
  | KZZp _ => forall j, 0 <= j < P -> Z.abs (D_coef m P j) < 2 ^ 63
  | _ => forall i j, 0 <= j <= i -> i < P ->
           choose (Z.to_nat (m + i - 1)) (Z.to_nat (m - 1)) * choose (Z.to_nat i) (Z.to_nat j) < 2 ^ 63
  end.
Lemma fnd_dj_ok k m P j : 1 <= m -> coef_fits k m P -> 0 <= j < P -> fnd_dj k m P j = OK (D_coef m P j).
Proof.
  intros Hm H Hj. assert (A : (forall i, j <= i < P -> d_bin m i j < 2 ^ 63) -> djm djm_64 m P j = OK (D_coef m P j)).
  { intros X. apply djm_ok; [lia|]. intros i Hi. apply djm_64_ok; auto; lia. }
  destruct k; cbn [fnd_dj coef_fits] in *.
  - apply A. intros i Hi. apply H; lia.
  - apply djm_acc64_ok; auto; lia.
  - apply A. intros i Hi. apply H; lia.
Qed.

Section Top.
  Variables (slv : solver) (N : dND).
  Hypothesis ninv : nd_inv slv N.
  Notation D := (nd_dr N).
  Hypothesis Hslv : solver_ok (r_q D) slv.
  Notation n := (r_n D).
  Notation d := (r_d D).
  Notation p := (r_p D).
  Notation q := (r_q D).
  Notation bas := (r_basis D).
  Hypothesis Hp : 2 <= p.
  Hypothesis Hq : 2 <= q.
  Hypothesis Hn : (1 <= n)%nat.
  Variables (i : nat) (P : Z) (T : list poly).
  Hypothesis Hi : (i < length bas)%nat.
  Hypothesis HP : 1 <= P.
  Hypothesis HT : tab_ok q n d (r_f D) T.
  Notation b := (nth i bas []).
  Notation m := (pole_of n d b).

  Lemma fnd_sum_ok k : kind_fine slv N b m P k -> coef_fits k m P ->
    exists F fact, fnd_sum slv N k T i P = OK (F, fact) /\ length F = length bas /\
      0 <= fact < q /\ cong q fact (zfact (p * (m + P - 1) - 1)) /\
      forall phi psi, GD q n d (r_f D) phi -> basis_val q n d bas phi psi ->
        cong q (ev_basis psi bas F) (frob_series phi n (r_f D) p m P b).
  Proof.
    intros Hk Hc. pose proof (ni_dr slv N ninv) as inv.
    destruct (coord_ok slv D inv Hslv Hn i Hi) as (b' & E1 & <- & Hm & Ht & Epo).
    destruct (compute_fpow_ok q n d (r_f D) Hq (wf_D slv D inv) (P - 1) T HT) as (T' & T1 & T2 & T3 & _).
    unfold fnd_sum, check. cbv zeta. replace (0 <? P) with true by (symmetry; apply Z.ltb_lt; lia). cbn [bind].
    rewrite E1. cbn [bind]. rewrite T1. cbn [bind]. rewrite Epo.
    assert (Hfl : P <= zlen T') by lia.
    assert (Hfk : forall j X, nth_error T' j = Some X -> forall u c, In (u, c) X -> is_tuple (S n) (d * Z.of_nat j) u).
    { intros j X Y. apply (proj2 T2 j X Y). }
    destruct (floop_ok slv N ninv Hslv Hp Hq Hn b m P Ht ltac:(lia) HP T' Hfl Hfk k (fnd_dj k m P) Hk
      (fun j Hj => fnd_dj_ok k m P j ltac:(lia) Hc Hj) (Z.to_nat (m + P - 1)) [] (repeat 0 (length bas)) (1 mod q))
      as (H' & F & fact & F1 & F2 & F3 & F4).
    - lia.
    - apply HokN_nil.
    - apply repeat_length.
    - rewrite Z2Nat.id by lia. apply fact_init; auto.
    - match goal with |- context [bind ?X _] => replace X with (OK (H', F, fact)) by (symmetry; exact F1) end.
      cbn [bind fst snd]. exists F, fact. split; auto. split; auto. destruct F3 as [F3 F3']. split; auto. split.
      { rewrite Z.mul_0_r, Z.max_l in F3' by lia. unfold zfact. replace (p * (m + P - 1) - 1 + 1) with (p * (m + P - 1)) by ring. exact F3'. }
      intros phi psi Hphi Hpsi. rewrite (F4 phi psi Hphi Hpsi).
      rewrite <- (tab_series_ok q n d (r_f D) T' phi p m P b T2 Hfl), <- (Tm_series D Hn b m P ltac:(lia) HP T' phi).
      rewrite Z2Nat.id by lia. replace (m + P - 1 + 1) with (m + P) by ring.
      destruct (Nat.eqb_spec (Z.to_nat (m + P - 1)) 0); [lia|]. unfold HvalN. rewrite sumf_nil.
      assert (Z0 : ev_basis psi bas (repeat 0 (length bas)) = 0).
      { unfold ev_basis. apply sumf_zero. intros c _. rewrite nth_repeat_any. destruct (Nat.ltb c _); ring. }
      rewrite Z0. apply cong_of_eq. ring.
  Qed.
End Top.

(** the division at the end *)
Lemma val_unique p v u v' u' : 2 <= p -> 0 <= v -> 0 <= v' -> p ^ v * u = p ^ v' * u' -> ~ (p | u) -> ~ (p | u') -> v = v' /\ u = u'.
Proof.
  intros Hp Hv Hv' Ex Hu Hu'.
  assert (W : forall a b x y, 0 <= a -> 0 <= b -> p ^ a * x = p ^ b * y -> ~ (p | y) -> a <= b).
  { intros a c x y Ha Hc Q Hy. destruct (Z.le_gt_cases a c) as [|L]; auto. exfalso. apply Hy.
    replace a with (c + (1 + (a - c - 1))) in Q by ring. rewrite Z.pow_add_r, Z.pow_add_r, Z.pow_1_r in Q by lia.
    pose proof (Z.pow_pos_nonneg p c ltac:(lia) Hc). exists (p ^ (a - c - 1) * x). apply (Z.mul_reg_l _ _ (p ^ c)); [lia|]. rewrite <- Q. ring. }
  assert (v = v').
  { pose proof (W v v' u u' Hv Hv' Ex Hu'). pose proof (W v' v u' u Hv' Hv (eq_sym Ex) Hu). lia. }
  subst v'. split; auto. pose proof (Z.pow_pos_nonneg p v ltac:(lia) Hv). apply (Z.mul_reg_l _ _ (p ^ v)); [lia|exact Ex].
Qed.

Lemma fnd_finish_eq k q p n P F : prime p -> 2 <= q -> 1 <= P ->
  fnd_finish k q p n P F = frob_finish q p n P F (factorial q (P - 1) 1).
Proof.
  intros Hp Hq HP. assert (Hp2 : 2 <= p) by (destruct Hp; lia).
  assert (A : forall l, fnd_finish (KZZ l) q p n P F = frob_finish q p n P F (factorial q (P - 1) 1)).
  { intros l. cbn [fnd_finish]. unfold frob_finish, fnd_divide. rewrite Z.eqb_refl. reflexivity. }
  destruct k as [l|l|]; [apply A|apply (A l)|]. rewrite <- (A 0%nat). cbn [fnd_finish].
  destruct (vof_exact p (P - 1) Hp ltac:(lia)) as (v & V1 & V2 & V3 & V4).
  destruct V3 as [u Hu]. pose proof (Z.pow_pos_nonneg p v ltac:(lia) V2) as Hpv.
  assert (Hpu : ~ (p | u)).
  { intros [w Hw]. apply V4. exists w. rewrite Z.pow_add_r, Z.pow_1_r by lia. rewrite Hu, Hw. ring. }
  destruct (factorial_p_adic_ok q (P - 1) p 1 (S (Z.to_nat (Z.log2 (P - 1)))) Hp2 ltac:(lia)) as (v' & u' & r & R1 & R2 & R3 & R4 & R5 & R6).
  { split; [lia|]. destruct (Z.eq_dec (P - 1) 0) as [E0|E0].
    - rewrite E0. apply Z.pow_pos_nonneg; lia.
    - rewrite Nat2Z.inj_succ, Z2Nat.id by apply Z.log2_nonneg. apply Z.log2_spec. lia. }
  specialize (R6 Hp). unfold zfact in Hu. rewrite R3 in Hu.
  destruct (val_unique p v' u' v u Hp2 R2 V2 ltac:(lia) R6 Hpu) as [-> ->].
  rewrite R1, V1. cbn [bind fst snd]. rewrite factorial_ZZ.
  assert (Hu2 : zprod (zseq 1 (P - 1 + 1)) = u * p ^ v) by lia.
  unfold zfact. rewrite Hu2, Z.mod_mul, Z.div_mul by lia. cbn [check bind Z.eqb].
  replace (u mod q) with r; [reflexivity|]. apply cong_iff_mod in R4; [|lia]. congruence.
Qed.

Lemma fnd_finish_ok k p e n P F : prime p -> 1 <= e -> 1 <= n -> 1 <= P ->
  let q := p ^ e in
  exists v u, 0 <= v /\ zfact (P - 1) = p ^ v * u /\ ~ (p | u) /\
  (v <= n - 1 -> exists R, fnd_finish k q p n P F = OK R /\ length R = length F /\
     forall i, (i < length F)%nat -> 0 <= nth i R 0 < q /\ cong q (u * nth i R 0) (p ^ (n - 1 - v) * nth i F 0)) /\
  (n - 1 < v ->
     (exists R, fnd_finish k q p n P F = OK R /\ length R = length F /\
        forall i, (i < length F)%nat -> 0 <= nth i R 0 < q /\ cong q (u * (p ^ (v - (n - 1)) * nth i R 0)) (nth i F 0)) \/
     (fnd_finish k q p n P F = Err EAssert /\
        exists i, (i < length F)%nat /\ forall y, ~ cong q (p ^ (v - (n - 1)) * y) (nth i F 0))).
Proof.
  intros Hp He Hn HP q. assert (Hp2 : 2 <= p) by (destruct Hp; lia).
  assert (Hq : 2 <= q).
  { unfold q. replace e with (1 + (e - 1)) by lia. rewrite Z.pow_add_r, Z.pow_1_r by lia.
    pose proof (Z.pow_pos_nonneg p (e - 1) ltac:(lia) ltac:(lia)). nia. }
  rewrite (fnd_finish_eq k q p n P F Hp Hq HP). apply finish_ok; auto.
  - now apply factorial_range.
  - unfold zfact. apply factorial_cong.
Qed.

Lemma init_ND_p slv q p prec f N : init_ND slv q p prec f = OK N -> r_p (nd_dr N) = p.
Proof.
  unfold init_ND. intros H. apply bind_ok in H. destruct H as (D & E1 & H).
  do 4 (apply bind_ok in H; destruct H as (? & _ & H)). injection H as <-. exact (init_p _ _ _ _ _ _ E1).
Qed.
