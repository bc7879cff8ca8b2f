(** IEEE 754 double precision with rounding to nearest, ties to even, and a correctly
    rounded logarithm, meets the specification of FlSpec. *)
From Coq Require Import ZArith Bool Lia Reals Lra Psatz.
From Flocq Require Import Core Relative.
From Verif Require Import Base FlModel FlSpec FlProofs.
Open Scope R_scope.

(** rounding of a real number to a double (gradual underflow, no overflow) *)
Definition rnd64 (x : R) : R := round radix2 (FLT_exp (-1074) 53) (Znearest (fun n => negb (Z.even n))) x.
(** the argument of log is converted to double first *)
Definition ieee_arith : arith :=
  mk_arith (fun x => rnd64 (ln (rnd64 (IZR x)))) (fun x y => rnd64 (x + y)) (fun x y => rnd64 (x * y)) (fun x y => rnd64 (x / y))
    (fun x y => if Rgt_dec x y then true else false).

Definition half_ulp : R := / 9007199254740992.
Lemma rnd64_err x : x = 0 \/ / 1024 <= x -> Rabs (rnd64 x - x) <= half_ulp * x.
Proof.
  intros [->|Hx].
  - unfold rnd64. rewrite round_0 by (apply valid_rnd_N). rewrite Rminus_0_r, Rabs_R0. lra.
  - pose proof (relative_error_N_FLT radix2 (-1074) 53 ltac:(lia) (fun n => negb (Z.even n)) x) as H.
    rewrite (Rabs_right x) in H by lra. unfold rnd64.
    assert (B : bpow radix2 (-1074 + 53 - 1) <= x).
    { apply Rle_trans with (bpow radix2 (-10)); [apply bpow_le; lia|]. replace (bpow radix2 (-10)) with (/ 1024) by (cbn; lra). exact Hx. }
    specialize (H B). replace (/ 2 * bpow radix2 (- (53) + 1)) with half_ulp in H by (unfold half_ulp; cbn; lra). exact H.
Qed.

Lemma ieee_log x : (1 <= x)%Z -> Rabs (rnd64 (ln (rnd64 (IZR x))) - ln (IZR x)) <= ulp * ln (IZR x).
Proof.
  assert (U : half_ulp * 8 = ulp) by (unfold half_ulp, ulp; lra). assert (U0 : 0 < half_ulp) by (unfold half_ulp; lra). assert (U1 : half_ulp <= / 1000) by (unfold half_ulp; lra).
  intros Hx. destruct (Z.eq_dec x 1) as [->|N].
  { assert (E : rnd64 1 = 1).
    { unfold rnd64. apply round_generic; [apply valid_rnd_N|]. apply generic_format_FLT. exists (Float radix2 1 0); [unfold F2R; simpl; lra|simpl; lia|simpl; lia]. }
    rewrite E, ln_1. unfold rnd64. rewrite round_0 by (apply valid_rnd_N). rewrite Rminus_0_r, Rabs_R0. lra. }
  assert (X : 2 <= IZR x) by (apply IZR_le; lia). pose proof (rnd64_err (IZR x) ltac:(right; lra)) as E1. apply of_abs in E1. unfold near in E1.
  set (r := rnd64 (IZR x)) in *. assert (R0 : 0 < r) by nra. pose proof ln2_bounds as (L1 & L2).
  assert (LX : / 2 < ln (IZR x)) by (eapply Rlt_le_trans; [exact L1|apply ln_mono; lra]).
  (* |ln r - ln x| <= 2 half_ulp *)
  assert (D1 : ln r - ln (IZR x) <= half_ulp).
  { pose proof (ln_diff (IZR x) r R0 ltac:(lra)) as H. assert (- half_ulp <= (IZR x - r) / IZR x); [|lra].
    apply (Rmult_le_reg_r (IZR x)); [lra|]. replace ((IZR x - r) / IZR x * IZR x) with (IZR x - r) by (field; lra). lra. }
  assert (D2 : - (2 * half_ulp) <= ln r - ln (IZR x)).
  { pose proof (ln_diff r (IZR x) ltac:(lra) R0) as H. assert (- (2 * half_ulp) <= (r - IZR x) / r); [|lra].
    apply (Rmult_le_reg_r r); [lra|]. replace ((r - IZR x) / r * r) with (r - IZR x) by (field; lra). nra. }
  pose proof (rnd64_err (ln r) ltac:(right; lra)) as E2. apply of_abs in E2. unfold near in E2. set (y := rnd64 (ln r)) in *.
  apply Rabs_le. rewrite <- U. split; nra.
Qed.

Theorem ieee_double_like : double_like ieee_arith.
Proof.
  assert (U : half_ulp * 8 = ulp) by (unfold half_ulp, ulp; lra). assert (U0 : 0 < half_ulp) by (unfold half_ulp; lra). assert (U1 : half_ulp <= / 1000) by (unfold half_ulp; lra).
  assert (G : forall z, moderate z -> Rabs (rnd64 z - z) <= ulp * z).
  { intros z [->|Hz]; [eapply Rle_trans; [apply rnd64_err; now left|lra]|].
    eapply Rle_trans; [apply rnd64_err; right; lra|]. rewrite <- U. nra. }
  split; cbn [ieee_arith a_log a_add a_mul a_div a_gt]; auto; [|intros x y; destruct (Rgt_dec x y); split; auto; try discriminate; try contradiction].
  intros x Hx. apply ieee_log. lia.
Qed.
