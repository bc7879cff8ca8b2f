(** IEEE double meets the specification of the loop condition of geometric_picard. *)
From Coq Require Import ZArith QArith Qreals Bool Lia Reals Lra Psatz.
From Flocq Require Import Core Relative.
From Verif Require Import Base FlModel FlSpec FlProofs FlIeee PicardSpec.
Open Scope R_scope.

(** a double is a rational number *)
Definition q_of (m e : Z) : Q := (if (0 <=? e)%Z then inject_Z (m * 2 ^ e) else inject_Z m / inject_Z (2 ^ (- e)))%Q.
Lemma bpow_IZR e : (0 <= e)%Z -> bpow radix2 e = IZR (2 ^ e).
Proof. intros H. rewrite <- IZR_Zpower by exact H. reflexivity. Qed.
Lemma Q2R_inject z : Q2R (inject_Z z) = IZR z.
Proof. unfold Q2R, inject_Z. cbn [Qnum Qden]. field. Qed.
Lemma q_of_ok m e : Q2R (q_of m e) = F2R (Float radix2 m e).
Proof.
  unfold q_of, F2R. cbn [Fnum Fexp]. destruct (Z.leb_spec 0 e) as [H|H].
  - rewrite Q2R_inject, mult_IZR, bpow_IZR by exact H. reflexivity.
  - assert (P : (0 < 2 ^ (- e))%Z) by (apply Z.pow_pos_nonneg; lia).
    rewrite Q2R_div, !Q2R_inject. 2:{ intros E. unfold Qeq, inject_Z in E. cbn in E. lia. }
    replace e with (- (- e))%Z at 2 by ring. rewrite bpow_opp, bpow_IZR by lia. reflexivity.
Qed.
Definition rnd64_Q (x : R) : Q := q_of (Znearest (fun n => negb (Z.even n)) (scaled_mantissa radix2 (FLT_exp (-1074) 53) x)) (cexp radix2 (FLT_exp (-1074) 53) x).
Lemma rnd64_Q_ok x : Q2R (rnd64_Q x) = rnd64 x.
Proof. unfold rnd64_Q. rewrite q_of_ok. reflexivity. Qed.
(** the double of the loop condition as a rational number *)
Definition x_ieee (k : Z) : Q := rnd64_Q (IZR k / rnd64 (rnd64 (rnd64 (ln (rnd64 (IZR k))) / rnd64 (ln (rnd64 2))) + 1)).
Lemma x_ieee_ok k : Q2R (x_ieee k) = fl_bound ieee_arith k.
Proof. unfold x_ieee. rewrite rnd64_Q_ok. reflexivity. Qed.

Lemma rnd64_int n : (0 <= n <= 2)%Z -> rnd64 (IZR n) = IZR n.
Proof.
  intros H. unfold rnd64. apply round_generic; [apply valid_rnd_N|]. apply generic_format_FLT. exists (Float radix2 n 0); [unfold F2R; simpl; ring|simpl; lia|simpl; lia].
Qed.
Lemma rnd64_near a x e : 0 <= x -> 0 <= e <= / 2 -> near a x e -> a = 0 \/ / 1024 <= a -> near (rnd64 a) x (e + 2 * ulp).
Proof.
  intros Hx He N Ha. eapply near_rnd; eauto. eapply Rle_trans; [apply rnd64_err; exact Ha|].
  assert (half_ulp <= ulp) by (unfold half_ulp, ulp; lra). assert (0 <= a) by (destruct Ha; lra). nra.
Qed.
Lemma log_near k : (1 <= k)%Z -> near (rnd64 (ln (rnd64 (IZR k)))) (ln (IZR k)) ulp.
Proof. intros H. apply of_abs. exact (ieee_log k H). Qed.

(** the value with its relative error *)
Lemma bound_near k : (3 <= k)%Z -> near (fl_bound ieee_arith k) (IZR k * ln 2 / ln (IZR (2 * k))) (16 * ulp).
Proof.
  intros Hk. pose proof ulp_small as (U0 & U1). pose proof ln2_bounds as (L1 & L2).
  assert (K : 3 <= IZR k) by (now apply IZR_le). assert (LK : ln 2 <= ln (IZR k)) by (apply ln_mono; lra).
  set (q := ln (IZR k) / ln 2). assert (Q1 : 1 <= q).
  { unfold q. apply (Rmult_le_reg_r (ln 2)); [lra|]. replace (ln (IZR k) / ln 2 * ln 2) with (ln (IZR k)) by (field; lra). lra. }
  unfold fl_bound. cbn [ieee_arith a_log a_add a_div].
  pose proof (log_near k ltac:(lia)) as N1. pose proof (log_near 2 ltac:(lia)) as N2.
  assert (N3 : near (rnd64 (ln (rnd64 (IZR k))) / rnd64 (ln (rnd64 2))) q (3 * ulp)) by (apply near_div; [lra|lra|exact N1|exact N2]).
  set (a1 := _ / _) in N3 |- *. assert (A1 : / 1024 <= a1) by (unfold near in N3; nra).
  pose proof (rnd64_near a1 q (3 * ulp) ltac:(lra) ltac:(lra) N3 ltac:(right; exact A1)) as N4.
  assert (N5 : near (rnd64 a1 + 1) (q + 1) (5 * ulp)).
  { apply near_add; [apply (near_wide _ _ (3 * ulp + 2 * ulp)); [lra|lra|exact N4]|apply (near_wide _ _ 0); [lra|lra|apply near_0; lra]]. }
  set (a2 := rnd64 a1 + 1) in *. assert (A2 : / 1024 <= a2) by (unfold near in N5; nra).
  pose proof (rnd64_near a2 (q + 1) (5 * ulp) ltac:(lra) ltac:(lra) N5 ltac:(right; exact A2)) as N6. set (b := rnd64 a2) in *.
  assert (EV : IZR k * ln 2 / ln (IZR (2 * k)) = IZR k / (q + 1)).
  { rewrite mult_IZR, ln_mult by lra. unfold q. field. split; lra. }
  rewrite EV. set (v := IZR k / (q + 1)). assert (V0 : 0 < v) by (unfold v; apply Rdiv_lt_0_compat; lra).
  assert (EK : IZR k = v * (q + 1)) by (unfold v; field; lra).
  assert (LQ : q <= 2 * IZR k).
  { unfold q. pose proof (ln_le_sub (IZR k) ltac:(lra)). apply (Rmult_le_reg_r (ln 2)); [lra|]. replace (ln (IZR k) / ln 2 * ln 2) with (ln (IZR k)) by (field; lra). nra. }
  assert (V1 : / 4 <= v). { unfold v. apply (Rmult_le_reg_r (q + 1)); [lra|]. replace (IZR k / (q + 1) * (q + 1)) with (IZR k) by (field; lra). lra. }
  unfold near in N6. assert (B0 : 0 < b) by nra.
  assert (N7 : near (IZR k / b) v (12 * ulp)).
  { rewrite EK. assert (W : 0 <= v * (q + 1)) by (rewrite <- EK; lra). split.
    - apply (Rmult_le_reg_r b); [lra|]. replace (v * (q + 1) / b * b) with (v * (q + 1)) by (field; lra).
      apply Rle_trans with ((1 - 12 * ulp) * v * ((1 + 7 * ulp) * (q + 1))); [apply Rmult_le_compat_l; [apply Rmult_le_pos; lra|lra]|].
      replace ((1 - 12 * ulp) * v * ((1 + 7 * ulp) * (q + 1))) with ((1 - 5 * ulp - 84 * (ulp * ulp)) * (v * (q + 1))) by ring.
      assert (0 <= ulp * ulp) by nra. rewrite <- (Rmult_1_l (v * (q + 1))) at 2. apply Rmult_le_compat_r; lra.
    - apply (Rmult_le_reg_r b); [lra|]. replace (v * (q + 1) / b * b) with (v * (q + 1)) by (field; lra).
      apply Rle_trans with ((1 + 12 * ulp) * v * ((1 - 7 * ulp) * (q + 1))); [|apply Rmult_le_compat_l; [apply Rmult_le_pos; lra|lra]].
      replace ((1 + 12 * ulp) * v * ((1 - 7 * ulp) * (q + 1))) with ((1 + 5 * ulp - 84 * (ulp * ulp)) * (v * (q + 1))) by ring.
      assert (84 * (ulp * ulp) <= 5 * ulp) by nra. rewrite <- (Rmult_1_l (v * (q + 1))) at 1. apply Rmult_le_compat_r; lra. }
  assert (A3 : / 1024 <= IZR k / b) by (unfold near in N7; nra).
  pose proof (rnd64_near (IZR k / b) v (12 * ulp) ltac:(lra) ltac:(lra) N7 ltac:(right; exact A3)) as N8.
  apply (near_wide _ _ (12 * ulp + 2 * ulp)); [lra|lra|exact N8].
Qed.

Theorem x_ieee_double_ok : double_ok x_ieee.
Proof.
  pose proof ulp_small as (U0 & U1). pose proof ln2_bounds as (L1 & L2).
  assert (LN : forall a e, (1 < a)%Z -> (0 <= e)%Z -> ln (IZR (a ^ e)) = IZR e * ln (IZR a)) by (intros; apply pow_ln; lia).
  split.
  - apply eqR_Qeq. rewrite x_ieee_ok. unfold fl_bound. cbn [ieee_arith a_log a_add a_div]. rewrite (rnd64_int 1), ln_1, (rnd64_int 0) by lia.
    replace (0 / rnd64 (ln (rnd64 2))) with (IZR 0) by (unfold Rdiv; ring). rewrite (rnd64_int 0) by lia. replace (0 + 1) with (IZR 1) by ring. rewrite (rnd64_int 1) by lia.
    replace (1 / 1) with (IZR 1) by field. rewrite (rnd64_int 1) by lia. unfold Q2R. cbn. field.
  - apply eqR_Qeq. rewrite x_ieee_ok. unfold fl_bound. cbn [ieee_arith a_log a_add a_div].
    pose proof (log_near 2 ltac:(lia)) as N2. unfold near in N2. set (l := rnd64 (ln (rnd64 2))) in *. assert (0 < l) by nra.
    replace (l / l) with (IZR 1) by (field; lra). rewrite (rnd64_int 1) by lia. replace (1 + 1) with (IZR 2) by ring. rewrite (rnd64_int 2) by lia.
    replace (2 / 2) with (IZR 1) by field. rewrite (rnd64_int 1) by lia. unfold Q2R. cbn. field.
  - intros k c Hk Hc H. apply Rle_Qle. rewrite x_ieee_ok, Q2R_inject. pose proof (bound_near k Hk) as N. set (v := IZR k * ln 2 / ln (IZR (2 * k))) in *.
    assert (LK : 0 < ln (IZR (2 * k))) by (rewrite <- ln_1; apply ln_increasing; [lra|apply IZR_lt; lia]).
    assert (E : IZR (8 * k) * ln 2 <= IZR (7 * c) * ln (IZR (2 * k))).
    { rewrite <- !LN by lia. apply ln_mono; [apply IZR_lt, Z.pow_pos_nonneg; lia|now apply IZR_le]. }
    rewrite (mult_IZR 8 k), (mult_IZR 7 c) in E. assert (C : 1 <= IZR c) by (now apply IZR_le).
    assert (V : v <= 7 / 8 * IZR c).
    { apply (Rmult_le_reg_r (ln (IZR (2 * k)))); [lra|]. unfold v. replace (IZR k * ln 2 / ln (IZR (2 * k)) * ln (IZR (2 * k))) with (IZR k * ln 2) by (field; lra). lra. }
    unfold near in N. nra.
  - intros k c Hk Hc H. apply Rlt_Qlt. rewrite x_ieee_ok, Q2R_inject. pose proof (bound_near k Hk) as N. set (v := IZR k * ln 2 / ln (IZR (2 * k))) in *.
    assert (LK : 0 < ln (IZR (2 * k))) by (rewrite <- ln_1; apply ln_increasing; [lra|apply IZR_lt; lia]).
    assert (E : IZR (8 * c) * ln (IZR (2 * k)) < IZR (7 * k) * ln 2).
    { rewrite <- !LN by lia. apply ln_increasing; [apply IZR_lt, Z.pow_pos_nonneg; lia|now apply IZR_lt]. }
    rewrite (mult_IZR 8 c), (mult_IZR 7 k) in E. assert (C : 0 <= IZR c) by (now apply IZR_le).
    assert (V : 8 / 7 * IZR c < v).
    { apply (Rmult_lt_reg_r (ln (IZR (2 * k)))); [lra|]. unfold v. replace (IZR k * ln 2 / ln (IZR (2 * k)) * ln (IZR (2 * k))) with (IZR k * ln 2) by (field; lra). lra. }
    unfold near in N. nra.
Qed.
