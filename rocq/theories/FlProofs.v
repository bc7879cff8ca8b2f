(** The floating point test decides the exact inequality. *)
From Coq Require Import ZArith List Bool Lia Reals Lra Psatz.
From Verif Require Import Base VecModel MatModel MatProofs CharModel CharSpec CharProofs ExpProofs FlModel FlSpec.
Import ListNotations.
Open Scope R_scope.

Definition near (a x e : R) : Prop := (1 - e) * x <= a <= (1 + e) * x.

Lemma ulp_small : 0 < ulp /\ ulp <= / 1000000000000000.
Proof. unfold ulp. split; lra. Qed.

Lemma of_abs a x e : Rabs (a - x) <= e * x -> near a x e.
Proof. unfold near, Rabs. destruct (Rcase_abs (a - x)); intros; split; lra. Qed.
Lemma near_0 x : 0 <= x -> near x x 0.
Proof. unfold near. intros. lra. Qed.
Lemma near_wide a x e e' : 0 <= x -> e <= e' -> near a x e -> near a x e'.
Proof. unfold near. intros Hx He (H1 & H2). split; nra. Qed.
Lemma near_div a b x y : 0 <= x -> 0 < y -> near a x ulp -> near b y ulp -> near (a / b) (x / y) (3 * ulp).
Proof.
  unfold near. pose proof ulp_small as (U0 & U1). intros Hx Hy (A1 & A2) (B1 & B2).
  assert (Hb : 0 < b) by nra. set (t := x / y). assert (Ht : 0 <= t) by (unfold t; apply Rmult_le_pos; [lra|left; now apply Rinv_0_lt_compat]).
  assert (Ex : x = t * y) by (unfold t; field; lra). rewrite Ex in A1, A2.
  assert (T : 0 <= t * y) by (rewrite <- Ex; lra). assert (UU : 0 <= ulp * ulp) by nra.
  split.
  - apply (Rmult_le_reg_r b); [lra|]. replace (a / b * b) with a by (field; lra).
    apply Rle_trans with ((1 - 3 * ulp) * t * ((1 + ulp) * y)); [apply Rmult_le_compat_l; [apply Rmult_le_pos; lra|lra]|].
    replace ((1 - 3 * ulp) * t * ((1 + ulp) * y)) with ((1 - 2 * ulp - 3 * (ulp * ulp)) * (t * y)) by ring.
    apply Rle_trans with ((1 - ulp) * (t * y)); [apply Rmult_le_compat_r; lra|lra].
  - apply (Rmult_le_reg_r b); [lra|]. replace (a / b * b) with a by (field; lra).
    apply Rle_trans with ((1 + 3 * ulp) * t * ((1 - ulp) * y)); [|apply Rmult_le_compat_l; [apply Rmult_le_pos; lra|lra]].
    replace ((1 + 3 * ulp) * t * ((1 - ulp) * y)) with ((1 + 2 * ulp - 3 * (ulp * ulp)) * (t * y)) by ring.
    apply Rle_trans with ((1 + ulp) * (t * y)); [lra|]. apply Rmult_le_compat_r; [lra|]. nra.
Qed.
Lemma near_rnd r a x e : 0 <= x -> 0 <= e <= / 2 -> near a x e -> Rabs (r - a) <= ulp * a -> near r x (e + 2 * ulp).
Proof.
  intros Hx He A12 H. apply of_abs in H. unfold near in *. destruct A12 as (A1 & A2). pose proof ulp_small as (U0 & U1).
  assert (Q : 0 <= ulp * x) by nra. assert (Q2 : 0 <= ulp * x * e) by nra. assert (Q3 : ulp * x * e <= ulp * x) by nra. split; nra.
Qed.
Lemma near_add a b x y e : near a x e -> near b y e -> near (a + b) (x + y) e.
Proof. unfold near. intros. lra. Qed.
Lemma near_scale a x e c : 0 <= c -> near a x e -> near (a * c) (x * c) e.
Proof. unfold near. intros Hc (H1 & H2). split; nra. Qed.
Lemma near_moderate a x e : 0 <= e <= / 100 -> x = 0 \/ / 100 <= x -> x <= 500000 -> near a x e -> moderate a.
Proof.
  unfold near, moderate. intros He [->|Hx] Hu (H1 & H2); [left; lra|right]. split; nra.
Qed.

(** ** the logarithm *)
Lemma ln_le_sub x : 0 < x -> ln x <= x - 1.
Proof.
  intros Hx. destruct (Req_dec x 1) as [->|N]; [rewrite ln_1; lra|].
  pose proof (exp_ineq1 (x - 1) ltac:(lra)) as E. left. rewrite <- (ln_exp (x - 1)). apply ln_increasing; lra.
Qed.
(** ln a - ln b >= (a - b) / a *)
Lemma ln_diff a b : 0 < b -> 0 < a -> (a - b) / a <= ln a - ln b.
Proof.
  intros Hb Ha. assert (E : ln (b / a) = ln b - ln a).
  { unfold Rdiv. rewrite ln_mult, ln_Rinv by (auto; now apply Rinv_0_lt_compat). ring. }
  pose proof (ln_le_sub (b / a) ltac:(apply Rdiv_lt_0_compat; lra)) as L. rewrite E in L.
  replace ((a - b) / a) with (1 - b / a) by (field; lra). lra.
Qed.
Lemma ln2_bounds : / 2 < ln 2 < 1.
Proof.
  split; [exact ln_lt_2|]. pose proof (ln_increasing 2 (exp 1) ltac:(lra)) as H. rewrite ln_exp in H. apply H. pose proof (exp_ineq1 1 ltac:(lra)). lra.
Qed.
Lemma ln_mono x y : 0 < x -> x <= y -> ln x <= ln y.
Proof. intros Hx [H| ->]; [left; now apply ln_increasing|right; reflexivity]. Qed.
Lemma ln_int_pos x : (1 <= x)%Z -> 0 <= ln (IZR x).
Proof. intros H. rewrite <- ln_1. apply ln_mono; [lra|]. now apply IZR_le. Qed.
Lemma ln_p_bounds p : (2 <= p < 2 ^ 63)%Z -> ln 2 <= ln (IZR p) <= 63 * ln 2.
Proof.
  intros (H1 & H2). split; [apply ln_mono; [lra|now apply IZR_le]|].
  replace (63 * ln 2) with (ln (IZR (2 ^ 63))); [apply ln_mono; [apply IZR_lt; lia|apply IZR_le; lia]|].
  change (2 ^ 63)%Z with (2 ^ Z.of_nat 63)%Z. rewrite <- pow_IZR, ln_pow by lra. f_equal. rewrite INR_IZR_INZ. reflexivity.
Qed.

(** the quotient log(x)/log(p) *)
Lemma quot A p x : double_like A -> (2 <= p < 2 ^ 63)%Z -> (1 <= x <= 2048)%Z ->
  let q := ln (IZR x) / ln (IZR p) in
  (q = 0 \/ / 63 <= q) /\ 0 <= q <= 2 * IZR x /\ near (a_div A (a_log A x) (a_log A p)) q (5 * ulp).
Proof.
  intros DA Hp Hx q. pose proof ulp_small as (U0 & U1). pose proof ln2_bounds as (L1 & L2). pose proof (ln_p_bounds p Hp) as (P1 & P2).
  assert (Lx : 0 <= ln (IZR x)) by (apply ln_int_pos; lia). assert (Lp : 0 < ln (IZR p)) by lra.
  assert (X1 : 1 <= IZR x) by (apply IZR_le; lia). assert (X2 : IZR x <= 2048) by (apply IZR_le; lia).
  assert (Eq : ln (IZR x) = q * ln (IZR p)) by (unfold q; field; lra).
  assert (Q0 : 0 <= q) by (unfold q; apply Rmult_le_pos; [lra|left; now apply Rinv_0_lt_compat]).
  assert (Q1 : q = 0 \/ / 63 <= q).
  { destruct (Z.eq_dec x 1) as [->|N]; [left; unfold q; rewrite ln_1; unfold Rdiv; ring|right].
    assert (ln 2 <= ln (IZR x)) by (apply ln_mono; [lra|apply IZR_le; lia]). apply (Rmult_le_reg_r (ln (IZR p))); [lra|]. rewrite <- Eq. lra. }
  assert (Q2 : q <= 2 * IZR x).
  { pose proof (ln_le_sub (IZR x) ltac:(lra)). apply (Rmult_le_reg_r (ln (IZR p))); [lra|]. rewrite <- Eq. nra. }
  split; [exact Q1|]. split; [lra|].
  assert (N0 : near (a_log A x / a_log A p) q (3 * ulp)).
  { apply near_div; auto; apply of_abs; apply (dl_log A DA); lia. }
  replace (5 * ulp) with (3 * ulp + 2 * ulp) by ring. eapply near_rnd; [exact Q0|lra|exact N0|].
  apply (dl_div A DA). eapply near_moderate; [|  |  |exact N0]; [lra| |lra]. destruct Q1; [left; lra|right; lra].
Qed.

(** both sides of the test *)
Lemma left_near A p k pr : double_like A -> (2 <= p < 2 ^ 63)%Z -> (1 <= k <= 1024)%nat -> (0 <= pr <= 1024)%Z ->
  let a := ln (INR k) / ln (IZR p) + IZR pr in
  0 <= a <= 3072 /\ near (a_add A (a_div A (a_log A (Z.of_nat k)) (a_log A p)) (IZR pr)) a (7 * ulp).
Proof.
  intros DA Hp Hk Hr a. pose proof ulp_small as (U0 & U1).
  destruct (quot A p (Z.of_nat k) DA Hp ltac:(lia)) as (Q1 & Q2 & Q3). rewrite <- INR_IZR_INZ in Q1, Q2, Q3. cbv zeta in Q1, Q2, Q3.
  assert (K2 : INR k <= 1024) by (rewrite INR_IZR_INZ; apply IZR_le; lia).
  assert (R1 : 0 <= IZR pr) by (apply IZR_le; lia). assert (R2 : IZR pr <= 1024) by (apply IZR_le; lia).
  assert (R3 : IZR pr = 0 \/ 1 <= IZR pr) by (destruct (Z.eq_dec pr 0) as [->|]; [left; reflexivity|right; apply IZR_le; lia]).
  split; [unfold a; lra|]. set (d := a_div A _ _) in *.
  assert (N0 : near (d + IZR pr) a (5 * ulp)).
  { apply near_add; [exact Q3|]. apply (near_wide _ _ 0); [lra|lra|now apply near_0]. }
  replace (7 * ulp) with (5 * ulp + 2 * ulp) by ring. eapply near_rnd; [unfold a; lra|lra|exact N0|].
  apply (dl_add A DA). eapply near_moderate; [| | |exact N0]; [lra| |unfold a; lra]. unfold a. destruct Q1, R3; [left|right|right|right]; lra.
Qed.

Lemma right_near A p degree dim k : double_like A -> (2 <= p < 2 ^ 63)%Z -> (1 <= k <= degree)%nat -> (degree <= 1024)%nat -> (dim * k <= 2048)%nat ->
  let b := ln (2 * INR degree) / ln (IZR p) + INR dim * INR k / 2 in
  0 <= b <= 5120 /\ near (a_add A (a_div A (a_log A (2 * Z.of_nat degree)) (a_log A p)) (a_mul A (a_mul A (/ 2) (IZR (Z.of_nat dim))) (IZR (Z.of_nat k)))) b (7 * ulp).
Proof.
  intros DA Hp Hk Hd Hm b. pose proof ulp_small as (U0 & U1).
  destruct (quot A p (2 * Z.of_nat degree) DA Hp ltac:(lia)) as (Q1 & Q2 & Q3). cbv zeta in Q1, Q2, Q3.
  rewrite mult_IZR, <- INR_IZR_INZ in Q1, Q2, Q3. rewrite <- !INR_IZR_INZ.
  assert (D2 : INR degree <= 1024) by (rewrite INR_IZR_INZ; apply IZR_le; lia).
  assert (K1 : 1 <= INR k) by (rewrite INR_IZR_INZ; apply IZR_le; lia).
  assert (M0 : 0 <= INR dim) by apply pos_INR.
  assert (M1 : INR dim * INR k <= 2048) by (rewrite <- mult_INR, INR_IZR_INZ; apply IZR_le; lia).
  assert (M2 : INR dim = 0 \/ 1 <= INR dim) by (destruct dim; [left; reflexivity|right; rewrite INR_IZR_INZ; apply IZR_le; lia]).
  assert (M3 : INR dim <= INR dim * INR k) by nra. assert (M4 : 0 <= INR dim * INR k) by nra.
  split; [unfold b; lra|]. set (d := a_div A _ _) in *.
  assert (N1 : near (a_mul A (/ 2) (INR dim)) (/ 2 * INR dim) (2 * ulp)).
  { replace (2 * ulp) with (0 + 2 * ulp) by ring. eapply near_rnd; [nra|lra|apply near_0; nra|].
    apply (dl_mul A DA). destruct M2; [left; nra|right; nra]. }
  set (m1 := a_mul A (/ 2) (INR dim)) in *.
  assert (N2 : near (m1 * INR k) (/ 2 * INR dim * INR k) (2 * ulp)) by (apply near_scale; [lra|exact N1]).
  assert (N3 : near (a_mul A m1 (INR k)) (/ 2 * INR dim * INR k) (4 * ulp)).
  { replace (4 * ulp) with (2 * ulp + 2 * ulp) by ring. eapply near_rnd; [nra|lra|exact N2|].
    apply (dl_mul A DA). eapply near_moderate; [| | |exact N2]; [lra| |nra]. destruct M2 as [E|]; [left; rewrite E; ring|right; nra]. }
  assert (N4 : near (d + a_mul A m1 (INR k)) b (5 * ulp)).
  { unfold b. replace (INR dim * INR k / 2) with (/ 2 * INR dim * INR k) by field. apply near_add; [exact Q3|]. apply (near_wide _ _ (4 * ulp)); [nra|lra|exact N3]. }
  replace (7 * ulp) with (5 * ulp + 2 * ulp) by ring. eapply near_rnd; [unfold b; lra|lra|exact N4|].
  apply (dl_add A DA). eapply near_moderate; [| | |exact N4]; [lra| |unfold b; lra]. unfold b. destruct Q1 as [Q1|Q1]; [|right; lra].
  destruct M2 as [E|]; [left; rewrite Q1, E; lra|right; rewrite Q1; lra].
Qed.

(** ** the distance of the two sides *)
Lemma sides_apart degree dim k p pr : (2 <= p)%Z -> (1 <= k <= degree)%nat -> (0 <= pr)%Z ->
  let X := left_side k p pr in let Y := right_side degree dim k p in
  X <> Y -> (p ^ (Z.of_nat dim * Z.of_nat k) <= Z.abs (X - Y))%Z.
Proof.
  intros Hp Hk Hr X Y N. unfold X, Y, left_side, right_side in *. set (c := (Z.of_nat dim * Z.of_nat k)%Z) in *. assert (C0 : (0 <= c)%Z) by (unfold c; lia).
  assert (P0 : (0 < p ^ c)%Z) by (apply Z.pow_pos_nonneg; lia).
  destruct (Z.le_gt_cases c (2 * pr)) as [H|H].
  - replace (2 * pr)%Z with (c + (2 * pr - c))%Z in * by ring. rewrite Z.pow_add_r in * by lia. set (P := (p ^ c)%Z) in *. set (E := (p ^ (2 * pr - c))%Z) in *.
    replace (Z.of_nat k ^ 2 * (P * E) - 4 * Z.of_nat degree ^ 2 * P)%Z with ((Z.of_nat k ^ 2 * E - 4 * Z.of_nat degree ^ 2) * P)%Z by ring.
    rewrite Z.abs_mul, (Z.abs_eq P) by lia. assert (Z.of_nat k ^ 2 * E - 4 * Z.of_nat degree ^ 2 <> 0)%Z by (intros G; apply N; nia). nia.
  - assert (L : (p ^ (2 * pr) <= p ^ c)%Z) by (apply Z.pow_le_mono_r; lia). assert (L0 : (0 < p ^ (2 * pr))%Z) by (apply Z.pow_pos_nonneg; lia).
    assert (K : (Z.of_nat k ^ 2 <= Z.of_nat degree ^ 2)%Z) by (apply Z.pow_le_mono_l; lia). assert (K1 : (1 <= Z.of_nat degree ^ 2)%Z) by nia.
    assert (K0 : (0 <= Z.of_nat k ^ 2)%Z) by nia. set (P := (p ^ c)%Z) in *. set (Q := (p ^ (2 * pr))%Z) in *. set (a := (Z.of_nat k ^ 2)%Z) in *. set (b := (Z.of_nat degree ^ 2)%Z) in *.
    assert (a * Q <= b * P)%Z by nia. nia.
Qed.

Lemma pow_ln p e : (2 <= p)%Z -> (0 <= e)%Z -> ln (IZR (p ^ e)) = IZR e * ln (IZR p).
Proof.
  intros Hp He. rewrite <- (Z2Nat.id e) at 1 by lia. rewrite <- pow_IZR, ln_pow by (apply IZR_lt; lia). rewrite INR_IZR_INZ, Z2Nat.id by lia. reflexivity.
Qed.

Lemma sides_ln degree dim k p pr : (2 <= p)%Z -> (1 <= k <= degree)%nat -> (0 <= pr)%Z ->
  let a := ln (INR k) / ln (IZR p) + IZR pr in let b := ln (2 * INR degree) / ln (IZR p) + INR dim * INR k / 2 in
  2 * ln (IZR p) * (a - b) = ln (IZR (left_side k p pr)) - ln (IZR (right_side degree dim k p)).
Proof.
  intros Hp Hk Hr a b. assert (Lp : 0 < ln (IZR p)) by (rewrite <- ln_1; apply ln_increasing; [lra|apply IZR_lt; lia]).
  assert (K : 0 < INR k) by (rewrite INR_IZR_INZ; apply IZR_lt; lia). assert (D : 0 < INR degree) by (rewrite INR_IZR_INZ; apply IZR_lt; lia).
  unfold left_side, right_side. rewrite !mult_IZR. replace (IZR (Z.of_nat k ^ 2)) with (INR k * INR k) by (rewrite INR_IZR_INZ, <- mult_IZR; f_equal; ring).
  replace (4 * IZR (Z.of_nat degree ^ 2)) with ((2 * INR degree) * (2 * INR degree)) by (rewrite INR_IZR_INZ; replace (Z.of_nat degree ^ 2)%Z with (Z.of_nat degree * Z.of_nat degree)%Z by ring; rewrite mult_IZR; ring).
  assert (P1 : 0 < IZR (p ^ (2 * pr))) by (apply IZR_lt, Z.pow_pos_nonneg; lia).
  assert (P2 : 0 < IZR (p ^ (Z.of_nat dim * Z.of_nat k))) by (apply IZR_lt, Z.pow_pos_nonneg; lia).
  rewrite !ln_mult, !pow_ln, !mult_IZR, <- !INR_IZR_INZ by (try lia; try assumption; try (apply Rmult_lt_0_compat; lra); lra).
  unfold a, b. try rewrite (ln_mult 2 (INR degree)) by lra. field. lra.
Qed.

Lemma margin degree dim k p pr : (2 <= p < 2 ^ 63)%Z -> (1 <= k <= degree)%nat -> (degree <= 1024)%nat -> (0 <= pr)%Z ->
  let a := ln (INR k) / ln (IZR p) + IZR pr in let b := ln (2 * INR degree) / ln (IZR p) + INR dim * INR k / 2 in
  let X := left_side k p pr in let Y := right_side degree dim k p in
  ((Y < X)%Z -> a - b >= / 600000000) /\ ((X < Y)%Z -> b - a >= / 600000000).
Proof.
  intros Hp Hk Hd Hr a b X Y. pose proof (sides_ln degree dim k p pr ltac:(lia) Hk Hr) as S. cbv zeta in S. fold a b X Y in S.
  pose proof (sides_apart degree dim k p pr ltac:(lia) Hk Hr) as AP. cbv zeta in AP. fold X Y in AP. set (P := (p ^ (Z.of_nat dim * Z.of_nat k))%Z) in *.
  pose proof ln2_bounds as (L1 & L2). pose proof (ln_p_bounds p Hp) as (P1 & P2).
  assert (P0 : (0 < P)%Z) by (apply Z.pow_pos_nonneg; lia).
  assert (YP : Y = (4 * Z.of_nat degree ^ 2 * P)%Z) by reflexivity.
  assert (D2 : (1 <= Z.of_nat degree ^ 2 <= 1048576)%Z) by nia.
  assert (Y0 : (0 < Y)%Z) by (rewrite YP; nia).
  assert (X0 : (0 < X)%Z). { unfold X, left_side. assert (0 < p ^ (2 * pr))%Z by (apply Z.pow_pos_nonneg; lia). nia. }
  assert (YU : (Y + P <= 4194305 * P)%Z) by (rewrite YP; nia).
  assert (RP : 0 < IZR P) by (now apply IZR_lt). assert (RX : 0 < IZR X) by (now apply IZR_lt). assert (RY : 0 < IZR Y) by (now apply IZR_lt).
  assert (RU : IZR Y + IZR P <= 4194305 * IZR P) by (rewrite <- plus_IZR, <- mult_IZR; now apply IZR_le).
  split; intros H.
  - assert (G : IZR Y + IZR P <= IZR X) by (rewrite <- plus_IZR; apply IZR_le; specialize (AP ltac:(lia)); lia).
    pose proof (ln_diff (IZR X) (IZR Y) RY RX) as L. rewrite <- S in L.
    assert (M : / 4194305 <= (IZR X - IZR Y) / IZR X).
    { apply (Rmult_le_reg_r (IZR X)); [lra|]. replace ((IZR X - IZR Y) / IZR X * IZR X) with (IZR X - IZR Y) by (field; lra). nra. }
    assert (T : 2 * ln (IZR p) <= 126) by lra. assert (T0 : 0 < a - b) by nra. nra.
  - assert (G : IZR X + IZR P <= IZR Y) by (rewrite <- plus_IZR; apply IZR_le; specialize (AP ltac:(lia)); lia).
    pose proof (ln_diff (IZR Y) (IZR X) RX RY) as L. replace (ln (IZR Y) - ln (IZR X)) with (2 * ln (IZR p) * (b - a)) in L by lra.
    assert (M : / 4194305 <= (IZR Y - IZR X) / IZR Y).
    { apply (Rmult_le_reg_r (IZR Y)); [lra|]. replace ((IZR Y - IZR X) / IZR Y * IZR Y) with (IZR Y - IZR X) by (field; lra). nra. }
    assert (T : 2 * ln (IZR p) <= 126) by lra. assert (T0 : 0 < b - a) by nra. nra.
Qed.

Lemma fl_test_ok A p degree dim pr k : double_like A -> (2 <= p < 2 ^ 63)%Z -> (1 <= k <= degree)%nat -> (degree <= 1024)%nat -> (dim * k <= 2048)%nat -> (0 <= pr <= 1024)%Z ->
  left_side k p pr <> right_side degree dim k p -> fl_test A p degree dim pr k = prec_test p degree dim pr k.
Proof.
  intros DA Hp Hk Hd Hm Hr N. destruct (left_near A p k pr DA Hp ltac:(lia) Hr) as (A1 & A2 & A3).
  destruct (right_near A p degree dim k DA Hp Hk Hd Hm) as (B1 & B2 & B3). destruct (margin degree dim k p pr Hp Hk Hd ltac:(lia)) as (M1 & M2).
  cbv zeta in *. unfold fl_test, prec_test. change (4 * Z.of_nat degree ^ 2 * p ^ (Z.of_nat dim * Z.of_nat k))%Z with (right_side degree dim k p).
  change (Z.of_nat k ^ 2 * p ^ (2 * pr))%Z with (left_side k p pr).
  set (a := ln (INR k) / ln (IZR p) + IZR pr) in *. set (b := ln (2 * INR degree) / ln (IZR p) + INR dim * INR k / 2) in *.
  set (fa := a_add A _ (IZR pr)) in *. set (fb := a_add A (a_div A (a_log A (2 * Z.of_nat degree)) _) _) in *. pose proof ulp_small as (U0 & U1).
  assert (W : 7 * ulp * 8192 < / 600000000) by (unfold ulp; lra).
  assert (E1 : 7 * ulp * a <= 7 * ulp * 3072) by (apply Rmult_le_compat_l; lra). assert (E2 : 7 * ulp * b <= 7 * ulp * 5120) by (apply Rmult_le_compat_l; lra).
  destruct (Z.ltb_spec (right_side degree dim k p) (left_side k p pr)) as [H|H].
  - apply (dl_gt A DA). specialize (M1 H). lra.
  - specialize (M2 ltac:(lia)). apply not_true_iff_false. intros G. apply (dl_gt A DA) in G. lra.
Qed.

(** ** the precisions after the symmetry loop *)
Open Scope Z_scope.
Section Prec.
  Variables (p : Z) (degree dim : nat) (sg : Z) (prec0 : list Z).
  Notation sh := (half degree dim).
  Notation fin := (full_prec degree dim prec0).
  Definition pinv (m : nat) (pr : list Z) : Prop :=
    length pr = S degree /\
    (forall j, (m <= j)%nat -> (j + m <= degree)%nat -> nth j pr 0 = nth j prec0 0) /\
    (forall j, (j < m)%nat -> (2 * j <= degree)%nat -> nth j pr 0 = fin j /\ nth (degree - j) pr 0 = fin j - sh j).
  Lemma pinv_step m st st' : (2 * m <= degree)%nat -> pinv m (fst st) -> cpf_sym1 p sg degree dim st m = OK st' -> pinv (S m) (fst st').
  Proof.
    intros Hm (L1 & U & I) E. destruct st as [pr cp]. cbn [fst] in *. unfold cpf_sym1 in E. rewrite shift_half in E. cbv zeta in E.
    apply bind_ok in E. destruct E as (pw & E0 & E).
    pose proof (U m ltac:(lia) ltac:(lia)) as Um. pose proof (U (degree - m)%nat ltac:(lia) ltac:(lia)) as Ud.
    assert (Fm : fin m = Z.max (nth m prec0 0) (nth (degree - m) prec0 0 + sh m)).
    { unfold full_prec. destruct (Nat.leb_spec (2 * m) degree); [reflexivity|lia]. }
    assert (S0 : 2 * Z.of_nat m = Z.of_nat degree -> sh m = 0).
    { intros H. unfold half. replace (degree - 2 * m)%nat with 0%nat by lia. reflexivity. }
    destruct (Z.leb_spec (nth (degree - m) pr 0 + sh m) (nth m pr 0)) as [A|A].
    - apply bind_ok in E. destruct E as (md & E1 & E). apply bind_ok in E. destruct E as (u & E2 & E). injection E as <-.
      unfold pinv. cbn [fst]. rewrite upd_length. split; [auto|]. split.
      + intros j J1 J2. rewrite nth_upd_neq by lia. apply U; lia.
      + intros j J1 J2. destruct (Nat.eq_dec j m) as [->|N].
        * rewrite (nth_upd_eq pr (degree - m)) by lia. destruct (Nat.eq_dec (degree - m) m) as [Q|Q].
          { rewrite Q. rewrite nth_upd_eq by lia. specialize (S0 ltac:(lia)). rewrite Q in *. lia. }
          rewrite nth_upd_neq by lia. lia.
        * rewrite !nth_upd_neq by lia. apply I; lia.
    - apply bind_ok in E. destruct E as (md & E1 & E). injection E as <-.
      unfold pinv. cbn [fst]. rewrite upd_length. split; [auto|]. split.
      + intros j J1 J2. rewrite nth_upd_neq by lia. apply U; lia.
      + intros j J1 J2. destruct (Nat.eq_dec j m) as [->|N].
        * rewrite (nth_upd_eq pr m) by lia. destruct (Nat.eq_dec (degree - m) m) as [Q|Q].
          { specialize (S0 ltac:(lia)). rewrite Q in *. lia. }
          rewrite nth_upd_neq by lia. lia.
        * rewrite !nth_upd_neq by lia. apply I; lia.
  Qed.
  Lemma pinv_loop k : forall m st st', (2 * (m + k) <= degree + 2)%nat -> pinv m (fst st) -> foldM (cpf_sym1 p sg degree dim) (seq m k) st = OK st' -> pinv (m + k) (fst st').
  Proof.
    induction k as [|k IH]; intros m st st' Hk HS E; cbn [seq foldM] in E.
    - injection E as <-. now rewrite Nat.add_0_r.
    - apply bind_ok in E. destruct E as (st1 & E1 & E). replace (m + S k)%nat with (S m + k)%nat by lia.
      apply (IH (S m) st1 st'); [lia| |exact E]. apply (pinv_step m st st1); auto. lia.
  Qed.
  Lemma sym_full st st' : length prec0 = S degree -> fst st = prec0 -> foldM (cpf_sym1 p sg degree dim) (seq 0 (S (degree / 2))) st = OK st' ->
    forall j, (j <= degree)%nat -> nth j (fst st') 0 = fin j.
  Proof.
    intros L E0 E j J. pose proof (Nat.div_mod degree 2 ltac:(lia)) as D. pose proof (Nat.mod_upper_bound degree 2 ltac:(lia)) as D2.
    destruct (pinv_loop (S (degree / 2)) 0 st st') as (_ & _ & I); [lia| |exact E|].
    { unfold pinv. rewrite E0. split; [auto|]. split; [auto|]. intros; lia. }
    destruct (Nat.le_gt_cases (2 * j) degree) as [H|H]; [apply I; lia|].
    destruct (I (degree - j)%nat ltac:(lia) ltac:(lia)) as (_ & I2). replace (degree - (degree - j))%nat with j in I2 by lia. rewrite I2.
    unfold full_prec. destruct (Nat.leb_spec (2 * (degree - j)) degree); [|lia]. destruct (Nat.leb_spec (2 * j) degree); [lia|].
    replace (degree - (degree - j))%nat with j by lia. lia.
  Qed.
End Prec.

(** only the values of the test at the full precisions matter *)
Lemma test_ext t1 t2 M prec p dim :
  (forall k, (1 <= k <= length M)%nat -> length prec = S (length M) ->
     t1 p (length M) dim (full_prec (length M) dim prec (length M - k)) k = t2 p (length M) dim (full_prec (length M) dim prec (length M - k)) k) ->
  charpoly_frob_test t1 M prec p dim = charpoly_frob_test t2 M prec p dim.
Proof.
  intros H. unfold charpoly_frob_test. destruct (charpoly M) as [cp|] eqn:Ec; [|reflexivity]. cbn [bind]. cbv zeta.
  assert (Lc : length cp = S (length M)).
  { revert Ec. unfold charpoly. intros E. do 4 (apply bind_ok in E; destruct E as (? & _ & E)).
    match type of E with OK ?m = _ => remember m as o eqn:Eo end. injection E as <-. subst o. now rewrite map_length, seq_length. }
  replace (length cp - 1)%nat with (length M) by lia. destruct (Nat.eqb_spec (length prec) (length cp)) as [L|]; [|reflexivity]. cbn [check bind].
  destruct (cpf_reduce p prec cp) as [cp1|]; [|reflexivity]. cbn [bind].
  match goal with |- context [bind (if Nat.even dim then ?a else ?b) _] => destruct (if Nat.even dim then a else b) as [sg|]; [|reflexivity] end. cbn [bind].
  destruct (power_ZZ p (Z.of_nat (length M) * Z.of_nat dim / 2)) as [pw|]; [|reflexivity]. cbn [bind].
  match goal with |- context [foldM (cpf_sym1 ?a ?b ?c ?d) ?e ?f] => destruct (foldM (cpf_sym1 a b c d) e f) as [[prec2 cp2]|] eqn:E4; [|reflexivity] end. cbn [bind].
  assert (F : forallb (fun k => t1 p (length M) dim (nth (length M - k) prec2 0) k) (seq 1 (length M)) = forallb (fun k => t2 p (length M) dim (nth (length M - k) prec2 0) k) (seq 1 (length M))).
  { assert (G : forall l, (forall k, In k l -> (1 <= k <= length M)%nat) -> forallb (fun k => t1 p (length M) dim (nth (length M - k) prec2 0) k) l = forallb (fun k => t2 p (length M) dim (nth (length M - k) prec2 0) k) l).
    { induction l as [|k l IH]; intros Hl; [reflexivity|]. cbn [forallb]. rewrite IH by (intros; apply Hl; now right). f_equal.
      assert (K : nth (length M - k) prec2 0 = full_prec (length M) dim prec (length M - k)).
      { refine (sym_full p (length M) dim sg prec (prec, _) (prec2, cp2) _ eq_refl E4 _ _); lia. }
      rewrite K. apply H; [apply Hl; now left|lia]. }
    apply G. intros k Hk. apply in_seq in Hk. lia. }
  rewrite F. reflexivity.
Qed.
