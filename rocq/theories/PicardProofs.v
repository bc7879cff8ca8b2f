(** The loops of geometric_picard.cc. *)
From Coq Require Import ZArith QArith List Bool Lia.
From Verif Require Import Base VecModel ToolsModel ToolsProofs MatModel MatProofs PicardModel PicardSpec.
Import ListNotations.
Open Scope Z_scope.

Lemma pow_ratio m j : 1 <= m -> 0 <= j <= m -> (m + 1) ^ j <= (j + 1) * m ^ j.
Proof.
  intros Hm [Hj Hjm]. revert Hjm. pattern j. apply natlike_ind; [|clear j Hj; intros j Hj IH|exact Hj].
  - intros _. rewrite !Z.pow_0_r. lia.
  - intros Hjm. rewrite !Z.pow_succ_r by lia. specialize (IH ltac:(lia)).
    pose proof (Z.pow_pos_nonneg m j ltac:(lia) Hj) as P. set (A := (m + 1) ^ j) in *. set (B := m ^ j) in *.
    apply Z.le_trans with ((m + 1) * ((j + 1) * B)); [apply Z.mul_le_mono_nonneg_l; lia|].
    replace ((m + 1) * ((j + 1) * B)) with (B * ((m + 1) * (j + 1))) by ring.
    replace ((Z.succ j + 1) * (m * B)) with (B * ((j + 2) * m)) by (unfold Z.succ; ring).
    apply Z.mul_le_mono_nonneg_l; nia.
Qed.

Lemma pow_step m a b : 1 <= m -> 0 <= a -> 0 <= b ->
  2 ^ (a * (m + 1)) <= (2 * (m + 1)) ^ b -> 2 ^ (a * m) <= (2 * m) ^ b.
Proof.
  intros Hm Ha Hb H.
  assert (R : (2 * (m + 1)) ^ m <= (2 * m) ^ (m + 1)).
  { rewrite !Z.pow_mul_l. rewrite (Z.pow_add_r 2 m 1) by lia. rewrite (Z.pow_add_r m m 1) by lia. rewrite !Z.pow_1_r.
    pose proof (pow_ratio m m Hm ltac:(lia)) as Q. pose proof (Z.pow_pos_nonneg 2 m ltac:(lia) ltac:(lia)).
    pose proof (Z.pow_pos_nonneg m m ltac:(lia) ltac:(lia)).
    replace (2 ^ m * 2 * (m ^ m * m)) with (2 ^ m * (2 * m * m ^ m)) by ring.
    apply Z.mul_le_mono_nonneg_l; [lia|]. apply Z.le_trans with ((m + 1) * m ^ m); auto. apply Z.mul_le_mono_nonneg_r; lia. }
  destruct (Z.le_gt_cases (2 ^ (a * m)) ((2 * m) ^ b)) as [|G]; auto. exfalso.
  assert (P1 : ((2 * m) ^ b) ^ (m + 1) < (2 ^ (a * m)) ^ (m + 1)).
  { apply Z.pow_lt_mono_l; [lia|]. split; [apply Z.pow_nonneg; clear - Hm; lia|exact G]. }
  assert (Am : 0 <= a * m) by (apply Z.mul_nonneg_nonneg; lia). assert (Am1 : 0 <= a * (m + 1)) by (apply Z.mul_nonneg_nonneg; lia).
  rewrite <- (Z.pow_mul_r (2 * m)), <- (Z.pow_mul_r 2) in P1 by lia.
  replace (a * m * (m + 1)) with (a * (m + 1) * m) in P1 by ring. rewrite (Z.pow_mul_r 2 (a * (m + 1)) m) in P1 by lia.
  assert (P2 : (2 ^ (a * (m + 1))) ^ m <= ((2 * (m + 1)) ^ b) ^ m) by (apply Z.pow_le_mono_l; split; [apply Z.pow_nonneg; clear - Hm; lia|auto]).
  rewrite <- (Z.pow_mul_r (2 * (m + 1))) in P2 by lia. rewrite (Z.mul_comm b m) in P2. rewrite (Z.pow_mul_r (2 * (m + 1)) m b) in P2 by lia.
  assert (P3 : ((2 * (m + 1)) ^ m) ^ b <= ((2 * m) ^ (m + 1)) ^ b) by (apply Z.pow_le_mono_l; split; [apply Z.pow_nonneg; clear - Hm; lia|auto]).
  rewrite <- (Z.pow_mul_r (2 * m)) in P3 by lia. rewrite (Z.mul_comm (m + 1) b) in P3.
  exact (Z.lt_irrefl _ (Z.lt_le_trans _ _ _ P1 (Z.le_trans _ _ _ P2 P3))).
Qed.

Lemma pow_prefix k j a b : 1 <= j <= k -> 0 <= a -> 0 <= b -> 2 ^ (a * k) <= (2 * k) ^ b -> 2 ^ (a * j) <= (2 * j) ^ b.
Proof.
  intros [H1 H2] Ha Hb. replace k with (j + Z.of_nat (Z.to_nat (k - j))) by lia. generalize (Z.to_nat (k - j)). clear H2 k.
  induction n as [|n IH]; intros H; [now rewrite Z.add_0_r in H|].
  apply IH. apply pow_step; try lia. rewrite Nat2Z.inj_succ in H. unfold Z.succ in H. now rewrite !Z.add_assoc in H.
Qed.

Lemma nth_zseq b i : (i < Z.to_nat b)%nat -> nth i (zseq 0 b) 0 = Z.of_nat i.
Proof.
  intros H. assert (G : forall k a i, (i < k)%nat -> nth i (zrange a k) 0 = a + Z.of_nat i).
  { induction k as [|k IH]; intros a [|j] Hj; cbn [zrange nth]; try lia. rewrite IH by lia. lia. }
  unfold zseq. rewrite G; lia.
Qed.

Lemma feqb_eq f g : feqb f g = true <-> f = g.
Proof.
  revert g. induction f as [|a f IH]; intros [|b g]; cbn [feqb]; split; intros H; try discriminate; auto.
  - apply andb_true_iff in H. destruct H as [H1 H2]. apply Z.eqb_eq in H1. apply IH in H2. congruence.
  - injection H as -> ->. rewrite Z.eqb_refl. now apply IH.
Qed.

Section Loops.
  Variable x : Z -> Q.
  Hypothesis X : double_ok x.

  Lemma cond_iff k c : loop_cond x k c = true <-> (x k <= inject_Z c)%Q.
  Proof. apply Qle_bool_iff. Qed.

  Lemma cond_mono k c c' : c <= c' -> loop_cond x k c = true -> loop_cond x k c' = true.
  Proof. rewrite !cond_iff. intros H L. eapply Qle_trans; [exact L|]. now rewrite <- Zle_Qle. Qed.

  Lemma cond_small k c : 1 <= k <= 2 -> 1 <= c -> loop_cond x k c = true.
  Proof.
    intros Hk Hc. rewrite cond_iff. assert (E : (x k == 1)%Q).
    { destruct (Z.eq_dec k 1) as [->|]; [apply X|]. replace k with 2 by lia. apply X. }
    rewrite E. change 1%Q with (inject_Z 1). now rewrite <- Zle_Qle.
  Qed.

  (** every k for which the margin holds is reached *)
  Lemma cond_prefix k c j : 1 <= c -> 1 <= j <= k -> (3 <= k -> 2 ^ (8 * k) <= (2 * k) ^ (7 * c)) -> loop_cond x j c = true.
  Proof.
    intros Hc Hj H. destruct (Z_le_gt_dec j 2); [apply cond_small; lia|].
    rewrite cond_iff. apply X; try lia. apply (pow_prefix k); try lia.
  Qed.

  (** the condition fails at the latest at 64 (c+1)^2 *)
  Lemma cond_ends c : 0 <= c -> loop_cond x (64 * (c + 1) ^ 2) c = false.
  Proof.
    intros Hc. destruct (loop_cond x _ c) eqn:E; auto. exfalso. apply cond_iff in E. revert E. apply Qlt_not_le.
    apply X; try nia. replace (2 * (64 * (c + 1) ^ 2)) with (2 ^ 7 * (c + 1) ^ 2) by ring.
    assert (B : c + 1 <= 2 ^ c).
    { pattern c. apply natlike_ind; [reflexivity| |exact Hc]. intros y Hy IH. rewrite Z.pow_succ_r by lia. lia. }
    apply Z.le_lt_trans with ((2 ^ 7 * (2 ^ c) ^ 2) ^ (8 * c)).
    { apply Z.pow_le_mono_l. split; [nia|]. apply Z.mul_le_mono_nonneg_l; [lia|]. apply Z.pow_le_mono_l. lia. }
    rewrite <- !Z.pow_mul_r, <- Z.pow_add_r, <- Z.pow_mul_r by lia. apply Z.pow_lt_mono_r; nia.
  Qed.

  Lemma table_size_from c fuel N M : N <= M -> M - N < Z.of_nat fuel -> loop_cond x M c = false ->
    exists N', table_size fuel x c N = OK N' /\ N <= N' <= M /\ loop_cond x N' c = false /\ forall k, N <= k < N' -> loop_cond x k c = true.
  Proof.
    revert N. induction fuel as [|fuel IH]; intros N H1 H2 HM; [lia|]. cbn [table_size]. destruct (loop_cond x N c) eqn:E.
    - assert (N <> M) by congruence. destruct (IH (N + 1)) as (N' & I1 & I2 & I3 & I4); [lia|lia|auto|].
      exists N'. split; auto. split; [lia|]. split; auto. intros k Hk. destruct (Z.eq_dec k N) as [->|]; auto. apply I4. lia.
    - exists N. split; auto. split; [lia|]. split; auto. intros; lia.
  Qed.

  Lemma cyc_loop_ok cyc g c N fuel k : 1 <= k <= N -> N - k < Z.of_nat fuel -> loop_cond x N c = false ->
    exists r, cyc_loop fuel x (map cyc (zseq 0 N)) g c k = OK r /\
      ((r = c /\ exists k', k <= k' < N /\ cyc k' = g) \/
       (r = 0 /\ forall k', k <= k' -> (forall j, k <= j <= k' -> loop_cond x j c = true) -> cyc k' <> g)).
  Proof.
    revert k. induction fuel as [|fuel IH]; intros k H1 H2 HN; [lia|]. cbn [cyc_loop]. destruct (loop_cond x k c) eqn:E.
    - assert (k <> N) by congruence.
      assert (G : get_at (map cyc (zseq 0 N)) k = OK (cyc k)).
      { apply get_at_ok. split; [lia|]. apply map_nth_error.
        rewrite (nth_error_nth' _ 0) by (rewrite zseq_length; lia). rewrite nth_zseq by lia. f_equal. lia. }
      rewrite G. cbn [bind]. destruct (feqb g (cyc k)) eqn:F.
      + apply feqb_eq in F. exists c. split; auto. left. split; auto. exists k. split; [lia|auto].
      + destruct (IH (k + 1)) as (r & R1 & [(R2 & k' & R3 & R4)|[R2 R3]]); [lia|lia|auto| |]; exists r; (split; [exact R1|]).
        * left. split; auto. exists k'. split; [lia|auto].
        * right. split; auto. intros k' Hk' HC. destruct (Z.eq_dec k' k) as [->|].
          -- intros Q. symmetry in Q. apply feqb_eq in Q. congruence.
          -- apply R3; [lia|]. intros j Hj. apply HC. lia.
    - exists 0. split; auto. right. split; auto. intros k' Hk' HC. specialize (HC k ltac:(lia)). congruence.
  Qed.
End Loops.

(** * the change of variables T -> T/p *)
Lemma unscale_from_ok p pp cs r : 1 <= p -> 1 <= pp ->
  unscale_from p pp cs = Some r <-> length r = length cs /\ forall i, nth i cs 0 = nth i r 0 * (pp * p ^ Z.of_nat i).
Proof.
  intros Hp. revert pp r. induction cs as [|c cs IH]; intros pp r Hpp; cbn [unscale_from].
  - split.
    + intros H. injection H as <-. split; auto. now intros [|i].
    + intros [H _]. destruct r; [reflexivity|discriminate].
  - split.
    + destruct (Z.eqb_spec (c mod pp) 0) as [E|]; [|discriminate].
      destruct (unscale_from p (pp * p) cs) as [r'|] eqn:U; [|discriminate]. intros H. injection H as <-.
      apply IH in U; [|nia]. destruct U as [U1 U2]. split; [cbn [length]; lia|]. intros [|i]; cbn [nth].
      * rewrite Z.pow_0_r. pose proof (Z.div_mod c pp ltac:(lia)). lia.
      * rewrite U2, Nat2Z.inj_succ, Z.pow_succ_r by lia. ring.
    + intros [H1 H2]. destruct r as [|a r]; [discriminate|]. pose proof (H2 O) as H0. cbn [nth] in H0. change (Z.of_nat 0) with 0 in H0. rewrite Z.pow_0_r, Z.mul_1_r in H0.
      subst c. rewrite Z.mod_mul by lia. rewrite Z.eqb_refl. rewrite Z.div_mul by lia.
      assert (U : unscale_from p (pp * p) cs = Some r).
      { apply IH; [nia|]. split; [cbn [length] in H1; lia|]. intros i. specialize (H2 (S i)). cbn [nth] in H2.
        rewrite Nat2Z.inj_succ, Z.pow_succ_r in H2 by lia. rewrite H2. ring. }
      now rewrite U.
Qed.

Lemma unscale_ok p f g : 1 <= p ->
  unscale p f = Some g <-> length g = length f /\ forall i, nth i f 0 = nth i g 0 * p ^ Z.of_nat i.
Proof.
  intros Hp. destruct f as [|c cs]; cbn [unscale].
  - split.
    + intros H. injection H as <-. split; auto. now intros [|i].
    + intros [H _]. destruct g; [reflexivity|discriminate].
  - split.
    + destruct (unscale_from p p cs) as [r|] eqn:U; [|discriminate]. intros H. injection H as <-.
      apply unscale_from_ok in U; auto. destruct U as [U1 U2]. split; [cbn [length]; lia|]. intros [|i]; cbn [nth].
      * change (Z.of_nat 0) with 0. rewrite Z.pow_0_r. lia.
      * rewrite U2, Nat2Z.inj_succ, Z.pow_succ_r by lia. ring.
    + intros [H1 H2]. destruct g as [|a r]; [discriminate|]. pose proof (H2 O) as H0. cbn [nth] in H0. change (Z.of_nat 0) with 0 in H0. rewrite Z.pow_0_r, Z.mul_1_r in H0. subst c.
      assert (U : unscale_from p p cs = Some r).
      { apply unscale_from_ok; auto. split; [cbn [length] in H1; lia|]. intros i. specialize (H2 (S i)). cbn [nth] in H2.
        rewrite Nat2Z.inj_succ, Z.pow_succ_r in H2 by lia. rewrite H2. ring. }
      now rewrite U.
Qed.

Lemma fnorm_nth f i : nth i (fnorm f) 0 = nth i f 0.
Proof.
  revert i. induction f as [|c f IH]; intros i; [reflexivity|]. cbn [fnorm]. destruct (fnorm f) as [|a g] eqn:E.
  - destruct (Z.eqb_spec c 0) as [->|].
    + destruct i as [|i]; [reflexivity|]. cbn [nth]. rewrite <- IH. now destruct i.
    + destruct i as [|i]; [reflexivity|]. cbn [nth]. rewrite <- IH. now destruct i.
  - destruct i as [|i]; [reflexivity|]. cbn [nth]. apply IH.
Qed.

Lemma fnorm_last f : last (fnorm f) 1 <> 0.
Proof.
  induction f as [|c f IH]; [cbn; lia|]. cbn [fnorm]. destruct (fnorm f) as [|a g] eqn:E.
  - destruct (Z.eqb_spec c 0) as [->|]; cbn; lia.
  - exact IH.
Qed.

Lemma rem2_even a : 0 <= a -> Z.rem a 2 = if Z.even a then 0 else 1.
Proof. intros H. rewrite Z.rem_mod_nonneg by lia. rewrite Zmod_even. reflexivity. Qed.

Lemma rem2_zero a : (Z.rem a 2 =? 0) = Z.even a.
Proof.
  destruct (Z.even a) eqn:E.
  - apply Z.even_spec in E. destruct E as [k ->]. rewrite Z.mul_comm, Z.rem_mul by lia. reflexivity.
  - apply Z.eqb_neq. intros H. apply Z.rem_divide in H; [|lia]. destruct H as [k ->]. rewrite Z.even_mul, orb_true_r in E. discriminate.
Qed.

Lemma geometric_picard_eq fuel x cyc factor cs p dim N c : 
  let fac := factor (fnorm (rev cs)) in
  let md := fold_left (fun m ge => Z.max m (fdeg (fst ge))) fac 0 in
  table_size fuel x md 1 = OK N ->
  foldM (fun count ge => r <- number_of_roots_of_unity x (map cyc (zseq 0 N)) (fst ge) p ;; OK (count + snd ge * r)) fac 0
    = OK (0 + Z.of_nat c) ->
  geometric_picard fuel x cyc factor cs p dim =
    if negb (dim =? 2) || Bool.eqb (Z.even (Z.of_nat (length cs))) (Z.even (picard_count dim c))
    then OK (picard_count dim c) else Err EAssert.
Proof.
  intros fac md HT HF. unfold geometric_picard. fold fac. fold md. rewrite HT. cbn [bind]. rewrite HF. cbn [bind].
  rewrite rem2_zero.
  replace (if Z.even dim then 0 + Z.of_nat c + 1 else 0 + Z.of_nat c) with (picard_count dim c) by (unfold picard_count; destruct (Z.even dim); lia).
  rewrite !rem2_even by (unfold picard_count; destruct (Z.even dim); lia).
  destruct (negb (dim =? 2)); [reflexivity|]. cbn [orb].
  destruct (Z.even (Z.of_nat (length cs))), (Z.even (picard_count dim c)); reflexivity.
Qed.
