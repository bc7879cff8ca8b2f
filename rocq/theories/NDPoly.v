(** Proofs: several non-degenerate steps at once (C36). *)
From Coq Require Import ZArith List Lia Bool.
From Verif Require Import Base VecModel VecSpec VecProofs ToolsModel ToolsSpec ToolsProofs PolyProofs
  MatModel MatProofs DRModel DRSpec DRProofs DRRed DRStep DRFinal DRPath FdModel FdSpec FdProofs
  NDModel NDSpec NDMat NDRed NDCol NDStep.
Import ListNotations.
Open Scope Z_scope.

(** * the expansion of a shifted monomial is homogeneous *)
Lemma zsum_ckey n i u j : (i < n)%nat -> zsum (ckey n i u j) = u.
Proof.
  intros Hi. unfold ckey. rewrite zsum_upd by (rewrite upd_length, repeat_length; lia).
  rewrite nth_upd, repeat_length. destruct (Nat.eqb_spec i n); [lia|]. rewrite nth_repeat.
  rewrite zsum_upd by (rewrite repeat_length; lia). rewrite nth_repeat, zsum_repeat0. lia.
Qed.

Lemma covm_factor_homog n i u v js : (i < n)%nat -> forall m m', covm_factor n i u v js m = OK m' ->
  (forall j, In j js -> 0 <= j <= u) -> poly_ok (S n) m -> (forall k, In k (map fst m) -> zsum k = u) ->
  poly_ok (S n) m' /\ forall k, In k (map fst m') -> zsum k = u.
Proof.
  intros Hi. induction js as [|j js IH]; intros m m' E Hj Hm Hs; cbn [covm_factor] in E.
  - injection E as <-. auto.
  - apply bind_ok in E. destruct E as (b & _ & E). fold (ckey n i u j) in E.
    assert (Hj0 := Hj j (or_introl eq_refl)).
    eapply IH; [exact E|intros; apply Hj; now right| |].
    + split; [apply vinsert_sorted; [apply Hm|apply ckey_length]|].
      intros k c0 Hin. apply (vinsert_In (S n)) in Hin; [|apply Hm|apply ckey_length].
      destruct Hin as [[-> _]|[_ Hin]]; [apply ckey_nonneg; auto|eapply (proj2 Hm); eauto].
    + intros k Hk. apply in_map_iff in Hk. destruct Hk as ([k' c0] & <- & Hin). cbn [fst].
      apply (vinsert_In (S n)) in Hin; [|apply Hm|apply ckey_length].
      destruct Hin as [[-> _]|[_ Hin]]; [now apply zsum_ckey|]. apply Hs. apply in_map_iff. exists (k', c0). auto.
Qed.

Lemma covm_loop_homog n u v is : forall H H' s, covm_loop n u v is H = OK H' ->
  (forall i, In i is -> (i < n)%nat) -> poly_ok (S n) H -> (forall k, In k (map fst H) -> zsum k = s) ->
  forall k, In k (map fst H') -> zsum k = s + sumf (fun i => nth i u 0) is.
Proof.
  induction is as [|i is IH]; intros H H' s E Hi HH Hs k Hk; cbn [covm_loop] in E.
  - injection E as <-. rewrite sumf_nil. rewrite (Hs k Hk). lia.
  - apply bind_ok in E. destruct E as (m & Em & E).
    destruct (covm_factor_homog n i _ _ _ (Hi i (or_introl eq_refl)) _ _ Em) as [M1 M2].
    { intros j Hj. apply zseq_In in Hj. lia. }
    { split; [apply vsorted_nil|intros ? ? []]. }
    { intros ? []. }
    destruct (pmul_ok (S n) 0 H m HH M1) as (P1 & _ & P3).
    rewrite (IH _ _ (s + nth i u 0) E (fun a Ha => Hi a (or_intror Ha)) P1) with (k := k); auto.
    + rewrite sumf_cons. lia.
    + intros k' Hk'. apply P3 in Hk'. destruct Hk' as (a & b & Ha & Hb & ->).
      rewrite zsum_vadd; [now rewrite (Hs a Ha), (M2 b Hb)|].
      apply in_map_iff in Ha. destruct Ha as ([a' ca] & <- & Ha). apply in_map_iff in Hb. destruct Hb as ([b' cb] & <- & Hb).
      cbn [fst]. rewrite (vsorted_len _ _ _ _ (proj1 HH) Ha), (vsorted_len _ _ _ _ (proj1 M1) Hb). reflexivity.
Qed.

Lemma covm_homog u v H : change_of_variables_monomial u v = OK H ->
  forall k, In k (map fst H) -> zsum k = zsum u.
Proof.
  unfold change_of_variables_monomial. destruct (negb _); [discriminate|]. intros E k Hk.
  rewrite (covm_loop_homog _ _ _ _ _ _ 0 E) with (k := k); auto.
  - rewrite sumf_nth_zsum by reflexivity. lia.
  - intros i Hi. apply in_seq in Hi. lia.
  - split.
    + constructor; [apply repeat_length|constructor|intros ? ? []].
    + intros k' c' [E'|[]]. injection E' as <- _. exact (nonneg_repeat0 (S (length u))).
  - intros k' [<-|[]]. cbn [fst]. exact (zsum_repeat0 (S (length u))).
Qed.

(** * binomials of exponents up to n+1 *)
Lemma choose_mono_l a b k : (a <= b)%nat -> choose a k <= choose b k.
Proof.
  induction 1 as [|b H IH]; [lia|]. destruct k as [|k]; [rewrite !choose_0_r; lia|].
  rewrite choose_S. pose proof (choose_nonneg b k). lia.
Qed.
Lemma choose_shift a k s : choose a k <= choose (s + a) (s + k).
Proof.
  induction s as [|s IH]; [reflexivity|]. cbn [Nat.add]. rewrite choose_S. pose proof (choose_nonneg (s + a) (S (s + k))). lia.
Qed.
Lemma choose_fit n a k l : (a <= S n)%nat -> (k <= a)%nat -> (S n <= l)%nat -> choose a k <= choose (l + n) n.
Proof.
  intros Ha Hk Hl. destruct (Nat.le_gt_cases k n) as [L|L].
  - pose proof (choose_shift a k (n - k)). replace (n - k + k)%nat with n in H by lia.
    pose proof (choose_mono_l (n - k + a) (l + n) n ltac:(lia)). lia.
  - assert (a = k) as -> by lia. rewrite choose_diag. pose proof (choose_pos (l + n) n ltac:(lia)). lia.
Qed.

(** * sums of multiples of matrices *)
Lemma mget_out M r c i j : shape M r c -> (r <= i \/ c <= j)%nat -> mget M i j = 0.
Proof.
  intros H. unfold mget. destruct (Nat.lt_ge_cases i r) as [L|L].
  - intros [|]; [lia|]. apply nth_overflow. rewrite (shape_row M r c); auto.
  - intros _. rewrite (nth_overflow M) by (destruct H; lia). now destruct j.
Qed.

Definition zrows (M : mat) : Prop := forall i j, (1 <= i)%nat -> mget M i j = 0.

Lemma put_ok q r dp (top : bool) P c M : (q | r) -> (0 < dp)%nat -> shape P dp dp -> shape M dp dp ->
  (top = true -> zrows M) ->
  exists P', (if top then row0_add r P c M else mat_add r P (mat_scal r c M)) = OK P' /\ shape P' dp dp /\
    (forall i j, (i < dp)%nat -> (j < dp)%nat -> cong q (mget P' i j) (mget P i j + c * mget M i j)) /\
    (zrows P -> zrows M -> zrows P').
Proof.
  intros Hr Hd SP SM Ht. destruct top.
  - specialize (Ht eq_refl). unfold row0_add.
    assert (G0 : forall A : mat, shape A dp dp -> get_at A 0 = OK (nth 0 A [])).
    { intros A [LA _]. apply get_at_ok. split; [lia|]. apply nth_error_nth'. change (Z.to_nat 0) with 0%nat. lia. }
    rewrite (G0 P SP), (G0 M SM). cbn [bind].
    pose proof (shape_row _ _ _ _ SP Hd) as L1. pose proof (shape_row _ _ _ _ SM Hd) as L2.
    destruct (lvec_add_ok r (nth 0 P []) (lvec_scal r c (nth 0 M []))) as (w & W1 & W2 & W3).
    { rewrite lvec_scal_length. congruence. }
    rewrite W1. cbn [bind]. exists (upd P 0 w). split; auto. split; [|split].
    + destruct SP as [P1 P2]. split; [now rewrite upd_length|]. apply Forall_upd; auto. congruence.
    + intros i j Hi Hj. destruct (Nat.eq_dec i 0) as [->|Ni].
      * unfold mget at 1. rewrite nth_upd_eq by (destruct SP; lia). rewrite W3 by congruence.
        unfold lvec_scal. rewrite (nth_map_lt _ _ _ _ 0) by lia. rewrite !(cong_mod_dvd q r) by auto. reflexivity.
      * unfold mget at 1. rewrite nth_upd_neq by auto. fold (mget P i j). rewrite (Ht i j) by lia. apply cong_of_eq. ring.
    + intros ZP _ i j Hi. unfold mget. rewrite nth_upd_neq by lia. apply ZP. lia.
  - destruct (mat_add_ok r P (mat_scal r c M) dp dp SP (mat_scal_shape _ _ _ _ _ SM)) as (C & C1 & C2 & C3).
    exists C. split; auto. split; auto. split.
    + intros i j Hi Hj. rewrite C3, (mat_scal_get _ _ _ dp dp) by auto. rewrite !(cong_mod_dvd q r) by auto. reflexivity.
    + intros ZP ZM i j Hi. destruct (Nat.lt_ge_cases i dp) as [Li|Li]; [destruct (Nat.lt_ge_cases j dp) as [Lj|Lj]|].
      * rewrite C3, (mat_scal_get _ _ _ dp dp) by auto. rewrite ZP, ZM by auto. now rewrite Z.mul_0_r, !Zmod_0_l.
      * eapply mget_out; eauto.
      * eapply mget_out; eauto.
Qed.

Lemma wsum_lin q P P' M dp c w :
  (forall i j, (i < dp)%nat -> (j < dp)%nat -> cong q (mget P' i j) (mget P i j + c * mget M i j)) ->
  cong q (wsum P' dp dp w) (wsum P dp dp w + c * wsum M dp dp w).
Proof.
  intros H. unfold wsum. rewrite <- sumf_scal, <- sumf_plus. apply cong_sumf. intros i Hi. apply in_seq in Hi.
  rewrite <- sumf_scal, <- sumf_plus. apply cong_sumf. intros j Hj. apply in_seq in Hj.
  rewrite H by lia. apply cong_of_eq. ring.
Qed.

Lemma wsum_at M dp i j : (i < dp)%nat -> (j < dp)%nat ->
  wsum M dp dp (fun a b => if Nat.eqb a i && Nat.eqb b j then 1 else 0) = mget M i j.
Proof.
  intros Hi Hj. unfold wsum. rewrite (sumf_seq_single _ 0 dp i); [|lia|].
  - rewrite (sumf_seq_single _ 0 dp j); [|lia|].
    + rewrite !Nat.eqb_refl. cbn [andb]. ring.
    + intros k _ Hk. apply Nat.eqb_neq in Hk. rewrite Hk, andb_false_r. ring.
  - intros k _ Hk. apply sumf_zero. intros. apply Nat.eqb_neq in Hk. rewrite Hk. cbn [andb]. ring.
Qed.

Lemma mono_snoc u x : forall key, length key = S (length u) ->
  mono (u ++ [x]) key = mono u key * x ^ nth (length u) key 0.
Proof.
  induction u as [|a u IH]; intros [|k key] H; simpl in H; try lia.
  - destruct key; [|discriminate]. cbn [app mono length nth]. ring.
  - cbn [app mono length nth]. rewrite IH by lia. ring.
Qed.

Lemma mp_entry_len (Ps : list mat) L x i j : length Ps = L ->
  mp_entry Ps x i j = sumf (fun e => x ^ Z.of_nat e * mget (nth e Ps []) i j) (seq 0 L).
Proof. intros <-. reflexivity. Qed.

(** k successive single steps, from u + k v down to u *)
Fixpoint steps_down_ND (slv : solver) (N : dND) (u v : vec) (k : nat) (G : list Z) : res (list Z) :=
  match k with
  | O => OK G
  | S k => R <- reduce_vector_ND slv N (vadd u (vscale (Z.of_nat k) v)) v G ;; steps_down_ND slv N u v k R
  end.

(** one step of the loop, for any coefficients *)
Section STEP.
  Variables (q r : Z) (n dp : nat) (Ps : list mat).
  Hypothesis Hr : (q | r).
  Hypothesis Hd : (0 < dp)%nat.
  Hypothesis LP : length Ps = S (S n).
  Hypothesis SP : forall k, (k < S (S n))%nat -> shape (nth k Ps []) dp dp.
  Hypothesis ZP : zrows (nth (S n) Ps []).

  Definition pterm (x : Z) (k i : nat) (G : list Z) : Z :=
    x ^ Z.of_nat k * sumf (fun j => mget (nth k Ps []) i j * nth j G 0) (seq 0 dp).

  Lemma step_fold x G l : length G = dp -> forall a xp o, (a + l <= S n)%nat -> (1 <= a)%nat -> length o = dp -> cong q xp (x ^ Z.of_nat (a - 1)) ->
    exists xp' o', foldM (fun (st : Z * list Z) i =>
      let xp := (fst st * x) mod r in
      t <- mat_vec r (nth i Ps []) G ;;
      o <- lvec_add r (snd st) (lvec_scal r xp t) ;;
      OK (xp, o)) (seq a l) (xp, o) = OK (xp', o') /\ length o' = dp /\ cong q xp' (x ^ Z.of_nat (a + l - 1)) /\
      forall i, (i < dp)%nat -> cong q (nth i o' 0) (nth i o 0 + sumf (fun k => pterm x k i G) (seq a l)).
  Proof.
    intros LG. induction l as [|l IH]; intros a xp o Ha H1 Lo Hx; cbn [seq foldM].
    - exists xp, o. rewrite Nat.add_0_r. do 3 (split; [auto|]). intros i Hi. rewrite sumf_nil. apply cong_of_eq. ring.
    - cbn [fst snd]. destruct (mat_vec_ok r (nth a Ps []) G dp) as (t & T1 & T2 & T3).
      { rewrite LG. apply SP. lia. }
      rewrite T1. cbn [bind]. destruct (lvec_add_ok r o (lvec_scal r ((xp * x) mod r) t)) as (o1 & O1 & O2 & O3).
      { rewrite lvec_scal_length. congruence. }
      rewrite O1. cbn [bind].
      assert (Hx' : cong q ((xp * x) mod r) (x ^ Z.of_nat (S a - 1))).
      { rewrite (cong_mod_dvd q r) by auto. rewrite Hx. apply cong_of_eq.
        replace (Z.of_nat (S a - 1)) with (Z.of_nat (a - 1) + 1) by lia. rewrite Z.pow_add_r by lia. ring. }
      destruct (IH (S a) ((xp * x) mod r) o1 ltac:(lia) ltac:(lia) ltac:(congruence) Hx') as (xp' & o' & F1 & F2 & F3 & F4).
      exists xp', o'. split; auto. split; auto. replace (a + S l)%nat with (S a + l)%nat by lia. split; auto.
      intros i Hi. rewrite (F4 i Hi), sumf_cons. rewrite O3 by lia. rewrite (cong_mod_dvd q r) by auto.
      unfold lvec_scal. rewrite (nth_map_lt _ _ _ _ 0) by lia. rewrite (cong_mod_dvd q r) by auto.
      rewrite T3 by auto. rewrite (cong_mod_dvd q r (sumf _ _)) by auto. rewrite Hx', LG. unfold pterm.
      replace (S a - 1)%nat with a by lia. apply cong_of_eq. ring.
  Qed.

  Lemma vdot_sumf (a b : list Z) m : length a = m -> length b = m -> vdot a b = sumf (fun j => nth j a 0 * nth j b 0) (seq 0 m).
  Proof. intros. now apply vdot_seq. Qed.

  Lemma nd_poly_step_ok G x : length G = dp ->
    exists G', nd_poly_step q r n Ps G x = OK G' /\ length G' = dp /\
    (0 < q -> forall y, In y G' -> 0 <= y < q) /\
    forall i, (i < dp)%nat -> cong q (nth i G' 0) (sumf (fun j => mp_entry Ps x i j * nth j G 0) (seq 0 dp)).
  Proof.
    intros LG. unfold nd_poly_step.
    destruct (mat_vec_ok r (nth 0 Ps []) G dp) as (G0 & T1 & T2 & T3). { rewrite LG. apply SP. lia. }
    rewrite T1. cbn [bind].
    destruct (step_fold x G n LG 1 1 G0 ltac:(lia) ltac:(lia) T2) as (xp & o & F1 & F2 & F3 & F4).
    { apply cong_of_eq. reflexivity. }
    cbv zeta in F1. rewrite F1. cbn [bind fst snd].
    assert (SN : shape (nth (S n) Ps []) dp dp) by (apply SP; lia).
    assert (Gt : get_at (nth (S n) Ps []) 0 = OK (nth 0 (nth (S n) Ps []) [])).
    { apply get_at_ok. split; [lia|]. apply nth_error_nth'. change (Z.to_nat 0) with 0%nat. destruct SN. lia. }
    rewrite Gt. cbn [bind]. unfold check. replace (Nat.ltb 0 (length o)) with true by (symmetry; apply Nat.ltb_lt; lia). cbn [bind].
    eexists. split; [reflexivity|]. split; [|split].
    - unfold lvec_red. now rewrite map_length, upd_length.
    - intros Hq y Hy. unfold lvec_red in Hy. apply in_map_iff in Hy. destruct Hy as (z & <- & _). now apply Z.mod_pos_bound.
    - intros i Hi. unfold lvec_red. rewrite (nth_map_lt _ _ _ _ 0) by (rewrite upd_length; lia). rewrite cong_mod.
      assert (A : cong q (nth i (upd o 0 ((nth 0 o 0 + (xp * x) mod r * (vdot (nth 0 (nth (S n) Ps []) []) G mod r)) mod r)) 0)
                 (nth i o 0 + pterm x (S n) i G)).
      { rewrite nth_upd. destruct (Nat.eqb_spec 0 i) as [<-|Ni].
        - replace (Nat.ltb 0 (length o)) with true by (symmetry; apply Nat.ltb_lt; lia).
          rewrite (cong_mod_dvd q r) by auto. rewrite (cong_mod_dvd q r (xp * x)) by auto. rewrite (cong_mod_dvd q r (vdot _ _)) by auto.
          rewrite F3. rewrite (vdot_sumf _ _ dp); [|apply (shape_row _ dp dp); auto|auto]. unfold pterm, mget.
          replace (1 + n - 1)%nat with n by lia. apply cong_of_eq.
          replace (Z.of_nat (S n)) with (Z.of_nat n + 1) by lia. rewrite Z.pow_add_r by lia. ring.
        - unfold pterm. rewrite sumf_zero; [apply cong_of_eq; ring|]. intros j _. rewrite ZP by lia. ring. }
      rewrite A. rewrite F4 by auto. rewrite T3 by auto. rewrite (cong_mod_dvd q r) by auto. rewrite LG.
      apply cong_of_eq. rewrite (sumf_ext (fun j => mp_entry Ps x i j * nth j G 0)
        (fun j => sumf (fun e => x ^ Z.of_nat e * mget (nth e Ps []) i j) (seq 0 (S (S n))) * nth j G 0)).
      2:{ intros j _. now rewrite (mp_entry_len Ps (S (S n))). }
      transitivity (sumf (fun k => pterm x k i G) (seq 0 (S (S n)))).
      + change (seq 0 (S (S n))) with (0%nat :: seq 1 (S n)). rewrite seq_S, sumf_cons, sumf_app, sumf_cons, sumf_nil.
        unfold pterm at 3. change (x ^ Z.of_nat 0) with 1. replace (1 + n)%nat with (S n) by lia. ring.
      + unfold pterm. rewrite (sumf_ext _ (fun k => sumf (fun j => x ^ Z.of_nat k * mget (nth k Ps []) i j * nth j G 0) (seq 0 dp))).
        2:{ intros k _. rewrite <- sumf_scal. apply sumf_ext. intros; ring. }
        rewrite sumf_swap. apply sumf_ext. intros j _. rewrite <- sumf_scal_r. reflexivity.
  Qed.
End STEP.

Section NDP.
  Variables (slv : solver) (N : dND).
  Notation D := (nd_dr N).
  Hypothesis ninv : nd_inv slv N.
  Hypothesis Hslv : solver_ok (r_q D) slv.
  Notation n := (r_n D).
  Notation d := (r_d D).
  Notation q := (r_q D).
  Notation zn := (Z.of_nat (r_n D)).
  Notation bas := (nd_basis N).
  Notation dp := (length bas).
  Variable v : vec.
  Hypothesis Hv : is_tuple (S n) d v.
  Hypothesis Hn : (1 <= n)%nat.
  Hypothesis Hq2 : 2 <= q.

  Lemma dp_pos : (0 < dp)%nat.
  Proof. apply (nbasis_0 slv N ninv Hslv). Qed.

  Lemma poly_put_fold M s ex : shape M dp dp -> (s = zn + 1 -> zrows M) -> s <= zn + 1 -> forall P,
    (forall k c, In (k, c) ex -> length k = S (S n) /\ nonneg k /\ zsum k = s) -> Rok (S (S n)) dp (zn + 1) P ->
    exists P', foldM (poly_put q n dp (s =? zn + 1) M) ex P = OK P' /\ Rok (S (S n)) dp (zn + 1) P' /\
    forall mu w, cong q (rval dp mu w P') (rval dp mu w P + sumf (fun ec => snd ec * mu (fst ec)) ex * wsum M dp dp w).
  Proof.
    intros SM ZM Hs. induction ex as [|[k c] ex IH]; intros P Hex HP; cbn [foldM].
    - exists P. split; auto. split; auto. intros. rewrite sumf_nil. apply cong_of_eq. ring.
    - destruct (Hex k c (or_introl eq_refl)) as (K1 & K2 & K3).
      unfold poly_put at 1. cbn [fst snd].
      destruct (Rok_find (S (S n)) dp (zn + 1) P k HP K1) as [F1 F2].
      set (Pk := match vfind k P with Some P0 => P0 | None => mzero dp dp end) in *.
      destruct (put_ok q q dp (s =? zn + 1) Pk c M ltac:(reflexivity) dp_pos F1 SM) as (P' & E1 & E2 & E3 & E4).
      { intros X. apply Z.eqb_eq in X. auto. }
      rewrite E1. cbn [bind].
      destruct (Rok_put (S (S n)) dp (zn + 1) P k P' HP K1 K2 ltac:(lia) E2) as [G1 G2].
      { intros X. rewrite K3 in *. apply E4; auto. intros i j Hi. now apply F2. }
      destruct (IH (vinsert k P' P)) as (P'' & I1 & I2 & I3); auto. { intros; apply (Hex k0 c0); now right. }
      exists P''. split; auto. split; auto. intros mu w. rewrite (I3 mu w), G2. fold Pk.
      rewrite (wsum_lin q Pk P' M dp c w E3). rewrite sumf_cons. cbn [fst snd]. apply cong_of_eq. ring.
  Qed.

  Lemma fit_ok key : length key = S n -> nonneg key -> zsum key <= zn + 1 ->
    forall i j, (i < length key)%nat -> 0 <= j <= nth i key 0 -> choose (Z.to_nat (nth i key 0)) (Z.to_nat j) < 2 ^ 63.
  Proof.
    intros Lk Nk Sk i j Hi Hj. pose proof (nd_nd slv N ninv) as ND.
    pose proof (nth_le_zsum key i Nk). pose proof (nonneg_nth key i Nk).
    pose proof (inv_fit _ _ (ni_dr _ _ ninv) ((zn + 1) * d) ltac:(nia)) as F.
    pose proof (choose_fit n (Z.to_nat (nth i key 0)) (Z.to_nat j) (Z.to_nat ((zn + 1) * d)) ltac:(lia) ltac:(lia) ltac:(nia)).
    replace (Z.to_nat ((zn + 1) * d + zn)) with (Z.to_nat ((zn + 1) * d) + n)%nat in F by nia. lia.
  Qed.

  Lemma crmp_ok : exists R P, compute_reduction_matrix_ND slv N v = OK R /\
    compute_reduction_matrix_ND_poly slv N v = OK P /\ Rok (S (S n)) dp (zn + 1) P /\
    forall u x w, length u = S n -> cong q (rval dp (mono (u ++ [x])) w P) (rval dp (mono (vadd u (vscale x v))) w R).
  Proof.
    destruct (crm_ok slv N ninv Hslv v Hv Hn) as (R & ER & [R1 R2] & _).
    unfold compute_reduction_matrix_ND_poly. cbv zeta. rewrite ER. cbn [bind].
    assert (F : forall L P, (forall key M, In (key, M) L -> In (key, M) R) -> Rok (S (S n)) dp (zn + 1) P ->
      exists P', foldM (fun P kM => ex <- change_of_variables_monomial (fst kM) v ;;
        foldM (poly_put q n dp (sumf (fun i => nth i (fst kM) 0) (seq 0 (S n)) =? zn + 1) (snd kM)) ex P) L P = OK P' /\
        Rok (S (S n)) dp (zn + 1) P' /\
        forall u x w, length u = S n -> cong q (rval dp (mono (u ++ [x])) w P')
          (rval dp (mono (u ++ [x])) w P + rval dp (mono (vadd u (vscale x v))) w L)).
    { induction L as [|[key M] L IH]; intros P HL HP; cbn [foldM].
      - exists P. split; auto. split; auto. intros. unfold rval at 3. rewrite sumf_nil. apply cong_of_eq. ring.
      - cbn [fst snd]. pose proof (HL key M (or_introl eq_refl)) as HinR.
        destruct (R2 _ _ HinR) as (SM & Nk & Sk & Zk). assert (Lk : length key = S n) by (eapply vsorted_len; eauto).
        destruct Hv as (V1 & V2 & V3).
        destruct (covm_ok key v ltac:(congruence) Nk (fit_ok key Lk Nk Sk)) as (ex & X1 & X2 & X3).
        rewrite X1. cbn [bind]. rewrite sumf_nth_zsum by auto.
        destruct (poly_put_fold M (zsum key) ex SM) with (P := P) as (P1 & E1 & E2 & E3); auto.
        { intros k c Hin. rewrite Lk in X2. split; [eapply vsorted_len; [apply X2|eauto]|]. split; [eapply (proj2 X2); eauto|].
          apply (covm_homog key v ex X1). apply in_map_iff. exists (k, c). auto. }
        rewrite E1. cbn [bind]. destruct (IH P1) as (P' & I1 & I2 & I3); auto. { intros; apply HL; now right. }
        exists P'. split; auto. split; auto. intros u x w Lu. rewrite (I3 u x w Lu), (E3 _ w).
        change (sumf (fun ec => snd ec * mono (u ++ [x]) (fst ec)) ex) with (peval ex (u ++ [x])).
        rewrite X3 by congruence. unfold rval. rewrite (sumf_cons _ (key, M)). cbn [fst snd]. apply cong_of_eq. ring. }
    destruct (F R [] ltac:(auto) (Rok_nil _ _ _)) as (P & E1 & E2 & E3). rewrite E1. cbn [bind].
    destruct (Rok_filter _ _ _ P E2) as [G1 G2].
    eexists R, _. split; [reflexivity|]. split; [reflexivity|]. split; auto. intros u x w Lu.
    rewrite G2, (E3 u x w Lu). unfold rval at 1. rewrite sumf_nil. reflexivity.
  Qed.

  (** the map of matrices is not empty, so the entry over ZZ exists *)
  Lemma crmp_ZZ_ok : compute_reduction_matrix_ND_poly_ZZ slv N v = compute_reduction_matrix_ND_poly slv N v.
  Proof.
    destruct crmp_ok as (R & P & ER & EP & _ & HP). unfold compute_reduction_matrix_ND_poly_ZZ. rewrite EP. cbn [bind].
    destruct P as [|kM P]; [exfalso|reflexivity]. destruct Hv as (V1 & V2 & V3).
    apply (crm_nonzero slv N ninv Hslv v Hv Hn Hq2 R ER). intros u w Lu. specialize (HP u 0 w Lu).
    assert (E : vadd u (vscale 0 v) = u).
    { apply vec_ext; [rewrite (vadd_length _ _ (S n)); auto; now rewrite vscale_length|].
      intros i Hi. rewrite vadd_nth by (rewrite vscale_length; congruence). rewrite vscale_nth. ring. }
    rewrite E in HP. rewrite <- HP. unfold rval. rewrite sumf_nil. reflexivity.
  Qed.

  Definition psval (g : nat -> Z) (w : nat -> nat -> Z) (Ps : list mat) : Z :=
    sumf (fun k => g k * wsum (nth k Ps []) dp dp w) (seq 0 (S (S n))).

  Definition psok (Ps : list mat) : Prop :=
    length Ps = S (S n) /\ (forall k, (k < S (S n))%nat -> shape (nth k Ps []) dp dp) /\ zrows (nth (S n) Ps []).

  Lemma get_ND_poly_ok r u : (r = q \/ r = 0) -> length u = S n ->
    exists R Ps, compute_reduction_matrix_ND slv N v = OK R /\ get_ND_poly slv N r u v = OK Ps /\ psok Ps /\
      (0 < q -> mp_ok q dp Ps) /\
      forall x i j, (i < dp)%nat -> (j < dp)%nat -> cong q (mp_entry Ps x i j) (Rent (vadd u (vscale x v)) R i j).
  Proof.
    intros Hr Lu. assert (Hqr : (q | r)) by (destruct Hr as [->| ->]; [reflexivity|apply Z.divide_0_r]).
    destruct crmp_ok as (R & P & ER & EP & [P1 P2] & HP).
    unfold get_ND_poly. cbv zeta. rewrite crmp_ZZ_ok, EP. replace (if r =? 0 then OK P else OK P) with (OK P) by now destruct (r =? 0). cbn [bind].
    set (cf := fun kM : vec * mat => if r =? 0 then mono_ev n u (fst kM) else mono_ev n u (fst kM) mod q).
    assert (Hcf : forall kM : vec * mat, length (fst kM) = S (S n) -> cong q (cf kM) (mono u (fst kM))).
    { intros kM Lk. unfold cf. destruct (r =? 0); rewrite ?cong_mod, mono_ev_ok by lia; reflexivity. }
    match goal with |- context [foldM ?F P _] => set (fn := F) end.
    assert (F : forall L Ps, (forall key M, In (key, M) L -> In (key, M) P) -> psok Ps ->
      exists Ps', foldM fn L Ps = OK Ps' /\ psok Ps' /\
      forall g w, cong q (psval g w Ps') (psval g w Ps +
        sumf (fun kM => g (Z.to_nat (nth (S n) (fst kM) 0)) * mono u (fst kM) * wsum (snd kM) dp dp w) L)).
    { induction L as [|[key M] L IH]; intros Ps HL HPs; cbn [foldM].
      - exists Ps. split; auto. split; auto. intros. rewrite sumf_nil. apply cong_of_eq. ring.
      - pose proof (HL key M (or_introl eq_refl)) as HinP. destruct (P2 _ _ HinP) as (SM & Nk & Sk & Zk).
        assert (Lk : length key = S (S n)) by (eapply vsorted_len; eauto).
        destruct HPs as (Q1 & Q2 & Q3).
        pose proof (nonneg_nth key (S n) Nk) as Ni. pose proof (nth_le_zsum key (S n) Nk) as Ui.
        set (i := nth (S n) key 0) in *.
        assert (Gi : get_at Ps i = OK (nth (Z.to_nat i) Ps [])).
        { apply get_at_ok. split; [lia|]. apply nth_error_nth'. lia. }
        assert (Es : i + sumf (fun j => nth j key 0) (seq 0 (S n)) = zsum key).
        { rewrite <- (sumf_nth_zsum key (S (S n))) by auto. rewrite (seq_S (S n)), sumf_app, sumf_cons, sumf_nil.
          cbn [Nat.add]. fold i. lia. }
        destruct (put_ok q r dp (zsum key =? zn + 1) (nth (Z.to_nat i) Ps []) (cf (key, M)) M Hqr dp_pos) as (Pi & E1 & E2 & E3 & E4); auto.
        { apply Q2. lia. }
        { intros X. apply Z.eqb_eq in X. exact (Zk X). }
        assert (Efn : fn Ps (key, M) = OK (upd Ps (Z.to_nat i) Pi)).
        { unfold fn. cbn [fst snd]. fold i. rewrite Gi. cbn [bind]. rewrite Es. unfold cf in E1. cbn [fst snd] in E1. now rewrite E1. }
        rewrite Efn. cbn [bind].
        destruct (IH (upd Ps (Z.to_nat i) Pi)) as (Ps' & I1 & I2 & I3). { intros; apply HL; now right. }
        { split; [now rewrite upd_length|]. split.
          - intros k Hk. rewrite nth_upd. destruct (Nat.eqb_spec (Z.to_nat i) k) as [<-|]; [|now apply Q2].
            destruct (Nat.ltb_spec (Z.to_nat i) (length Ps)); [auto|lia].
          - rewrite nth_upd. destruct (Nat.eqb_spec (Z.to_nat i) (S n)) as [X|]; [|exact Q3].
            destruct (Nat.ltb_spec (Z.to_nat i) (length Ps)); [|lia]. apply E4; [now rewrite X|].
            intros a b Hab. apply Zk; auto. lia. }
        exists Ps'. split; auto. split; auto. intros g w. rewrite (I3 g w), sumf_cons. cbn [fst snd]. fold i.
        assert (C : cong q (psval g w (upd Ps (Z.to_nat i) Pi)) (psval g w Ps + g (Z.to_nat i) * (cf (key, M) * wsum M dp dp w))).
        { unfold psval. rewrite (sumf_seq_change _ (fun k => g k * wsum (nth k Ps []) dp dp w) 0 (S (S n)) (Z.to_nat i)); [|lia|].
          - apply cong_add; [reflexivity|]. rewrite nth_upd_eq by lia.
            rewrite (wsum_lin q (nth (Z.to_nat i) Ps []) Pi M dp (cf (key, M)) w E3). apply cong_of_eq. ring.
          - intros k _ Hk. now rewrite nth_upd_neq by auto. }
        rewrite C. rewrite (Hcf (key, M)) by auto. cbn [fst]. apply cong_of_eq. ring. }
    destruct (F P (repeat (mzero dp dp) (S (S n)))) as (Ps & E1 & (E2 & E3 & E4) & E5); auto.
    { split; [apply repeat_length|]. split.
      - intros k Hk. rewrite nth_repeat_any. destruct (Nat.ltb_spec k (S (S n))); [apply shape_mzero|lia].
      - rewrite nth_repeat_any. destruct (Nat.ltb_spec (S n) (S (S n))); [|lia]. intros i j _. apply mget_mzero. }
    rewrite E1. cbn [bind]. eexists R, _. split; [assumption|]. split; [reflexivity|].
    assert (NT : forall k, (k < S (S n))%nat -> nth k (map (map (lvec_red q)) Ps) [] = map (lvec_red q) (nth k Ps [])).
    { intros k Hk. exact (nth_map_lt (map (lvec_red q)) Ps k [] [] ltac:(eapply Nat.lt_le_trans; [exact Hk|apply Nat.eq_le_incl; symmetry; exact E2])). }
    assert (MG : forall k i j, (k < S (S n))%nat -> (i < dp)%nat -> (j < dp)%nat -> mget (nth k (map (map (lvec_red q)) Ps) []) i j = mget (nth k Ps []) i j mod q).
    { intros k i j Hk Hi Hj. rewrite NT by auto. pose proof (E3 k Hk) as S3. unfold mget.
      rewrite (nth_map_lt (lvec_red q) (nth k Ps []) i [] []) by (destruct S3; lia).
      unfold lvec_red. rewrite (nth_map_lt _ _ _ _ 0); auto. rewrite (shape_row _ dp dp) by auto. auto. }
    assert (SK : psok (map (map (lvec_red q)) Ps)).
    { assert (S' : forall k, (k < S (S n))%nat -> shape (nth k (map (map (lvec_red q)) Ps) []) dp dp).
      { intros k Hk. rewrite NT by auto. destruct (E3 k Hk) as [A1 A2]. split; [now rewrite map_length|].
        rewrite Forall_forall in *. intros x Hx. apply in_map_iff in Hx. destruct Hx as (y & <- & Hy). unfold lvec_red. rewrite map_length. auto. }
      split; [now rewrite map_length|]. split; auto.
      intros i j Hi. destruct (Nat.lt_ge_cases i dp) as [Li|Li]; [destruct (Nat.lt_ge_cases j dp) as [Lj|Lj]|].
      - rewrite MG by auto. rewrite E4 by auto. apply Zmod_0_l.
      - eapply mget_out; [apply S'; lia|auto].
      - eapply mget_out; [apply S'; lia|auto]. }
    split; auto. split.
    { intros Hq A HA. apply in_map_iff in HA. destruct HA as (B & <- & HB).
      destruct (In_nth _ _ [] HB) as (k & Hk & <-). destruct (E3 k ltac:(eapply Nat.lt_le_trans; [exact Hk|apply Nat.eq_le_incl; exact E2])) as [A1 A2].
      split; [now rewrite map_length|]. intros row Hrow. apply in_map_iff in Hrow. destruct Hrow as (y & <- & Hy).
      rewrite Forall_forall in A2. split; [unfold lvec_red; rewrite map_length; auto|].
      intros x Hx. unfold lvec_red in Hx. apply in_map_iff in Hx. destruct Hx as (z & <- & _). now apply Z.mod_pos_bound. }
    intros x i j Hi Hj.
    set (w := fun a b => if Nat.eqb a i && Nat.eqb b j then 1 else 0).
    transitivity (psval (fun k => x ^ Z.of_nat k) w Ps).
    { rewrite (mp_entry_len _ (S (S n))) by now rewrite map_length. unfold psval. apply cong_sumf. intros k Hk. apply in_seq in Hk.
      rewrite MG by lia. unfold w. rewrite wsum_at by auto. now rewrite cong_mod. }
    rewrite E5. unfold psval at 1. rewrite sumf_zero.
    2:{ intros k Hk. apply in_seq in Hk. rewrite nth_repeat_any. destruct (Nat.ltb k (S (S n))); [|unfold w]; rewrite ?wsum_mzero; try ring.
        rewrite wsum_at by auto. unfold mget. destruct i, j; cbn; ring. }
    rewrite Z.add_0_l.
    transitivity (rval dp (mono (u ++ [x])) w P).
    { apply cong_of_eq. unfold rval. apply sumf_ext. intros [key M] Hin. cbn [fst snd].
      assert (Lk : length key = S (S n)) by (eapply vsorted_len; eauto).
      rewrite mono_snoc by congruence. rewrite Lu.
      destruct (P2 _ _ Hin) as (_ & Nk & _). pose proof (nonneg_nth key (S n) Nk). rewrite Z2Nat.id by auto. ring. }
    rewrite HP by auto. apply cong_of_eq. unfold rval, Rent. apply sumf_ext. intros [key M] _. cbn [fst snd].
    unfold w. now rewrite wsum_at.
  Qed.

  Section LOOP.
    Variable u : vec.
    Hypothesis Lu : length u = S n.
    Hypothesis Du : (d | zsum u).

    Lemma ux_ok x : length (vadd u (vscale x v)) = S n /\ (d | zsum (vadd u (vscale x v))).
    Proof.
      destruct Hv as (V1 & V2 & V3).
      assert (L : length (vscale x v) = S n) by now rewrite vscale_length.
      split; [now apply vadd_length|]. rewrite zsum_vadd by congruence. rewrite zsum_vscale, V3.
      apply Z.divide_add_r; [auto|apply Z.divide_factor_r].
    Qed.

    (** the value of one step depends on the matrix polynomial only *)
    Lemma single_step R (Ps : list mat) x G1 G2 G1' : compute_reduction_matrix_ND slv N v = OK R ->
      (forall i j, (i < dp)%nat -> (j < dp)%nat -> cong q (mp_entry Ps x i j) (Rent (vadd u (vscale x v)) R i j)) ->
      length G2 = dp -> vcong q G1 G2 -> length G1' = dp ->
      (forall i, (i < dp)%nat -> cong q (nth i G1' 0) (sumf (fun j => mp_entry Ps x i j * nth j G1 0) (seq 0 dp))) ->
      exists G2', reduce_vector_ND slv N (vadd u (vscale x v)) v G2 = OK G2' /\ length G2' = dp /\ vcong q G1' G2'.
    Proof.
      intros ER HE L2 [L12 H12] L1' H1. destruct (ux_ok x) as [U1 U2].
      destruct (reduce_vector_ND_ok slv N ninv Hslv v Hv Hn _ U1 U2 G2 L2) as (R' & G2' & ER' & E1 & E2 & E3).
      rewrite ER in ER'. injection ER' as <-. exists G2'. split; auto. split; auto. split; [congruence|].
      intros i Hi. rewrite L1' in Hi. rewrite H1, E3 by auto. apply cong_sumf. intros j Hj. apply in_seq in Hj.
      rewrite HE by lia. rewrite H12 by lia. reflexivity.
    Qed.

    Section PS.
      Variables (r : Z) (R : vmap mat) (Ps : list mat).
      Hypothesis Hr : (q | r).
      Hypothesis ER : compute_reduction_matrix_ND slv N v = OK R.
      Hypothesis HPs : psok Ps.
      Hypothesis HE : forall x i j, (i < dp)%nat -> (j < dp)%nat -> cong q (mp_entry Ps x i j) (Rent (vadd u (vscale x v)) R i j).

      (** the loop of single evaluations; [chk] is any check that passes below the bound *)
      Lemma loop_ok (chk : Z -> res unit) k : (forall x, 0 <= x < Z.of_nat k -> chk x = OK tt) -> forall G1 G2, length G2 = dp -> vcong q G1 G2 ->
        exists A B, foldM (fun Gin x => _ <- chk x ;; nd_poly_step q r n Ps Gin x) (rev (zseq 0 (Z.of_nat k))) G1 = OK A /\
          steps_down_ND slv N u v k G2 = OK B /\ length B = dp /\ vcong q A B.
      Proof.
        induction k as [|k IH]; intros Hc G1 G2 L2 H12.
        - exists G1, G2. auto.
        - replace (Z.of_nat (S k)) with (Z.of_nat k + 1) by lia.
          rewrite zseq_snoc by lia. rewrite rev_app_distr. cbn [rev app foldM steps_down_ND].
          rewrite Hc by lia. cbn [bind].
          destruct HPs as (Q1 & Q2 & Q3).
          destruct (nd_poly_step_ok q r n dp Ps Hr dp_pos Q1 Q2 Q3 G1 (Z.of_nat k)) as (A1 & A2 & A3 & _ & A4).
          { destruct H12. congruence. }
          destruct (single_step R Ps (Z.of_nat k) G1 G2 A1 ER (HE (Z.of_nat k)) L2 H12 A3 A4) as (B1 & B2 & B3 & B4).
          rewrite A2, B2. cbn [bind]. apply IH; auto. intros; apply Hc; lia.
      Qed.

      (** the product of FdSpec *)
      Lemma product_ok k : forall G1 G2, length G2 = dp -> vcong q G1 G2 ->
        exists B, steps_down_ND slv N u v k G2 = OK B /\ length B = dp /\ vcong q (mp_product dp Ps k G1) B.
      Proof.
        induction k as [|k IH]; intros G1 G2 L2 H12; cbn [mp_product steps_down_ND]; [eauto|].
        destruct (single_step R Ps (Z.of_nat k) G1 G2 (mp_apply dp Ps (Z.of_nat k) G1) ER (HE (Z.of_nat k)) L2 H12) as (B1 & B2 & B3 & B4).
        - unfold mp_apply. now rewrite map_length, seq_length.
        - intros i Hi. unfold mp_apply. rewrite (nth_map_lt _ _ _ _ O) by now rewrite seq_length.
          rewrite seq_nth by auto. reflexivity.
        - rewrite B2. cbn [bind]. now apply IH.
      Qed.
    End PS.

    Lemma reduce_vector_ND_poly_ok r k G : (r = q \/ r = 0) -> length G = dp ->
      exists A B, reduce_vector_ND_poly slv N r u v (Z.of_nat k) G = OK A /\
        steps_down_ND slv N u v k G = OK B /\ length B = dp /\ vcong q A B.
    Proof.
      intros Hr LG. assert (Hqr : (q | r)) by (destruct Hr as [->| ->]; [reflexivity|apply Z.divide_0_r]).
      destruct (get_ND_poly_ok r u Hr Lu) as (R & Ps & ER & EP & H1 & _ & H3).
      unfold reduce_vector_ND_poly. cbv zeta. rewrite (nd_pre_ok slv N ninv v Hv) by auto. cbn [bind]. rewrite EP. cbn [bind].
      replace (Z.of_nat k <? 0) with false by (symmetry; apply Z.ltb_ge; lia).
      exact (loop_ok r R Ps Hqr ER H1 H3 (fun _ => OK tt) k ltac:(auto) G G LG (vcong_refl _ _)).
    Qed.

    Lemma reduce_vector_ND_poly_flint_ok : exists Ps, get_ND_poly_flint slv N u v = OK Ps /\ length Ps = S (S n) /\
      (0 < q -> mp_ok q dp Ps) /\
      forall k G, length G = dp ->
      (2 ^ 64 <= q \/ (Z.of_nat k <= zn + 1 /\ Z.of_nat k <= q) \/
       (2 <= q /\ Z.of_nat k <= q /\ (forall x, In x G -> 0 <= x < q) /\ nested Ps /\ exists e i j, nth j (nth i (nth e Ps []) []) 0 <> 0)) ->
      exists A B, reduce_vector_ND_poly_flint n q Ps (Z.of_nat k) G = OK A /\
        steps_down_ND slv N u v k G = OK B /\ length B = dp /\ vcong q A B.
    Proof.
      destruct (get_ND_poly_ok 0 u (or_intror eq_refl) Lu) as (R & Ps & ER & EP & H1 & H2 & H3).
      exists Ps. unfold get_ND_poly_flint. rewrite (nd_pre_ok slv N ninv v Hv) by auto. cbn [bind]. split; auto.
      split; [apply H1|]. split; auto. intros k G LG Hc. unfold reduce_vector_ND_poly_flint.
      destruct (Z.leb_spec (2 ^ 64) q) as [Hq|Hq].
      { exact (loop_ok 0 R Ps (Z.divide_0_r _) ER H1 H3 (fun _ => OK tt) k ltac:(auto) G G LG (vcong_refl _ _)). }
      destruct Hc as [Hc|Hc]; [lia|].
      destruct (Z.ltb_spec (zn + 1) (Z.of_nat k)) as [Hk|Hk].
      - destruct Hc as [Hc|(C1 & C2 & C3 & C4 & C5)]; [lia|].
        assert (LP : zlen Ps - 1 < Z.of_nat k <= q).
        { destruct H1 as (X & _). unfold zlen. rewrite X. lia. }
        rewrite (finitediff_ok q dp Ps (Z.of_nat k) G C1 (H2 ltac:(lia)) C4 C5 LP LG C3).
        destruct (product_ok R Ps ER H3 k G G LG (vcong_refl _ _)) as (B & B1 & B2 & B3).
        eexists _, B. split; [reflexivity|]. do 2 (split; [assumption|]). rewrite Nat2Z.id.
        destruct B3 as [B3 B4]. split; [now rewrite map_length|]. intros i Hi. rewrite map_length in Hi.
        rewrite (nth_map_lt _ _ _ _ 0) by auto. rewrite cong_mod. auto.
      - exact (loop_ok q R Ps (Z.divide_refl _) ER H1 H3 (fun x => check (x <? q) EUB) k
          ltac:(intros x Hx; unfold check; replace (x <? q) with true by (symmetry; apply Z.ltb_lt; lia); reflexivity) G G LG (vcong_refl _ _)).
    Qed.

    Lemma reduce_vector_ND_poly_flint_joined_ok : exists Ps, get_ND_poly_flint slv N u v = OK Ps /\ length Ps = S (S n) /\
      (0 < q -> mp_ok q dp Ps) /\
      forall k G, length G = dp ->
      (2 ^ 64 <= q \/ (Z.of_nat k <= zn + 1 /\ Z.of_nat k <= q) \/
       (2 <= q /\ Z.of_nat k <= q /\ (forall x, In x G -> 0 <= x < q) /\ exists e i j, nth j (nth i (nth e Ps []) []) 0 <> 0)) ->
      exists A B, reduce_vector_ND_poly_flint_joined n q Ps (Z.of_nat k) G = OK A /\
        steps_down_ND slv N u v k G = OK B /\ length B = dp /\ vcong q A B.
    Proof.
      destruct (get_ND_poly_ok 0 u (or_intror eq_refl) Lu) as (R & Ps & ER & EP & H1 & H2 & H3).
      exists Ps. unfold get_ND_poly_flint. rewrite (nd_pre_ok slv N ninv v Hv) by auto. cbn [bind]. split; auto.
      split; [apply H1|]. split; auto. intros k G LG Hc. unfold reduce_vector_ND_poly_flint_joined.
      destruct (Z.leb_spec (2 ^ 64) q) as [Hq|Hq].
      { exact (loop_ok 0 R Ps (Z.divide_0_r _) ER H1 H3 (fun _ => OK tt) k ltac:(auto) G G LG (vcong_refl _ _)). }
      destruct Hc as [Hc|Hc]; [lia|].
      destruct (Z.ltb_spec (zn + 1) (Z.of_nat k)) as [Hk|Hk].
      - destruct Hc as [Hc|(C1 & C2 & C3 & C5)]; [lia|].
        assert (LP : zlen Ps - 1 < Z.of_nat k <= q).
        { destruct H1 as (X & _). unfold zlen. rewrite X. lia. }
        rewrite (finitediff_joined_ok q dp Ps (Z.of_nat k) G C1 (H2 ltac:(lia)) C5 LP LG C3).
        destruct (product_ok R Ps ER H3 k G G LG (vcong_refl _ _)) as (B & B1 & B2 & B3).
        eexists _, B. split; [reflexivity|]. do 2 (split; [assumption|]). rewrite Nat2Z.id.
        destruct B3 as [B3 B4]. split; [now rewrite map_length|]. intros i Hi. rewrite map_length in Hi.
        rewrite (nth_map_lt _ _ _ _ 0) by auto. rewrite cong_mod. auto.
      - exact (loop_ok q R Ps (Z.divide_refl _) ER H1 H3 (fun x => check (x <? q) EUB) k
          ltac:(intros x Hx; unfold check; replace (x <? q) with true by (symmetry; apply Z.ltb_lt; lia); reflexivity) G G LG (vcong_refl _ _)).
    Qed.
  End LOOP.
End NDP.
