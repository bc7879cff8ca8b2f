(** Proofs: directions, the path of monomial_to_basis_J, and its result (C23, C24). *)
From Coq Require Import ZArith List Lia Bool.
From Verif Require Import Base VecModel VecSpec VecProofs ToolsModel ToolsSpec ToolsProofs PolyProofs
  MatModel MatProofs DRModel DRSpec DRProofs DRRed DRStep DRFinal.
Import ListNotations.
Open Scope Z_scope.

(** * directions *)
Definition dir_inv (w v : vec) : Prop :=
  length v = length w /\ forall i, (i < length w)%nat -> 0 <= nth i v 0 <= nth i w 0 /\ (0 < nth i w 0 -> 0 < nth i v 0).

Lemma dir_inv_cons x w y v : dir_inv (x :: w) (y :: v) <-> (0 <= y <= x /\ (0 < x -> 0 < y)) /\ dir_inv w v.
Proof.
  unfold dir_inv. cbn [length]. split.
  - intros [L H]. split; [apply (H 0%nat); lia|]. split; [lia|]. intros i Hi. apply (H (S i)). lia.
  - intros [H0 [L H]]. split; [lia|]. intros [|i] Hi; cbn [nth]; auto. apply H. lia.
Qed.

Lemma dir_inv_nil_l v : dir_inv [] v -> v = [].
Proof. intros [H _]. now destruct v. Qed.

Lemma dir_bump_ok w : forall v, dir_inv w v -> zsum v < zsum w ->
  exists v', dir_bump w v = Some v' /\ dir_inv w v' /\ zsum v' = zsum v + 1.
Proof.
  induction w as [|x w IH]; intros v H Hs.
  - apply dir_inv_nil_l in H. subst. cbn in Hs. lia.
  - destruct v as [|y v]; [destruct H as [H _]; discriminate|].
    apply dir_inv_cons in H. destruct H as [H0 H]. cbn [zsum] in Hs. cbn [dir_bump].
    destruct (Z.ltb_spec 0 x); cbn [andb].
    + destruct (Z.ltb_spec y x).
      * eexists. split; [reflexivity|]. split; [apply dir_inv_cons; split; auto; lia|]. cbn [zsum]. lia.
      * destruct (IH v H) as (v' & E & I & S); [lia|]. rewrite E. cbn [option_map]. eexists. split; [reflexivity|].
        split; [apply dir_inv_cons; auto|]. cbn [zsum]. lia.
    + destruct (IH v H) as (v' & E & I & S); [lia|]. rewrite E. cbn [option_map]. eexists. split; [reflexivity|].
      split; [apply dir_inv_cons; auto|]. cbn [zsum]. lia.
Qed.

Lemma dir_loop_ok d w : d <= zsum w -> forall fuel v, dir_inv w v -> zsum v <= d -> d - zsum v <= Z.of_nat fuel ->
  exists v', dir_loop fuel d w v (zsum v) = OK v' /\ dir_inv w v' /\ zsum v' = d.
Proof.
  intros Hw. induction fuel as [|fuel IH]; intros v H Hs Hf; cbn [dir_loop].
  - replace (zsum v <? d) with false by (symmetry; apply Z.ltb_ge; lia). exists v. split; [reflexivity|]. split; [exact H|lia].
  - destruct (Z.ltb_spec (zsum v) d).
    + destruct (dir_bump_ok w v H) as (v' & E & I & S); [lia|]. rewrite E.
      destruct (IH v' I) as (v'' & E2 & I2 & S2); [lia|lia|]. rewrite S in E2. eauto.
    + exists v. split; [reflexivity|]. split; [exact H|lia].
Qed.

Lemma zsum_signs_le w : zsum (map (fun x => if 0 <? x then 1 else 0) w) <= Z.of_nat (length w).
Proof. induction w as [|x w IH]; cbn [map zsum length]; [lia|]. destruct (0 <? x); lia. Qed.

Lemma choose_dir_ok d w : nonneg w -> Z.of_nat (length w) <= d -> d <= zsum w ->
  exists v, choose_dir d w = OK v /\ length v = length w /\ zsum v = d /\
    forall i, (i < length w)%nat -> 0 <= nth i v 0 <= nth i w 0 /\ (0 < nth i w 0 -> 0 < nth i v 0).
Proof.
  intros Hw Hl Hd. unfold choose_dir.
  set (v0 := map (fun x => if 0 <? x then 1 else 0) w).
  assert (H0 : dir_inv w v0).
  { split; [unfold v0; now rewrite map_length|]. intros i Hi. unfold v0. rewrite (nth_map_lt _ _ _ _ 0) by auto.
    pose proof (nonneg_nth w i Hw). destruct (Z.ltb_spec 0 (nth i w 0)); lia. }
  pose proof (zsum_signs_le w) as S0. fold v0 in S0.
  assert (0 <= zsum v0).
  { apply nonneg_zsum. apply nonneg_iff. intros i Hi. destruct H0 as [L H0]. apply H0. lia. }
  destruct (dir_loop_ok d w Hd (Z.to_nat d) v0 H0) as (v & E & [I1 I2] & S); [lia|lia|].
  exists v. auto.
Qed.

(** the loop spins exactly when the degree is too small *)
Lemma choose_dir_stuck d w : nonneg w -> zsum w < d -> choose_dir d w = Err EFuel.
Proof.
  intros Hw Hd. unfold choose_dir.
  set (v0 := map (fun x => if 0 <? x then 1 else 0) w).
  assert (H0 : dir_inv w v0).
  { split; [unfold v0; now rewrite map_length|]. intros i Hi. unfold v0. rewrite (nth_map_lt _ _ _ _ 0) by auto.
    pose proof (nonneg_nth w i Hw). destruct (Z.ltb_spec 0 (nth i w 0)); lia. }
  assert (B : forall w' v v', dir_inv w' v -> dir_bump w' v = Some v' -> dir_inv w' v' /\ zsum v' = zsum v + 1).
  { clear. induction w' as [|x w IH]; intros v v' H E; [discriminate|].
    destruct v as [|y v]; [discriminate|]. apply dir_inv_cons in H. destruct H as [H1 H2]. cbn [dir_bump] in E.
    destruct ((0 <? x) && (y <? x)) eqn:C.
    - injection E as <-. rewrite andb_true_iff, !Z.ltb_lt in C. split; [apply dir_inv_cons; split; auto; lia|]. cbn [zsum]. lia.
    - destruct (dir_bump w v) as [v2|] eqn:E2; [|discriminate]. injection E as <-. destruct (IH _ _ H2 E2).
      split; [apply dir_inv_cons; auto|]. cbn [zsum]. lia. }
  assert (LE : forall v, dir_inv w v -> zsum v <= zsum w).
  { clear. induction w as [|x w IH]; intros v H.
    - apply dir_inv_nil_l in H. now subst.
    - destruct v as [|y v]; [destruct H; discriminate|]. apply dir_inv_cons in H. destruct H as [H1 H2].
      specialize (IH v H2). cbn [zsum]. lia. }
  generalize (Z.to_nat d) as fuel. intros fuel. revert H0. generalize v0. clear v0.
  induction fuel as [|fuel IH]; intros v H; cbn [dir_loop]; pose proof (LE v H);
    (replace (zsum v <? d) with true by (symmetry; apply Z.ltb_lt; lia)); auto.
  destruct (dir_bump w v) as [v'|] eqn:E; auto. destruct (B _ _ _ H E) as [I <-]. auto.
Qed.

Section MTB.
  Variables (slv : solver) (D : dR).
  Hypothesis inv : dr_inv slv D.
  Hypothesis Hslv : solver_ok (r_q D) slv.
  Notation n := (r_n D).
  Notation d := (r_d D).
  Notation q := (r_q D).
  Notation zn := (Z.of_nat (r_n D)).
  Notation E l := (enum (S n) (Z.to_nat l)).
  Notation bas := (r_basis D).
  Notation LG := (E (degG D)).
  Hypothesis Hq : 2 <= q.
  Hypothesis Hn : (1 <= n)%nat.

  Lemma vec_sub_ok a b : length a = length b -> vec_sub a b = OK (vsub a b).
  Proof. intros H. unfold vec_sub. rewrite H, Nat.eqb_refl. reflexivity. Qed.

  Section ONE.
  Variable phi : Z -> list Z -> Z.
  Hypothesis Hphi : GD q n d (r_f D) phi.

  Lemma mtb_loop_ok k : forall w G, is_tuple (S n) (d * (zn + Z.of_nat k) - degG D) w -> length G = length LG ->
    exists w' G', mtb_loop slv D k w G = OK (w', G') /\ is_tuple (S n) zn w' /\ length G' = length LG /\
      cong q (ev phi zn w' LG G') (ev phi (zn + Z.of_nat k) w LG G).
  Proof.
    pose proof (inv_nd _ _ inv) as ND.
    induction k as [|k IH]; intros w G (W1 & W2 & W3) HG.
    - exists w, G. split; auto. split.
      + split; auto. split; auto. rewrite W3. unfold degG. lia.
      + split; auto. rewrite Z.add_0_r. reflexivity.
    - cbn [mtb_loop].
      destruct (choose_dir_ok d w W2) as (v & C1 & C2 & C3 & C4).
      { lia. } { rewrite W3. unfold degG. nia. }
      rewrite C1. cbn [bind]. rewrite vec_sub_ok by congruence. cbn [bind].
      assert (Lv : length v = S n) by congruence.
      assert (Tw : is_tuple (S n) (d * (zn + Z.of_nat k) - degG D) (vsub w v)).
      { split; [now apply vsub_length|]. split.
        - apply nonneg_iff. rewrite (vsub_length _ _ (S n)) by auto. intros i Hi. rewrite vsub_nth by congruence.
          destruct (C4 i); lia.
        - rewrite zsum_vsub by congruence. rewrite W3, C3. lia. }
      assert (Huv : forall i, (i <= n)%nat -> nth i (vsub w v) 0 = 0 \/ 0 < nth i v 0).
      { intros i Hi. rewrite vsub_nth by congruence. destruct (C4 i ltac:(lia)) as [A B].
        destruct (Z.eq_dec (nth i w 0 - nth i v 0) 0); auto. right. apply B. lia. }
      destruct (reduction_matrix_class slv D inv Hslv q (Z.divide_refl q) (vsub w v) v Lv C3 Huv phi Hphi
        (zn + Z.of_nat k) Tw) as (R & R1 & R2 & R3).
      rewrite R1. cbn [bind]. destruct (R3 G HG) as (G' & G1 & G2 & G3). rewrite G1. cbn [bind].
      destruct (IH (vsub w v) G' Tw G2) as (w' & G'' & I1 & I2 & I3 & I4).
      exists w', G''. split; auto. split; auto. split; auto. rewrite I4, G3. apply cong_of_eq.
      replace (zn + Z.of_nat (S k)) with (zn + Z.of_nat k + 1) by lia. f_equal.
      rewrite eplus_vadd. apply vec_ext.
      + rewrite (vadd_length _ _ (S n)); auto. apply Tw.
      + intros i Hi. rewrite vadd_nth by (rewrite (vsub_length _ _ (S n)) by auto; congruence).
        rewrite vsub_nth by congruence. lia.
  Qed.

  Lemma unit_at_length N i : length (unit_at N i) = N.
  Proof. unfold unit_at. now rewrite upd_length, repeat_length. Qed.
  Lemma unit_at_nth N i j : (i < N)%nat -> nth j (unit_at N i) 0 = if Nat.eqb i j then 1 else 0.
  Proof.
    intros Hi. unfold unit_at. rewrite nth_upd, repeat_length, nth_repeat_any.
    destruct (Nat.eqb_spec i j) as [->|].
    - destruct (Nat.ltb_spec j N); [auto|lia].
    - destruct (Nat.ltb j N); auto.
  Qed.

  Variable psi : list Z -> Z.
  Hypothesis Hpsi : basis_val q n d bas phi psi.
  Variables (u : vec) (m : Z).
  Hypothesis Hu : length u = S n.
  Hypothesis Hup : forall i, (i <= n)%nat -> 0 < nth i u 0.
  Hypothesis Hum : zsum u = m * d.

  Lemma mtb_ok_phi : exists F, monomial_to_basis_J slv D u = OK F /\ length F = length bas /\
    cong q (ev_basis psi bas F) (phi m (epred u)).
  Proof.
    pose proof (inv_nd _ _ inv) as ND. assert (Hd : 0 < d) by lia.
    assert (Un : nonneg u).
    { apply nonneg_iff. intros i Hi. specialize (Hup i ltac:(lia)). lia. }
    assert (Ss : zn + 1 <= zsum u).
    { clear - Hu Hup. assert (G : forall l : list Z, (forall i, (i < length l)%nat -> 0 < nth i l 0) -> Z.of_nat (length l) <= zsum l).
      { induction l as [|x l IH]; intros H; cbn [length zsum]; [lia|].
        pose proof (H 0%nat ltac:(cbn; lia)) as H0. cbn in H0.
        assert (forall i, (i < length l)%nat -> 0 < nth i l 0) by (intros i Hi; apply (H (S i)); cbn; lia).
        specialize (IH H1). lia. }
      specialize (G u). rewrite Hu in G. assert (Z.of_nat (S n) <= zsum u) by (apply G; intros; apply Hup; lia). lia. }
    assert (Hm : 1 <= m) by nia.
    unfold monomial_to_basis_J. unfold check at 1. rewrite Hu, Nat.eqb_refl. cbn [bind].
    assert (Pu : positive u = true) by (apply positive_iff; rewrite Hu; intros; apply Hup; lia).
    unfold check at 1. unfold positive in Pu. rewrite Pu. fold (positive u) in Pu. cbn [bind].
    unfold check at 1. rewrite Hum, Z.mod_mul by lia. cbn [bind]. rewrite Z.eqb_refl. cbn [bind]. rewrite Z.div_mul by lia.
    destruct (Z.ltb_spec zn m) as [Hlt|Hge].
    - assert (HG : 0 <= degG D <= (zn + 1) * d) by (unfold degG; nia).
      destruct (tweak_ok u (degG D) Un) as (w & T1 & T2 & T3a & T4 & T5 & _); [lia|].
      assert (T3 : forall i, 0 <= nth i w 0 <= nth i u 0) by (intros i; split; [now apply nonneg_nth|apply T5]).
      rewrite T1. cbn [bind].
      assert (Lw : length w = S n) by congruence.
      rewrite vec_sub_ok by congruence. cbn [bind].
      rewrite (inv_tl _ _ inv) by lia. cbn [bind]. rewrite (inv_td _ _ inv) by lia. cbn [bind].
      assert (Sw : zsum w = m * d - degG D).
      { rewrite T4, Hum. enough (degG D <= m * d) by lia. unfold degG. nia. }
      assert (Ts : is_tuple (S n) (Z.of_nat (Z.to_nat (degG D))) (vsub u w)).
      { split; [now apply vsub_length|]. split.
        - apply nonneg_iff. intros i Hi. rewrite (vsub_length _ _ (S n)) in Hi by auto.
          rewrite vsub_nth by congruence. specialize (T3 i); lia.
        - rewrite zsum_vsub by congruence. lia. }
      destruct (pos_ok _ _ _ Ts) as (P1 & P2 & P3). rewrite P1. cbn [bind].
      set (j := pos n _ (vsub u w)) in *.
      unfold check at 1. replace (Nat.ltb j (length LG)) with true by (symmetry; now apply Nat.ltb_lt). cbn [bind].
      assert (Tw : is_tuple (S n) (d * (zn + Z.of_nat (Z.to_nat (m - zn))) - degG D) w).
      { split; auto. split.
        - apply nonneg_iff. rewrite Lw. intros i Hi. specialize (T3 i); lia.
        - rewrite Sw, Z2Nat.id by lia. lia. }
      destruct (mtb_loop_ok (Z.to_nat (m - zn)) w (unit_at (length LG) j) Tw (unit_at_length _ _))
        as (w' & G' & L1 & L2 & L3 & L4).
      rewrite L1. cbn [bind fst snd]. unfold check at 1. rewrite (proj2 (proj2 L2)), Z.eqb_refl. cbn [bind].
      destruct (inclusion_class slv D inv Hn w' (proj1 L2) (proj2 (proj2 L2)) phi G' L3) as (M & G1 & I1 & I2 & I3 & I4 & I5).
      rewrite I1. cbn [bind]. rewrite I3. cbn [bind].
      assert (Hk : 1 <= zn <= zn) by lia.
      assert (EH : zn * d - (zn + 1) = degG D - 1) by (unfold degG; lia).
      destruct (final_class slv D inv Hslv Hq phi psi Hphi Hpsi zn G1 Hk) as (M2 & F & F1 & F2 & F3 & F4 & F5); [now rewrite EH|].
      rewrite F1. cbn [bind]. rewrite F3. exists F. split; auto. split; auto.
      rewrite F5, EH, I5, L4. rewrite Z2Nat.id by lia. replace (zn + (m - zn)) with m by lia.
      unfold ev. rewrite (sumf_seq_single _ 0 (length LG) j); [|lia|].
      + rewrite unit_at_nth, Nat.eqb_refl by auto. rewrite P3, Z.mul_1_l. unfold phi_div. rewrite eplus_vadd.
        replace (vadd w (vsub u w)) with u; [now rewrite Pu|].
        apply vec_ext.
        * rewrite (vadd_length _ _ (S n)); auto. now apply vsub_length.
        * intros i Hi. rewrite vadd_nth by (rewrite (vsub_length _ _ (S n)); auto).
          rewrite vsub_nth by congruence. lia.
      + intros k _ Hne. rewrite unit_at_nth by auto. destruct (Nat.eqb_spec j k); [congruence|ring].
    - assert (Hl : 0 <= zsum u - (zn + 1) <= (zn + 1) * d) by nia.
      rewrite Hum in Hl. rewrite (inv_tl _ _ inv) by lia. cbn [bind]. rewrite (inv_td _ _ inv) by lia. cbn [bind].
      change (map (fun x => x - 1) u) with (epred u).
      assert (Te : is_tuple (S n) (Z.of_nat (Z.to_nat (m * d - (zn + 1)))) (epred u)).
      { split; [now rewrite epred_length|]. split.
        - apply nonneg_iff. rewrite epred_length. intros i Hi. rewrite epred_nth by auto.
          specialize (Hup i ltac:(lia)). lia.
        - rewrite epred_sum, Hu, Hum. lia. }
      destruct (pos_ok _ _ _ Te) as (P1 & P2 & P3). rewrite P1. cbn [bind].
      set (j := pos n _ (epred u)) in *.
      unfold check at 1. match goal with |- context [Nat.ltb j ?X] => replace (Nat.ltb j X) with true by (symmetry; now apply Nat.ltb_lt) end.
      cbn [bind].
      assert (Hk : 1 <= m <= zn) by lia.
      destruct (final_class slv D inv Hslv Hq phi psi Hphi Hpsi m (unit_at (length (E (m * d - (zn + 1)))) j) Hk (unit_at_length _ _))
        as (M2 & F & F1 & F2 & F3 & F4 & F5).
      rewrite F1. cbn [bind]. rewrite F3. exists F. split; auto. split; auto. rewrite F5.
      unfold ev_poly. rewrite (sumf_seq_single _ 0 _ j); [|lia|].
      + rewrite unit_at_nth, Nat.eqb_refl by auto. rewrite P3, Z.mul_1_l. reflexivity.
      + intros k _ Hne. rewrite unit_at_nth by auto. destruct (Nat.eqb_spec j k); [congruence|ring].
  Qed.
  End ONE.

  Lemma zero_GD : GD q n d (r_f D) (fun _ _ => 0).
  Proof. intros m i h _ _. rewrite sumf_zero by (intros; ring). apply cong_of_eq. ring. Qed.
  Lemma zero_basis : basis_val q n d bas (fun _ _ => 0) (fun _ => 0).
  Proof. intros b _. apply cong_of_eq. ring. Qed.

  Lemma mtb_ok u m : length u = S n -> (forall i, (i <= n)%nat -> 0 < nth i u 0) -> zsum u = m * d ->
    exists F, monomial_to_basis_J slv D u = OK F /\ length F = length bas /\
    forall phi psi, GD q n d (r_f D) phi -> basis_val q n d bas phi psi ->
      cong q (ev_basis psi bas F) (phi m (epred u)).
  Proof.
    intros H1 H2 H3. destruct (mtb_ok_phi _ zero_GD _ zero_basis u m H1 H2 H3) as (F & F1 & F2 & _).
    exists F. split; auto. split; auto. intros phi psi G B.
    destruct (mtb_ok_phi phi G psi B u m H1 H2 H3) as (F' & F1' & _ & C). rewrite F1 in F1'. injection F1' as <-. exact C.
  Qed.

  Lemma final_class_all k : 1 <= k <= zn -> let L := E (k * d - (zn + 1)) in
    exists M, get_final_reduction_matrix_J slv D k = OK M /\ shape M (length bas) (length L) /\
    forall H, length H = length L -> exists w, mat_vec q M H = OK w /\ length w = length bas /\
    forall phi psi, GD q n d (r_f D) phi -> basis_val q n d bas phi psi ->
      cong q (ev_basis psi bas w) (ev_poly phi k L H).
  Proof.
    intros Hk L.
    destruct (final_class slv D inv Hslv Hq _ _ zero_GD zero_basis k (repeat 0 (length L)) Hk (repeat_length _ _))
      as (M & w & F1 & F2 & _). exists M. split; auto. split; auto. intros H HL.
    destruct (final_class slv D inv Hslv Hq _ _ zero_GD zero_basis k H Hk HL) as (M' & w' & F1' & F2' & F3' & F4' & _).
    rewrite F1 in F1'. injection F1' as <-. exists w'. split; auto. split; auto. intros phi psi G B.
    destruct (final_class slv D inv Hslv Hq phi psi G B k H Hk HL) as (M'' & w'' & A1 & _ & A3 & _ & A5).
    rewrite F1 in A1. injection A1 as <-. rewrite F3' in A3. injection A3 as <-. exact A5.
  Qed.
End MTB.
