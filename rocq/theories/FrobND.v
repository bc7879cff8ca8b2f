(** The non-degenerate Frobenius routines: directions, destinations and classes. *)
From Coq Require Import ZArith List Lia Bool Znumtheory.
From Verif Require Import Base VecModel VecSpec VecProofs ToolsModel ToolsSpec ToolsProofs MatModel MatProofs
  DRModel DRSpec DRProofs DRRed DRStep DRFinal DRPath
  FrobModel FrobSpec FrobSum FrobTop FdModel FdSpec NDModel NDSpec NDRed NDCol NDStep NDPoly NDBasis FrobNDModel.
Import ListNotations.
Open Scope Z_scope.

Lemma veqb_refl a : veqb a a = true.
Proof. unfold veqb. destruct (list_eq_dec Z.eq_dec a a); congruence. Qed.

Lemma ev_ND_vcong q Phi u bs A B : length A = length bs -> vcong q A B -> cong q (ev_ND Phi u bs A) (ev_ND Phi u bs B).
Proof.
  intros LA [_ H]. unfold ev_ND. apply cong_sumf. intros c Hc. apply in_seq in Hc. rewrite (H c) by lia. reflexivity.
Qed.

Lemma lvec_red_len q G : length (lvec_red q G) = length G.
Proof. apply map_length. Qed.
Lemma lvec_red_vcong q G : vcong q (lvec_red q G) G.
Proof.
  split; [apply map_length|]. intros i Hi. unfold lvec_red in *. rewrite map_length in Hi.
  rewrite (nth_map_lt _ _ _ _ 0) by auto. apply cong_mod.
Qed.
Lemma lvec_red_range q G x : 2 <= q -> In x (lvec_red q G) -> 0 <= x < q.
Proof. intros Hq I. apply in_map_iff in I. destruct I as (y & <- & _). apply Z.mod_pos_bound. lia. Qed.

Lemma ev_ND_zero Phi u bs k : ev_ND Phi u bs (repeat 0 k) = 0.
Proof.
  unfold ev_ND. apply sumf_zero. intros c _. rewrite nth_repeat_any. destruct (Nat.ltb c k); ring.
Qed.
Lemma ev_ND_add q Phi u bs v w x : lvec_add q v w = OK x -> length v = length bs -> length w = length bs ->
  cong q (ev_ND Phi u bs x) (ev_ND Phi u bs v + ev_ND Phi u bs w) /\ length x = length bs.
Proof.
  intros H H1 H2. destruct (lvec_add_ok q v w) as (y & E1 & E2 & E3); [congruence|].
  rewrite H in E1. injection E1 as <-. split; [|lia]. unfold ev_ND. rewrite <- sumf_plus.
  apply cong_sumf. intros c Hc. apply in_seq in Hc. rewrite E3 by lia. rewrite cong_mod.
  apply cong_of_eq. ring.
Qed.
Lemma all_zero_ev_ND q Phi u bs G : all_zero q G = true -> cong q (ev_ND Phi u bs G) 0.
Proof.
  intros H. unfold all_zero in H. rewrite forallb_forall in H. unfold ev_ND.
  transitivity (sumf (fun _ : nat => 0) (seq 0 (length bs))); [|rewrite sumf_zero by auto; reflexivity].
  apply cong_sumf. intros c _. destruct (Nat.lt_ge_cases c (length G)) as [L|L].
  - specialize (H (nth c G 0) (nth_In _ _ L)). apply Z.eqb_eq in H. rewrite <- (cong_mod q (nth c G 0)), H.
    apply cong_of_eq. ring.
  - rewrite nth_overflow by lia. apply cong_of_eq. ring.
Qed.
Lemma lvec_add_range q v w x : 2 <= q -> lvec_add q v w = OK x -> forall y, In y x -> 0 <= y < q.
Proof.
  intros Hq H y I. destruct (Nat.eq_dec (length v) (length w)) as [L|L].
  - destruct (lvec_add_ok q v w L) as (z & E1 & E2 & E3). rewrite H in E1. injection E1 as <-.
    destruct (In_nth _ _ 0 I) as (i & I1 & I2). rewrite <- I2, E3 by lia. apply Z.mod_pos_bound. lia.
  - unfold lvec_add in H. destruct (Nat.eqb_spec (length v) (length w)); [lia|discriminate].
Qed.

Section FND.
  Variables (slv : solver) (N : dND).
  Hypothesis ninv : nd_inv slv N.
  Notation D := (nd_dr N).
  Hypothesis Hslv : solver_ok (r_q D) slv.
  Notation n := (r_n D).
  Notation d := (r_d D).
  Notation p := (r_p D).
  Notation q := (r_q D).
  Notation zn := (Z.of_nat (r_n D)).
  Notation bas := (r_basis D).
  Notation nbas := (nd_basis N).
  Notation dp := (length (nd_basis N)).
  Hypothesis Hp : 2 <= p.
  Hypothesis Hq : 2 <= q.
  Hypothesis Hn : (1 <= n)%nat.
  Variables (ei : vec) (m P : Z).
  Hypothesis Hei : is_tuple (S n) (d * m - (zn + 1)) ei.
  Hypothesis Hm : 1 <= m.
  Hypothesis HP : 1 <= P.

  Let Hd : 1 <= d. Proof. pose proof (nd_nd slv N ninv). lia. Qed.
  Let Hnd : zn + 1 <= d. Proof. pose proof (nd_nd slv N ninv). lia. Qed.

  (** keys of H at pole order p e *)
  Definition keyok (k : fnd_kind) (e : Z) (h : vec) : Prop :=
    is_tuple (S n) (d * e) h /\ (forall i, (i <= n)%nat -> 1 <= nth i h 0) /\
    (k = KFlint -> m <= e -> forall i, (i <= n)%nat -> nth i ei 0 + 1 <= nth i h 0).

  Lemma dir_ok k e h : 1 <= e -> keyok k e h ->
    exists v, fnd_dir N k ei m e h = OK v /\ is_tuple (S n) d v /\
      (1 < e -> keyok k (e - 1) (vsub h v)) /\ (e = 1 -> v = h).
  Proof.
    intros He (Th & Ph & Kh). pose proof Th as (Lh & Nh & Sh). pose proof Hei as (Le & Ne & Se).
    unfold fnd_dir. destruct (Z.ltb_spec 1 e) as [L|L].
    2:{ exists h. split; auto. assert (e = 1) by lia. subst e. rewrite Z.mul_1_r in Th. split; auto. split; [lia|auto]. }
    assert (G : forall s, length s = S n -> (forall i, (i <= n)%nat -> 1 <= nth i s 0) ->
      (forall i, (i <= n)%nat -> nth i s 0 <= nth i h 0) ->
      zsum s >= d + (zn + 1) ->
      (k = KFlint -> m < e -> forall i, (i <= n)%nat -> nth i s 0 + nth i ei 0 <= nth i h 0) ->
      exists v, nd_dir d s = OK v /\ is_tuple (S n) d v /\
      (1 < e -> keyok k (e - 1) (vsub h v)) /\ (e = 1 -> v = h)).
    { intros s Ls Ps Sh' Ss Ks.
      destruct (nd_dir_ok d s ltac:(lia)) as (v & V1 & V2 & V3 & V4 & V5).
      { intros i Hi. apply Ps. lia. }
      { rewrite Ls. lia. }
      exists v. split; auto. assert (Lv : length v = S n) by congruence.
      split; [repeat split; auto|]. split; [|lia]. intros _. split; [|split].
      - split; [now apply vsub_length|]. split.
        + apply nonneg_iff. intros i Hi. rewrite (vsub_length _ _ (S n)) in Hi by auto.
          rewrite vsub_nth by congruence. specialize (V4 i ltac:(lia)). specialize (Sh' i ltac:(lia)). lia.
        + rewrite zsum_vsub by congruence. rewrite Sh, V5. ring.
      - intros i Hi. rewrite vsub_nth by congruence. specialize (V4 i ltac:(lia)). specialize (Sh' i Hi). lia.
      - intros K E1 i Hi. rewrite vsub_nth by congruence. specialize (V4 i ltac:(lia)). specialize (Ks K ltac:(lia) i Hi). lia. }
    assert (G0 : exists v, nd_dir d h = OK v /\ is_tuple (S n) d v /\
      (1 < e -> (k = KFlint -> e <= m) -> keyok k (e - 1) (vsub h v)) /\ (e = 1 -> v = h)).
    { destruct (nd_dir_ok d h ltac:(lia)) as (v & V1 & V2 & V3 & V4 & V5).
      { intros i Hi. apply Ph. lia. }
      { rewrite Lh, Sh. nia. }
      exists v. split; auto. assert (Lv : length v = S n) by congruence.
      split; [repeat split; auto|]. split; [|lia]. intros _ C. split; [|split].
      - split; [now apply vsub_length|]. split.
        + apply nonneg_iff. intros i Hi. rewrite (vsub_length _ _ (S n)) in Hi by auto.
          rewrite vsub_nth by congruence. specialize (V4 i ltac:(lia)). lia.
        + rewrite zsum_vsub by congruence. rewrite Sh, V5. ring.
      - intros i Hi. rewrite vsub_nth by congruence. specialize (V4 i ltac:(lia)). lia.
      - intros K E1. specialize (C K). lia. }
    assert (G1 : (k = KFlint -> e <= m) -> exists v, nd_dir d h = OK v /\ is_tuple (S n) d v /\
      (1 < e -> keyok k (e - 1) (vsub h v)) /\ (e = 1 -> v = h)).
    { intros C. destruct G0 as (v & V1 & V2 & V3 & V4). exists v. split; auto. }
    destruct k as [l|l|]; [apply G1; discriminate|apply G1; discriminate|].
    destruct (Z.ltb_spec m e) as [L'|L']; [|apply G1; auto].
    rewrite vec_sub_ok by congruence. cbn [bind]. apply G.
    - now apply vsub_length.
    - intros i Hi. rewrite vsub_nth by congruence. specialize (Kh eq_refl ltac:(lia) i Hi). lia.
    - intros i Hi. rewrite vsub_nth by congruence. pose proof (nonneg_nth ei i Ne). lia.
    - rewrite zsum_vsub by congruence. rewrite Sh, Se. nia.
    - intros _ _ i Hi. rewrite vsub_nth by congruence. lia.
  Qed.

  (** * single steps and several steps *)
  Definition okdest (u : vec) : Prop := length u = S n /\ (forall i, (i <= n)%nat -> 1 <= nth i u 0) /\ (d | zsum u).
  Lemma okdest_pos u : okdest u -> positive u = true.
  Proof. intros (L & H & _). apply positive_iff. intros i Hi. specialize (H i ltac:(lia)). lia. Qed.
  Lemma okdest_LGD u phi : okdest u -> GD q n d (r_f D) phi -> LGD q n d (r_f D) u (log_of d phi).
  Proof. intros H. apply GD_LGD; [exact Hd|exact (fhom slv N ninv)|apply H|now apply okdest_pos]. Qed.

  Lemma okdest_up u v k : okdest u -> is_tuple (S n) d v -> 0 <= k -> okdest (vadd u (vscale k v)).
  Proof.
    intros (L & H & Dv) (Lv & Nv & Sv) Hk.
    assert (L2 : length u = length (vscale k v)) by (rewrite vscale_length; congruence).
    split; [apply vadd_length; auto; now rewrite vscale_length|]. split.
    - intros i Hi. rewrite vadd_nth, vscale_nth by auto. pose proof (nonneg_nth v i Nv). specialize (H i Hi). nia.
    - rewrite zsum_vadd, zsum_vscale, Sv by auto. apply Z.divide_add_r; auto. apply Z.divide_factor_r.
  Qed.

  Lemma vadd_step u v k : length u = S n -> length v = S n ->
    vadd u (vscale (Z.of_nat (S k)) v) = vadd (vadd u (vscale (Z.of_nat k) v)) v.
  Proof.
    intros Lu Lv. apply vec_ext.
    - rewrite !(vadd_length _ _ (S n)); auto; rewrite ?vscale_length; auto. apply vadd_length; auto. now rewrite vscale_length.
    - intros i _. rewrite !vadd_nth, !vscale_nth; rewrite ?vscale_length; try congruence; [lia|].
      rewrite (vadd_length _ _ (S n)); auto. now rewrite vscale_length.
  Qed.
  Lemma vadd_zero u v : length u = S n -> length v = S n -> vadd u (vscale 0 v) = u.
  Proof.
    intros Lu Lv. apply vec_ext.
    - apply (eq_trans (vadd_length u (vscale 0 v) (S n) Lu ltac:(now rewrite vscale_length))). auto.
    - intros i _. rewrite vadd_nth, vscale_nth by (rewrite vscale_length; congruence). lia.
  Qed.

  Lemma steps_down_class v k : is_tuple (S n) d v -> forall u G, okdest u -> length G = dp ->
    exists B, steps_down_ND slv N u v k G = OK B /\ length B = dp /\
    forall phi, GD q n d (r_f D) phi ->
      cong q (ev_ND (log_of d phi) u nbas B) (ev_ND (log_of d phi) (vadd u (vscale (Z.of_nat k) v)) nbas G).
  Proof.
    intros Tv u G Ou. pose proof Tv as (Lv & _). pose proof Ou as (Lu & _). revert G.
    induction k as [|k IH]; intros G LG; cbn [steps_down_ND].
    - exists G. split; auto. split; auto. intros phi _. cbn [Z.of_nat]. rewrite vadd_zero by auto. reflexivity.
    - pose proof (okdest_up u v (Z.of_nat k) Ou Tv ltac:(lia)) as Ok.
      destruct (reduce_vector_ND_class slv N ninv Hslv v Tv Hn (vadd u (vscale (Z.of_nat k) v)) (proj1 Ok) (proj2 (proj2 Ok)) G LG) as (G' & E1 & E2 & E3).
      rewrite E1. cbn [bind]. destruct (IH G' E2) as (B & B1 & B2 & B3). exists B. split; auto. split; auto.
      intros phi Hphi. rewrite (B3 phi Hphi), (E3 _ (okdest_LGD _ phi Ok Hphi)). rewrite eplus_vadd, <- vadd_step by auto. reflexivity.
  Qed.

  Lemma fold_steps_ok step v u : is_tuple (S n) d v -> okdest u ->
    (forall dest G, okdest dest -> length G = dp -> exists G', step dest G = OK G' /\ length G' = dp /\
       forall phi, GD q n d (r_f D) phi ->
         cong q (ev_ND (log_of d phi) dest nbas G') (ev_ND (log_of d phi) (vadd dest v) nbas G)) ->
    forall (l : list Z) G, length G = dp ->
    exists G', foldM (fun (st : vec * list Z) (_ : Z) =>
        dest <- vec_sub (fst st) v ;; G' <- step dest (snd st) ;; OK (dest, G')) l
        (vadd u (vscale (Z.of_nat (length l)) v), G) = OK (u, G') /\ length G' = dp /\
      forall phi, GD q n d (r_f D) phi ->
        cong q (ev_ND (log_of d phi) u nbas G') (ev_ND (log_of d phi) (vadd u (vscale (Z.of_nat (length l)) v)) nbas G).
  Proof.
    intros Tv Ou Hs. pose proof Tv as (Lv & _). pose proof Ou as (Lu & _).
    induction l as [|x l IH]; intros G LG; cbn [foldM length fst snd].
    - exists G. cbn [Z.of_nat]. rewrite vadd_zero by auto. split; auto. split; auto. intros; reflexivity.
    - rewrite vadd_step by auto.
      pose proof (okdest_up u v (Z.of_nat (length l)) Ou Tv ltac:(lia)) as Ok.
      set (w := vadd u (vscale (Z.of_nat (length l)) v)) in *. pose proof (proj1 Ok) as Lw.
      assert (Lwv : length (vadd w v) = S n) by now apply vadd_length.
      rewrite vec_sub_ok by congruence. cbn [bind].
      replace (vsub (vadd w v) v) with w.
      2:{ apply vec_ext; [symmetry; rewrite Lw; now apply vsub_length|]. intros i _. rewrite vsub_nth, vadd_nth by congruence. lia. }
      destruct (Hs w G Ok LG) as (G1 & E1 & E2 & E3). rewrite E1. cbn [bind].
      destruct (IH G1 E2) as (G' & F1 & F2 & F3). exists G'. split; [exact F1|]. split; auto.
      intros phi Hphi. rewrite (F3 phi Hphi). apply E3. exact Hphi.
  Qed.

  (** the word-size FLINT routine needs nested coefficients (C36) *)
  Definition flint_fine : Prop :=
    2 ^ 64 <= q \/ (p <= zn + 1 /\ p <= q) \/
    (p <= q /\ forall e h v Ps, 1 <= e <= m + P - 1 -> is_tuple (S n) (d * e) h -> positive h = true ->
       (m <= e -> forall i, (i <= n)%nat -> nth i ei 0 + 1 <= nth i h 0) -> fnd_dir N KFlint ei m e h = OK v ->
       get_ND_poly_flint slv N (vsub (vscale p h) (vscale (if 1 <? e then p else p - 1) v)) v = OK Ps ->
       nested Ps /\ exists a b c, nth c (nth b (nth a Ps []) []) 0 <> 0).
  Definition kind_fine (k : fnd_kind) : Prop :=
    match k with KZZ l => (l <= 2)%nat | KZZp l => (l <= 1)%nat | KFlint => flint_fine end.

  Lemma reduce_ok k e h v G : kind_fine k -> 1 <= e <= m + P - 1 -> keyok k e h -> fnd_dir N k ei m e h = OK v -> is_tuple (S n) d v ->
    (1 < e -> keyok k (e - 1) (vsub h v)) -> (e = 1 -> v = h) ->
    length G = dp -> (forall x, In x G -> 0 <= x < q) ->
    let end_ := if 1 <? e then p else p - 1 in
    let dest := if 1 <? e then vscale p (vsub h v) else h in
    exists G', fnd_reduce slv N k end_ v h G = OK (dest, G') /\ length G' = dp /\ okdest dest /\
      forall phi, GD q n d (r_f D) phi ->
        cong q (ev_ND (log_of d phi) dest nbas G') (ev_ND (log_of d phi) (vscale p h) nbas G).
  Proof.
    intros Hk He Kh Dv Tv K1 K2 LG RG end_ dest. pose proof Kh as (Th & Ph & Fh). pose proof Th as (Lh & Nh & Sh).
    pose proof Tv as (Lv & Nv & Sv).
    assert (Ed : vsub (vscale p h) (vscale end_ v) = dest).
    { unfold end_, dest. destruct (Z.ltb_spec 1 e) as [L|L].
      - apply (vsub_scale D). congruence.
      - rewrite (K2 ltac:(lia)). apply vec_ext.
        + rewrite Lh. apply vsub_length; now rewrite vscale_length.
        + intros i _. rewrite vsub_nth, !vscale_nth by now rewrite !vscale_length. ring. }
    assert (Od : okdest dest).
    { unfold dest. destruct (Z.ltb_spec 1 e) as [L|L].
      - destruct (K1 L) as ((L1 & _ & L2) & L3 & _). split; [now rewrite vscale_length|]. split.
        + intros i Hi. rewrite vscale_nth. specialize (L3 i Hi). nia.
        + rewrite zsum_vscale, L2. exists (p * (e - 1)). ring.
      - split; auto. split; auto. rewrite Sh. apply Z.divide_factor_l. }
    pose proof Od as (Ld & Pd & Dd).
    assert (En : 0 <= end_) by (unfold end_; destruct (1 <? e); lia).
    assert (Eu : vadd dest (vscale end_ v) = vscale p h).
    { rewrite <- Ed. apply vec_ext.
      - rewrite vscale_length, Lh. apply vadd_length; [apply vsub_length|]; rewrite vscale_length; auto.
      - intros i _. rewrite vadd_nth, vsub_nth; [lia|rewrite !vscale_length; congruence|].
        rewrite (vsub_length _ _ (S n)); rewrite ?vscale_length; auto. }
    destruct (steps_down_class v (Z.to_nat end_) Tv dest G Od LG) as (B & B1 & B2 & B3).
    rewrite Z2Nat.id, Eu in B3 by auto.
    assert (FIN : forall A B', steps_down_ND slv N dest v (Z.to_nat end_) G = OK B' -> vcong q A B' ->
      length A = dp /\ okdest dest /\ forall phi, GD q n d (r_f D) phi ->
        cong q (ev_ND (log_of d phi) dest nbas A) (ev_ND (log_of d phi) (vscale p h) nbas G)).
    { intros A B' EB V. rewrite B1 in EB. injection EB as <-. assert (LA : length A = dp) by (destruct V; congruence).
      split; auto. split; auto. intros phi Hphi. rewrite <- (B3 phi Hphi). now apply ev_ND_vcong. }
    assert (POLY : forall r, (r = q \/ r = 0) -> exists G', (dest0 <- vec_sub (vscale p h) (vscale end_ v) ;;
        G' <- reduce_vector_ND_poly slv N r dest0 v end_ G ;; OK (dest0, G')) = OK (dest, G') /\ length G' = dp /\ okdest dest /\
      forall phi, GD q n d (r_f D) phi ->
        cong q (ev_ND (log_of d phi) dest nbas G') (ev_ND (log_of d phi) (vscale p h) nbas G)).
    { intros r Hr. rewrite vec_sub_ok by (rewrite !vscale_length; congruence). cbn [bind]. rewrite Ed.
      destruct (reduce_vector_ND_poly_ok slv N ninv Hslv v Tv Hn Hq dest Ld Dd r (Z.to_nat end_) G Hr LG) as (A & B' & E1 & E2 & E3 & E4).
      rewrite Z2Nat.id in E1 by auto. rewrite E1. cbn [bind]. exists A. split; auto. now apply (FIN A B'). }
    assert (STEPS : forall step, (forall dest G, okdest dest -> length G = dp -> exists G', step dest G = OK G' /\ length G' = dp /\
       forall phi, GD q n d (r_f D) phi ->
         cong q (ev_ND (log_of d phi) dest nbas G') (ev_ND (log_of d phi) (vadd dest v) nbas G)) ->
      exists G', fnd_steps N step v end_ h G = OK (dest, G') /\ length G' = dp /\ okdest dest /\
      forall phi, GD q n d (r_f D) phi ->
        cong q (ev_ND (log_of d phi) dest nbas G') (ev_ND (log_of d phi) (vscale p h) nbas G)).
    { intros step Hs. unfold fnd_steps. rewrite <- Eu.
      destruct (fold_steps_ok step v dest Tv Od Hs (zseq 0 end_) G LG) as (G' & E1 & E2 & E3).
      replace (Z.of_nat (length (zseq 0 end_))) with end_ in *.
      - exists G'. auto.
      - rewrite zseq_length. lia. }
    destruct k as [[|[|[|l]]]|[|[|l]]|]; cbn [kind_fine] in Hk; try lia; cbn [fnd_reduce].
    - apply POLY. auto.
    - apply STEPS. intros de G0 Ode LG0.
      destruct (reduce_vector_ND_ZZ_class slv N ninv Hslv v Tv Hn de (proj1 Ode) (proj2 (proj2 Ode)) G0 Hq LG0) as (G' & E1 & E2 & E3).
      rewrite E1. cbn [bind]. eexists. split; [reflexivity|]. rewrite lvec_red_len. split; auto. intros phi Hphi.
      rewrite <- (eplus_vadd de v), <- (E3 _ (okdest_LGD _ phi Ode Hphi)). apply ev_ND_vcong; [now rewrite lvec_red_len|apply lvec_red_vcong].
    - apply STEPS. intros de G0 Ode LG0.
      destruct (get_reduction_matrix_ND_class slv N ninv Hslv v Tv Hn de (proj1 Ode) (proj2 (proj2 Ode)) 0 (Z.divide_0_r _)) as (M & M1 & M2 & M3).
      rewrite M1. cbn [bind]. destruct (M3 G0 LG0) as (G' & E1 & E2 & E3). exists G'. split; auto. split; auto.
      intros phi Hphi. rewrite <- (eplus_vadd de v). apply E3. now apply okdest_LGD.
    - apply POLY. auto.
    - apply STEPS. intros de G0 Ode LG0.
      destruct (get_reduction_matrix_ND_class slv N ninv Hslv v Tv Hn de (proj1 Ode) (proj2 (proj2 Ode)) q (Z.divide_refl _)) as (M & M1 & M2 & M3).
      rewrite M1. cbn [bind]. destruct (M3 G0 LG0) as (G' & E1 & E2 & E3). exists G'. split; auto. split; auto.
      intros phi Hphi. rewrite <- (eplus_vadd de v). apply E3. now apply okdest_LGD.
    - rewrite vec_sub_ok by (rewrite !vscale_length; congruence). cbn [bind]. rewrite Ed.
      destruct (reduce_vector_ND_poly_flint_ok slv N ninv Hslv v Tv Hn Hq dest Ld Dd) as (Ps & E1 & E2 & E3 & E4).
      rewrite E1. cbn [bind].
      assert (Ee : end_ <= p) by (unfold end_; destruct (1 <? e); lia).
      destruct (E4 (Z.to_nat end_) G LG) as (A & B' & F1 & F2 & F3 & F4).
      { rewrite Z2Nat.id by auto. destruct Hk as [Hk|[Hk|[Hk Hk']]]; [now left|right; left; lia|].
        right. right. split; auto. split; [lia|]. split; auto. apply (Hk' e h v Ps); auto.
        - apply positive_iff. intros i Hi. specialize (Ph i ltac:(lia)). lia.
        - fold end_. rewrite Ed. exact E1. }
      rewrite Z2Nat.id in F1 by auto. rewrite F1. cbn [bind]. exists A. split; auto. now apply (FIN A B').
  Qed.

  (** * the map H *)
  Definition HvalN (phi : Z -> list Z -> Z) (H : vmap (list Z)) : Z :=
    sumf (fun hG => ev_ND (log_of d phi) (vscale p (fst hG)) nbas (snd hG)) H.
  Definition HokN (k : fnd_kind) (e : Z) (H : vmap (list Z)) : Prop :=
    vsorted (S n) H /\ forall h G, In (h, G) H -> keyok k e h /\ length G = dp /\ forall x, In x G -> 0 <= x < q.
  Lemma HokN_nil k e : HokN k e [].
  Proof. split; [apply vsorted_nil|]. intros h G []. Qed.
  Lemma HokN_insert k e H h G : HokN k e H -> keyok k e h -> length G = dp -> (forall x, In x G -> 0 <= x < q) ->
    HokN k e (vinsert h G H).
  Proof.
    intros [S0 K0] Kh LG RG. pose proof (proj1 (proj1 Kh)) as Lh. split; [apply vinsert_sorted; auto|]. intros h' G' I.
    apply (vinsert_In (S n)) in I; auto. destruct I as [[-> ->]|[_ I]]; auto.
  Qed.

  Lemma vadd_all_range G x : (forall y, In y G -> 0 <= y < q) -> forall y, In y (vadd_all q [(0%nat, x)] G) -> 0 <= y < q.
  Proof.
    intros RG y I. destruct (In_nth _ _ 0 I) as (i & I1 & <-). rewrite vadd_all_length in I1.
    destruct G as [|g G]; [cbn in I1; lia|]. unfold vadd_all. cbn [fold_left fst snd].
    destruct i as [|i].
    - cbn. apply Z.mod_pos_bound. lia.
    - cbn. apply RG. right. apply nth_In. cbn in I1. lia.
  Qed.

  Lemma mono_key k j u : is_tuple (S n) (d * j) u -> 0 <= j -> keyok k (m + j) (vadd (vadd u ei) (ones_vec n)).
  Proof.
    intros Tu Hj. pose proof (mono_tuple D Hn ei m Hei j u Tu) as Tm. split; auto. split.
    - intros i Hi. pose proof (mono_pos D Hn ei m Hei j u i Tu Hi). lia.
    - intros _ _ i Hi. destruct Tu as (Lu & Nu & _). destruct Hei as (Le & Ne & _).
      rewrite vadd_nth by (rewrite (ones_len D); apply vadd_length; auto). rewrite vadd_nth by congruence.
      rewrite (ones_nth D) by auto. pose proof (nonneg_nth u i Nu). lia.
  Qed.

  Lemma key_value k e h phi : 1 <= e -> keyok k e h -> log_of d phi (vscale p h) = phi (p * e) (epred (vscale p h)).
  Proof.
    intros He ((Lh & Nh & Sh) & Ph & _). unfold log_of, phi_div.
    replace (positive (vscale p h)) with true.
    - rewrite zsum_vscale, Sh. replace (p * (d * e)) with (p * e * d) by ring. now rewrite Z.div_mul by lia.
    - symmetry. apply positive_iff. intros i Hi. rewrite vscale_length in Hi. rewrite vscale_nth. specialize (Ph i ltac:(lia)). nia.
  Qed.

  Lemma fnd_add_ok k skip e c fact T : m <= e ->
    (forall u x, In (u, x) T -> is_tuple (S n) (d * (e - m)) u) ->
    forall H, HokN k e H -> exists H', fnd_add N skip ei c fact T H = OK H' /\ HokN k e H' /\
      forall phi, cong q (HvalN phi H')
        (HvalN phi H + c * fact * sumf (fun t => snd t * phi (p * e) (frob_mono p ei (fst t))) T).
  Proof.
    intros He. destruct (nbasis_0 slv N ninv Hslv) as [B0 Bp].
    induction T as [|[u x] T IH]; intros HT H HH.
    - exists H. split; [reflexivity|]. split; auto. intros phi. rewrite sumf_nil. apply cong_of_eq. ring.
    - assert (Hu : is_tuple (S n) (d * (e - m)) u) by (apply (HT u x); now left).
      pose proof Hu as (Lu & _). pose proof Hei as (Le & _). pose proof (ones_len D) as Lo.
      pose proof (mono_key k _ _ Hu ltac:(lia)) as Km. replace (m + (e - m)) with e in Km by ring.
      pose proof (mono_frob D Hn ei m Hei _ _ Hu) as Hfr.
      unfold fnd_add. cbv zeta. cbn [foldM fst snd]. rewrite vec_add_ok by congruence. cbn [bind].
      rewrite vec_add_ok by (rewrite Lo; apply vadd_length; auto). cbn [bind].
      set (mono := vadd (vadd u ei) (ones_vec n)) in *.
      pose proof (proj1 Km) as (Lm & Nm & Sm).
      set (xx := (c * x * fact) mod q).
      assert (Cxx : cong q xx (c * x * fact)) by apply cong_mod.
      destruct (skip && (xx =? 0)) eqn:SK.
      { apply andb_true_iff in SK. destruct SK as [_ SK]. apply Z.eqb_eq in SK.
        cbn [bind]. destruct (IH (fun u' x' I => HT u' x' (or_intror I)) H HH) as (H' & F1 & F2 & F3).
        exists H'. split; [exact F1|]. split; auto. intros phi. rewrite F3, sumf_cons. cbn [fst snd].
        rewrite SK in Cxx. rewrite Z.mul_add_distr_l.
        replace (c * fact * (x * phi (p * e) (frob_mono p ei u))) with ((c * x * fact) * phi (p * e) (frob_mono p ei u)) by ring.
        rewrite <- Cxx. apply cong_of_eq. ring. }
      set (G := match vfind mono H with Some G => G | None => repeat 0 dp end).
      pose proof HH as [HH1 HH2].
      assert (LG0 : length G = dp /\ forall y, In y G -> 0 <= y < q).
      { unfold G. destruct (vfind mono H) as [G0|] eqn:F.
        - apply (vfind_In (S n)) in F; auto. apply HH2 in F. split; apply F.
        - rewrite repeat_length. split; auto. intros y I. apply repeat_spec in I. lia. }
      destruct LG0 as [LG0 RG0]. rewrite LG0. destruct (Nat.ltb_spec 0 dp); [|lia]. cbn [check bind].
      set (G' := vadd_all q [(0%nat, xx)] G).
      assert (LG' : length G' = dp) by (unfold G'; now rewrite vadd_all_length).
      assert (HH' : HokN k e (vinsert mono G' H)).
      { apply HokN_insert; auto. now apply vadd_all_range. }
      destruct (IH (fun u' x' I => HT u' x' (or_intror I)) _ HH') as (H' & F1 & F2 & F3).
      exists H'. split; [exact F1|]. split; auto. intros phi. rewrite F3, sumf_cons. cbn [fst snd].
      assert (V : cong q (HvalN phi (vinsert mono G' H)) (HvalN phi H + c * fact * (x * phi (p * e) (frob_mono p ei u)))).
      { unfold HvalN. rewrite (FrobSum.sumf_vinsert (S n)); [|exact HH1|exact Lm]. cbn [fst snd].
        assert (W : cong q (ev_ND (log_of d phi) (vscale p mono) nbas G')
           (ev_ND (log_of d phi) (vscale p mono) nbas G + c * fact * (x * phi (p * e) (frob_mono p ei u)))).
        { unfold ev_ND, G'. pose proof (vadd_all_wsum q [(0%nat, xx)] G (fun c => log_of d phi (eplus (vscale p mono) (nth c nbas [])))) as W.
          rewrite LG0 in W.
          rewrite (sumf_ext _ (fun i => log_of d phi (eplus (vscale p mono) (nth i nbas [])) * nth i (vadd_all q [(0%nat, xx)] G) 0)) by (intros; ring).
          rewrite W. { rewrite sumf_cons, sumf_nil. cbn [fst snd]. rewrite B0.
            replace (eplus (vscale p mono) (repeat 0 (S n))) with (vscale p mono).
            - rewrite (key_value k e mono) by (auto; lia). rewrite Hfr. rewrite Cxx. apply cong_of_eq.
              rewrite (sumf_ext (fun i => log_of d phi (eplus (vscale p mono) (nth i nbas [])) * nth i G 0)
                  (fun c0 => nth c0 G 0 * log_of d phi (eplus (vscale p mono) (nth c0 nbas [])))) by (intros; ring). ring.
            - rewrite eplus_vadd. apply vec_ext.
              + rewrite vscale_length. symmetry. rewrite Lm. apply vadd_length; [now rewrite vscale_length|apply repeat_length].
              + intros i Hi. rewrite vadd_nth by (rewrite repeat_length, vscale_length; auto).
                replace (nth i (repeat 0 (S n)) 0) with 0 by (rewrite nth_repeat_any; destruct (Nat.ltb i (S n)); reflexivity). lia. }
          intros i y [I|[]]. injection I as <- <-. lia. }
        rewrite W. unfold G. destruct (vfind mono H) as [G0|]; [apply cong_of_eq; ring|].
        rewrite ev_ND_zero. apply cong_of_eq; ring. }
      rewrite V. apply cong_of_eq. ring.
  Qed.

  (** a pass down to pole order p (e-1), e > 1 *)
  Lemma fpass_high k e H F : kind_fine k -> 1 < e <= m + P - 1 -> HokN k e H ->
    exists H', fnd_pass slv N k ei m e H F = OK (H', F) /\ HokN k (e - 1) H' /\
      forall phi, GD q n d (r_f D) phi -> cong q (HvalN phi H') (HvalN phi H).
  Proof.
    intros Hk He [_ HH]. unfold fnd_pass. cbv zeta. replace (1 <? e) with true by (symmetry; apply Z.ltb_lt; lia).
    match goal with |- context [foldM ?f H ([], F)] => set (body := f) end.
    assert (X : forall L H0, (forall h G, In (h, G) L -> keyok k e h /\ length G = dp /\ forall x, In x G -> 0 <= x < q) -> HokN k (e - 1) H0 ->
      exists H', foldM body L (H0, F) = OK (H', F) /\ HokN k (e - 1) H' /\
      forall phi, GD q n d (r_f D) phi -> cong q (HvalN phi H') (HvalN phi H0 + HvalN phi L)).
    { induction L as [|[h G] L IH]; intros H0 HL HO.
      - exists H0. split; [reflexivity|]. split; auto. intros phi _. unfold HvalN at 3. rewrite sumf_nil. apply cong_of_eq. ring.
      - destruct (HL h G (or_introl eq_refl)) as (Kh & LG & RG).
        destruct (dir_ok k e h ltac:(lia) Kh) as (v & V1 & V2 & V3 & V4).
        destruct (reduce_ok k e h v G Hk ltac:(lia) Kh V1 V2 V3 V4 LG RG) as (G' & R1 & R2 & R3 & R4).
        replace (1 <? e) with true in * by (symmetry; apply Z.ltb_lt; lia).
        specialize (V3 ltac:(lia)). pose proof V3 as ((Ly & _ & _) & _).
        pose proof (proj1 Kh) as (Lh & _). pose proof V2 as (Lv & _).
        set (Gr := lvec_red q G'). assert (LGr : length Gr = dp) by (unfold Gr; now rewrite lvec_red_len).
        assert (EV : forall phi, GD q n d (r_f D) phi ->
           cong q (ev_ND (log_of d phi) (vscale p (vsub h v)) nbas Gr) (ev_ND (log_of d phi) (vscale p h) nbas G)).
        { intros phi Hphi. rewrite <- (R4 phi Hphi). apply ev_ND_vcong; auto. apply lvec_red_vcong. }
        assert (BODY : exists H1, body (H0, F) (h, G) = OK (H1, F) /\ HokN k (e - 1) H1 /\
          forall phi, GD q n d (r_f D) phi -> cong q (HvalN phi H1) (HvalN phi H0 + ev_ND (log_of d phi) (vscale p h) nbas G)).
        { unfold body. cbn [fst snd]. rewrite V1. cbn [bind]. rewrite R1. cbn [bind fst snd]. fold Gr.
          destruct (all_zero q Gr) eqn:Z0.
          - exists H0. split; auto. split; auto. intros phi Hphi. rewrite <- (EV phi Hphi), (all_zero_ev_ND _ _ _ _ _ Z0). apply cong_of_eq. ring.
          - rewrite vec_sub_ok by congruence. cbn [bind]. rewrite veqb_refl. cbn [check bind].
            assert (RGr : forall x, In x Gr -> 0 <= x < q) by (intros x I; eapply lvec_red_range; eauto).
            destruct (vfind (vsub h v) H0) as [G0|] eqn:FD.
            + assert (LG0 : length G0 = dp). { apply (vfind_In (S n)) in FD; [|apply HO|exact Ly]. apply HO in FD. apply FD. }
              destruct (lvec_add_total q G0 Gr) as (X & EX); [congruence|]. rewrite EX. cbn [bind].
              exists (vinsert (vsub h v) X H0). split; auto. split.
              * apply HokN_insert; auto; [apply (ev_ND_add q (fun _ => 0) [] nbas G0 Gr X EX LG0 LGr)|now apply (lvec_add_range q G0 Gr)].
              * intros phi Hphi. unfold HvalN. rewrite (FrobSum.sumf_vinsert (S n)); [|apply HO|auto]. cbn [fst snd]. rewrite FD.
                rewrite (proj1 (ev_ND_add q (log_of d phi) _ nbas G0 Gr X EX LG0 LGr)), (EV phi Hphi). apply cong_of_eq. ring.
            + exists (vinsert (vsub h v) Gr H0). split; auto. split; [now apply HokN_insert|].
              intros phi Hphi. unfold HvalN. rewrite (FrobSum.sumf_vinsert (S n)); [|apply HO|auto]. cbn [fst snd]. rewrite FD.
              rewrite (EV phi Hphi). apply cong_of_eq. ring. }
        destruct BODY as (H1 & B1 & B2 & B3). cbn [foldM]. rewrite B1. cbn [bind].
        destruct (IH H1 (fun h' G'' I => HL h' G'' (or_intror I)) B2) as (H' & E1 & E2 & E3).
        exists H'. split; [exact E1|]. split; auto. intros phi Hphi. rewrite (E3 phi Hphi), (B3 phi Hphi).
        unfold HvalN at 4. rewrite sumf_cons. fold (HvalN phi L). cbn [fst snd]. apply cong_of_eq. ring. }
    destruct (X H [] HH (HokN_nil _ _)) as (H' & E1 & E2 & E3). exists H'. split; [exact E1|]. split; auto.
  Qed.

  (** the last pass, to the basis *)
  Lemma fpass_last k H F : kind_fine k -> HokN k 1 H -> length F = length bas ->
    exists F', fnd_pass slv N k ei m 1 H F = OK ([], F') /\ length F' = length bas /\
      forall phi psi, GD q n d (r_f D) phi -> basis_val q n d bas phi psi ->
        cong q (ev_basis psi bas F') (ev_basis psi bas F + HvalN phi H).
  Proof.
    intros Hk [_ HH]. unfold fnd_pass. cbv zeta. replace (1 <? 1) with false by reflexivity.
    match goal with |- context [foldM ?f H ([], F)] => set (body := f) end.
    revert F. assert (X : forall L, (forall h G, In (h, G) L -> keyok k 1 h /\ length G = dp /\ forall x, In x G -> 0 <= x < q) ->
      forall F, length F = length bas ->
      exists F', foldM body L ([], F) = OK ([], F') /\ length F' = length bas /\
      forall phi psi, GD q n d (r_f D) phi -> basis_val q n d bas phi psi ->
        cong q (ev_basis psi bas F') (ev_basis psi bas F + HvalN phi L)).
    { induction L as [|[h G] L IH]; intros HL F LF.
      - exists F. split; [reflexivity|]. split; auto. intros phi psi _ _. unfold HvalN. rewrite sumf_nil. apply cong_of_eq. ring.
      - destruct (HL h G (or_introl eq_refl)) as (Kh & LG & RG).
        destruct (dir_ok k 1 h ltac:(lia) Kh) as (v & V1 & V2 & V3 & V4).
        destruct (reduce_ok k 1 h v G Hk ltac:(lia) Kh V1 V2 V3 V4 LG RG) as (G' & R1 & R2 & R3 & R4).
        replace (1 <? 1) with false in * by reflexivity.
        pose proof (proj1 Kh) as (Lh & _ & Sh). rewrite Z.mul_1_r in Sh.
        set (Gr := lvec_red q G'). assert (LGr : length Gr = dp) by (unfold Gr; now rewrite lvec_red_len).
        assert (EV : forall phi, GD q n d (r_f D) phi ->
           cong q (ev_ND (log_of d phi) h nbas Gr) (ev_ND (log_of d phi) (vscale p h) nbas G)).
        { intros phi Hphi. rewrite <- (R4 phi Hphi). apply ev_ND_vcong; auto. apply lvec_red_vcong. }
        assert (BODY : exists F1, body ([], F) (h, G) = OK ([], F1) /\ length F1 = length bas /\
          forall phi psi, GD q n d (r_f D) phi -> basis_val q n d bas phi psi ->
            cong q (ev_basis psi bas F1) (ev_basis psi bas F + ev_ND (log_of d phi) (vscale p h) nbas G)).
        { unfold body. cbn [fst snd]. rewrite V1. cbn [bind]. rewrite R1. cbn [bind fst snd]. fold Gr.
          destruct (all_zero q Gr) eqn:Z0.
          - exists F. split; auto. split; auto. intros phi psi Hphi _. rewrite <- (EV phi Hphi), (all_zero_ev_ND _ _ _ _ _ Z0). apply cong_of_eq. ring.
          - replace (match k with KFlint => true | _ => veqb h h end) with true by (rewrite veqb_refl; destruct k; reflexivity).
            cbn [check bind].
            destruct (ckn_ok slv N ninv Hslv Hq Hn h Lh (okdest_pos h R3) Sh) as (M & M1 & _ & M3). rewrite M1. cbn [bind].
            destruct (M3 Gr LGr) as (w & W1 & W2 & W3). rewrite W1. cbn [bind].
            destruct (lvec_add_total q F w) as (X & EX); [congruence|]. rewrite EX. cbn [bind].
            exists X. split; auto. split; [apply (ev_basis_add q (fun _ => 0) bas F w X EX LF W2)|].
            intros phi psi Hphi Hpsi. rewrite (proj1 (ev_basis_add q psi bas F w X EX LF W2)), (W3 phi psi Hphi Hpsi), (EV phi Hphi). reflexivity. }
        destruct BODY as (F1 & B1 & B2 & B3). cbn [foldM]. rewrite B1. cbn [bind].
        destruct (IH (fun h' G'' I => HL h' G'' (or_intror I)) F1 B2) as (F' & E1 & E2 & E3).
        exists F'. split; [exact E1|]. split; auto. intros phi psi Hphi Hpsi. rewrite (E3 phi psi Hphi Hpsi), (B3 phi psi Hphi Hpsi).
        unfold HvalN at 2. rewrite sumf_cons. fold (HvalN phi L). cbn [fst snd]. apply cong_of_eq. ring. }
    apply X. exact HH.
  Qed.

  (** * the loop *)
  Variable fpow : list poly.
  Hypothesis Hfl : P <= zlen fpow.
  Hypothesis Hfk : forall j T, nth_error fpow j = Some T ->
    forall u c, In (u, c) T -> is_tuple (S n) (d * Z.of_nat j) u.

  Lemma floop_ok k dj : kind_fine k ->
    (forall j, 0 <= j < P -> dj j = OK (D_coef m P j)) ->
    forall (e : nat) H F fact, Z.of_nat e <= m + P - 1 -> HokN k (Z.of_nat e) H -> length F = length bas ->
    fact_ok D m P (Z.of_nat e) fact ->
    exists H' F' fact', fnd_loop slv N k dj ei m fpow e (H, F, fact) = OK (H', F', fact') /\
      length F' = length bas /\ fact_ok D m P 0 fact' /\
      forall phi psi, GD q n d (r_f D) phi -> basis_val q n d bas phi psi ->
        cong q (ev_basis psi bas F') ((if Nat.eqb e 0 then 0 else HvalN phi H) + ev_basis psi bas F +
           sumf (Tm D ei m P fpow phi) (zseq 1 (Z.of_nat e + 1))).
  Proof.
    intros Hk Hdj. induction e as [|e IH]; intros H F fact He HH HF Hf.
    - exists H, F, fact. split; [reflexivity|]. split; auto. split; auto. intros phi psi _ _. rewrite zseq_nil by lia.
      rewrite sumf_nil. cbn [Nat.eqb]. apply cong_of_eq. ring.
    - cbn [fnd_loop]. set (ez := Z.of_nat (S e)) in *.
      assert (X : exists H1, (if m <=? ez
           then c <- dj (ez - m) ;; T <- get_at fpow (ez - m) ;;
                fnd_add N (match k with KFlint => true | _ => false end) ei c fact T H
           else OK H) = OK H1 /\ HokN k ez H1 /\ forall phi, cong q (HvalN phi H1) (HvalN phi H + Tm D ei m P fpow phi ez)).
      { unfold Tm. destruct (Z.leb_spec m ez) as [L|L].
        - rewrite Hdj by lia. cbn [bind]. destruct (fpow_at D Hn m P HP fpow Hfl Hfk ez ltac:(lia)) as (T & P1 & P2 & P3).
          rewrite P1. cbn [bind].
          destruct (fnd_add_ok k (match k with KFlint => true | _ => false end) ez (D_coef m P (ez - m)) fact T L P3 H HH) as (H1 & F1 & F2 & F3).
          exists H1. split; auto. split; auto. intros phi. rewrite F3, P2. unfold frob_term.
          replace (m + (ez - m)) with ez by ring. destruct Hf as [_ Hf]. rewrite Hf. rewrite Z.max_r by nia. reflexivity.
        - exists H. split; auto. split; auto. intros phi. apply cong_of_eq. ring. }
      destruct X as (H1 & X1 & X2 & X3). rewrite X1. cbn [bind].
      replace (zseq 1 (ez + 1)) with (zseq 1 ez ++ [ez]) by (symmetry; apply zseq_snoc; unfold ez; lia).
      pose proof (frob_fact_ok D Hp Hq Hn m P ez fact ltac:(unfold ez; lia) Hf) as Hf'.
      assert (Ee : ez - 1 = Z.of_nat e) by (unfold ez; lia). rewrite Ee in Hf'.
      destruct e as [|e'].
      + assert (E1 : ez = 1) by reflexivity. rewrite E1 in *.
        destruct (fpass_last k H1 F Hk X2 HF) as (F' & G1 & G2 & G3).
        rewrite G1. cbn [bind fst snd fnd_loop]. eexists _, F', _. split; [reflexivity|]. split; auto. split; auto.
        intros phi psi Hphi Hpsi. rewrite (G3 phi psi Hphi Hpsi), (X3 phi). cbn [Nat.eqb]. rewrite sumf_app, sumf_cons, sumf_nil, zseq_nil, sumf_nil by lia.
        apply cong_of_eq. ring.
      + destruct (fpass_high k ez H1 F Hk ltac:(unfold ez; lia) X2) as (H2 & G1 & G2 & G3).
        rewrite G1. cbn [bind fst snd]. rewrite Ee in G2.
        destruct (IH H2 F _ ltac:(lia) G2 HF Hf') as (H' & F' & fact' & E1 & E2 & E3 & E4).
        exists H', F', fact'. split; [exact E1|]. split; auto. split; auto. intros phi psi Hphi Hpsi.
        rewrite (E4 phi psi Hphi Hpsi). cbn [Nat.eqb]. rewrite (G3 phi Hphi), (X3 phi), sumf_app, sumf_cons, sumf_nil.
        replace (Z.of_nat (S e') + 1) with ez by (unfold ez; lia). apply cong_of_eq. ring.
  Qed.
End FND.
