(** Proofs: the reduction routines (matrix form, vector form, several steps). *)
From Coq Require Import ZArith List Lia Bool.
From Verif Require Import Base VecModel VecSpec VecProofs ToolsModel ToolsSpec ToolsProofs PolyProofs
  MatModel MatProofs DRModel DRSpec DRProofs DRRed.
Import ListNotations.
Open Scope Z_scope.

Lemma foldM_mat r (cf : nat -> Z) (A : nat -> mat) g h l : forall R0,
  shape R0 g h -> (forall i, In i l -> shape (A i) g h) ->
  exists R, foldM (fun R i => mat_add r R (mat_scal r (cf i) (A i))) l R0 = OK R /\ shape R g h /\
    forall a b, (a < g)%nat -> (b < h)%nat ->
      cong r (mget R a b) (mget R0 a b + sumf (fun i => cf i * mget (A i) a b) l).
Proof.
  induction l as [|i l IH]; intros R0 H0 HA; cbn [foldM].
  - exists R0. split; auto. split; auto. intros. rewrite sumf_nil. apply cong_of_eq. lia.
  - assert (Hi : shape (A i) g h) by (apply HA; now left).
    destruct (mat_add_ok r R0 (mat_scal r (cf i) (A i)) g h H0 (mat_scal_shape _ _ _ _ _ Hi)) as (C & E & S & G).
    rewrite E. cbn [bind]. destruct (IH C S) as (R & E2 & S2 & G2); [intros; apply HA; now right|].
    exists R. split; auto. split; auto. intros a b Ha Hb. rewrite (G2 a b Ha Hb), (G a b Ha Hb), sumf_cons.
    rewrite (mat_scal_get r (cf i) (A i) g h a b Hi Ha Hb).
    rewrite !cong_mod. apply cong_of_eq. lia.
Qed.

Lemma foldM_vec r (cf : nat -> Z) (A : nat -> mat) g G l : forall R0,
  length R0 = g -> (forall i, In i l -> shape (A i) g (length G)) ->
  exists R, foldM (fun R i => t <- mat_vec r (A i) G ;; lvec_add r R (lvec_scal r (cf i) t)) l R0 = OK R /\
    length R = g /\
    forall a, (a < g)%nat ->
      cong r (nth a R 0) (nth a R0 0 + sumf (fun i => cf i * sumf (fun c => mget (A i) a c * nth c G 0) (seq 0 (length G))) l).
Proof.
  induction l as [|i l IH]; intros R0 H0 HA; cbn [foldM].
  - exists R0. split; auto. split; auto. intros. rewrite sumf_nil. apply cong_of_eq. lia.
  - assert (Hi : shape (A i) g (length G)) by (apply HA; now left).
    destruct (mat_vec_ok r (A i) G g Hi) as (t & Et & Lt & Gt). rewrite Et. cbn [bind].
    destruct (lvec_add_ok r R0 (lvec_scal r (cf i) t)) as (C & E & S & Gc); [rewrite lvec_scal_length; congruence|].
    rewrite E. cbn [bind]. destruct (IH C) as (R & E2 & S2 & G2); [congruence|intros; apply HA; now right|].
    exists R. split; auto. split; auto. intros a Ha. rewrite (G2 a Ha), Gc, sumf_cons by lia.
    rewrite lvec_scal_nth, Gt by lia.
    rewrite !cong_mod. apply cong_of_eq. lia.
Qed.

Lemma step_pre_ok D u v : step_pre D u v = OK tt <->
  (forall i, (i <= r_n D)%nat -> nth i u 0 = 0 \/ 0 < nth i v 0) /\
  sumf (fun i => nth i v 0) (seq 0 (S (r_n D))) = r_d D.
Proof.
  unfold step_pre, check. destruct (forallb _ _) eqn:Hf; cbn [bind].
  - rewrite forallb_forall in Hf. destruct (Z.eqb_spec (sumf (fun i => nth i v 0) (seq 0 (S (r_n D)))) (r_d D)) as [Es|Es].
    + split; auto. intros _. split; auto. intros i Hi.
      specialize (Hf i). rewrite in_seq, orb_true_iff, Z.eqb_eq, Z.ltb_lt in Hf. apply Hf. lia.
    + split; [discriminate|]. intros [_ E]. congruence.
  - split; [discriminate|]. intros [H _]. exfalso.
    assert (forallb (fun i => (nth i u 0 =? 0) || (0 <? nth i v 0)) (seq 0 (S (r_n D))) = true).
    { apply forallb_forall. intros i Hi. apply in_seq in Hi. rewrite orb_true_iff, Z.eqb_eq, Z.ltb_lt. apply H. lia. }
    congruence.
Qed.

Lemma sumf_nth_zsum (v : list Z) n : length v = n -> sumf (fun i => nth i v 0) (seq 0 n) = zsum v.
Proof.
  intros <-. rewrite <- (sumf_nth (fun x => x) v 0). unfold sumf. now rewrite map_id.
Qed.

Lemma LG_at slv D (inv : dr_inv slv D) : get_at (r_tl D) (degG D) = OK (enum (S (r_n D)) (Z.to_nat (degG D))).
Proof. apply (inv_tl _ _ inv). pose proof (inv_nd _ _ inv). unfold degG. nia. Qed.

Section STEP.
  Variables (slv : solver) (D : dR).
  Hypothesis inv : dr_inv slv D.
  Hypothesis Hslv : solver_ok (r_q D) slv.
  Notation n := (r_n D).
  Notation d := (r_d D).
  Notation q := (r_q D).
  Notation LG := (enum (S n) (Z.to_nat (degG D))).
  Notation g := (length LG).
  Variable r : Z.
  Hypothesis Hr : (q | r).
  Variables u v : vec.
  Hypothesis Hlv : length v = S n.
  Hypothesis Hsv : zsum v = d.
  Hypothesis Huv : forall i, (i <= n)%nat -> nth i u 0 = 0 \/ 0 < nth i v 0.

  Lemma pre_ok : step_pre D u v = OK tt.
  Proof. apply step_pre_ok. split; auto. now rewrite sumf_nth_zsum. Qed.

  Lemma Ms_ok : exists Ms, compute_reduction_matrix_J slv D v = OK Ms /\ shape3 Ms (S (S n)) g g.
  Proof.
    destruct (compute_reduction_ok slv D inv Hslv v Hlv Hsv) as (T & U & Ms & _ & _ & _ & _ & H5 & H6 & _).
    eauto.
  Qed.

  Lemma get_reduction_matrix_entries : exists Ms R, compute_reduction_matrix_J slv D v = OK Ms /\
    get_reduction_matrix_J slv D r u v = OK R /\ shape R g g /\
    forall a c, (a < g)%nat -> (c < g)%nat -> cong q (mget R a c) (redm D Ms u a c).
  Proof.
    destruct Ms_ok as (Ms & E & S0 & S1). exists Ms.
    destruct (foldM_mat r (fun i => nth i u 0) (fun i => nth (S i) Ms []) g g (seq 0 (S n)) (nth 0 Ms [])) as (R & F1 & F2 & F3).
    { apply S1. lia. } { intros i Hi. apply in_seq in Hi. apply S1. lia. }
    exists R. split; auto. split.
    - unfold get_reduction_matrix_J. rewrite pre_ok. cbn [bind]. rewrite E. exact F1.
    - split; auto. intros a c Ha Hc. apply (cong_divide r q _ _ Hr). exact (F3 a c Ha Hc).
  Qed.

  Lemma reduce_vector_entries G : length G = g -> exists Ms R, compute_reduction_matrix_J slv D v = OK Ms /\
    reduce_vector_J slv D r u v G = OK R /\ length R = g /\
    forall a, (a < g)%nat -> cong q (nth a R 0) (sumf (fun c => redm D Ms u a c * nth c G 0) (seq 0 g)).
  Proof.
    intros HG. destruct Ms_ok as (Ms & E & S0 & S1). exists Ms.
    assert (S1' : forall k, (k < S (S n))%nat -> shape (nth k Ms []) g (length G)) by (intros; rewrite HG; auto).
    destruct (mat_vec_ok r (nth 0 Ms []) G g) as (R0 & E0 & L0 & G0). { apply S1'. lia. }
    destruct (foldM_vec r (fun i => nth i u 0) (fun i => nth (S i) Ms []) g G (seq 0 (S n)) R0 L0) as (R & F1 & F2 & F3).
    { intros i Hi. apply in_seq in Hi. apply S1'. lia. }
    exists R. split; auto. split.
    - unfold reduce_vector_J. rewrite pre_ok. cbn [bind]. rewrite E. cbn [bind]. rewrite E0. exact F1.
    - split; auto. intros a Ha. apply (cong_divide r q _ _ Hr). rewrite (F3 a Ha), (G0 a Ha), cong_mod.
      rewrite HG. apply cong_of_eq. unfold redm.
      transitivity (sumf (fun c => mget (nth 0 Ms []) a c * nth c G 0 + sumf (fun i => nth i u 0 * (mget (nth (S i) Ms []) a c * nth c G 0)) (seq 0 (S n))) (seq 0 g)).
      + rewrite sumf_plus. f_equal. rewrite sumf_swap. apply sumf_ext. intros. now rewrite sumf_scal.
      + apply sumf_ext. intros c _. rewrite Z.mul_add_distr_r. f_equal. rewrite <- sumf_scal_r.
        apply sumf_ext. intros. ring.
  Qed.

  Variable phi : Z -> list Z -> Z.
  Hypothesis Hphi : GD q n d (r_f D) phi.
  Variable m : Z.
  Hypothesis Hu : is_tuple (S n) (d * m - degG D) u.

  Lemma reduce_vector_class G : length G = g -> exists R, reduce_vector_J slv D r u v G = OK R /\
    length R = g /\ cong q (ev phi m u LG R) (ev phi (m + 1) (eplus u v) LG G).
  Proof.
    intros HG. destruct (reduce_vector_entries G HG) as (Ms & R & E1 & E2 & E3 & E4).
    exists R. split; auto. split; auto.
    apply (step_class slv D inv Hslv v Hlv Hsv phi Hphi u m Hu Huv Ms); auto.
  Qed.

  Lemma reduction_matrix_class : exists R, get_reduction_matrix_J slv D r u v = OK R /\ shape R g g /\
    forall G, length G = g -> exists w, mat_vec r R G = OK w /\ length w = g /\
      cong q (ev phi m u LG w) (ev phi (m + 1) (eplus u v) LG G).
  Proof.
    destruct get_reduction_matrix_entries as (Ms & R & E1 & E2 & E3 & E4).
    exists R. split; auto. split; auto. intros G HG.
    destruct (mat_vec_ok r R G g) as (w & W1 & W2 & W3); [now rewrite HG|].
    exists w. split; auto. split; auto.
    apply (step_class slv D inv Hslv v Hlv Hsv phi Hphi u m Hu Huv Ms); auto.
    intros a Ha. apply (cong_trans _ _ (sumf (fun j => mget R a j * nth j G 0) (seq 0 g))).
    - rewrite W3, HG by auto. apply (cong_divide r q _ _ Hr), cong_mod.
    - apply cong_sumf. intros c Hc. apply in_seq in Hc. rewrite E4 by (auto; lia). reflexivity.
  Qed.
End STEP.

(** * several steps at once *)
(** k successive single steps, from u + k v down to u *)
Fixpoint steps_down (slv : solver) (D : dR) (r : Z) (u v : vec) (k : nat) (G : list Z) : res (list Z) :=
  match k with
  | O => OK G
  | S k => R <- reduce_vector_J slv D r (vadd u (vscale (Z.of_nat k) v)) v G ;; steps_down slv D r u v k R
  end.

Lemma vcong_refl q a : vcong q a a.
Proof. split; auto. intros. reflexivity. Qed.
Lemma vcong_sym q a b : vcong q a b -> vcong q b a.
Proof. intros [L H]. split; auto. intros i Hi. symmetry. apply H. now rewrite L. Qed.
Lemma vcong_trans q a b c : vcong q a b -> vcong q b c -> vcong q a c.
Proof. intros [L H] [L' H']. split; [congruence|]. intros i Hi. rewrite H, H' by congruence. reflexivity. Qed.

Lemma vcong_ev q phi m u ms R R' : vcong q R R' -> length R = length ms ->
  cong q (ev phi m u ms R) (ev phi m u ms R').
Proof.
  intros [L H] HL. unfold ev. apply cong_sumf. intros c Hc. apply in_seq in Hc.
  rewrite H by lia. reflexivity.
Qed.

Section MULTI.
  Variables (slv : solver) (D : dR).
  Hypothesis inv : dr_inv slv D.
  Hypothesis Hslv : solver_ok (r_q D) slv.
  Notation n := (r_n D).
  Notation d := (r_d D).
  Notation q := (r_q D).
  Notation LG := (enum (S n) (Z.to_nat (degG D))).
  Notation g := (length LG).
  Variable r : Z.
  Hypothesis Hr : (q | r).
  Variables u v : vec.
  Hypothesis Hlu : length u = S n.
  Hypothesis Hnv : nonneg v.
  Hypothesis Hlv : length v = S n.
  Hypothesis Hsv : zsum v = d.
  Hypothesis Huv : forall i, (i <= n)%nat -> nth i u 0 = 0 \/ 0 < nth i v 0.

  Lemma Huv_k k : forall i, (i <= n)%nat -> nth i (vadd u (vscale k v)) 0 = 0 \/ 0 < nth i v 0.
  Proof.
    intros i Hi. rewrite vadd_nth, vscale_nth by (rewrite vscale_length; congruence).
    pose proof (nonneg_nth v i Hnv). destruct (Huv i Hi) as [->|]; auto.
    destruct (Z.eq_dec (nth i v 0) 0) as [->|]; [left|right]; lia.
  Qed.

  Lemma redm_shift Ms x a c : redm D Ms (vadd u (vscale x v)) a c =
    (mget (nth 0 Ms []) a c + sumf (fun i => nth i u 0 * mget (nth (S i) Ms []) a c) (seq 0 (S n))) +
    x * sumf (fun i => nth i v 0 * mget (nth (S i) Ms []) a c) (seq 0 (S n)).
  Proof.
    unfold redm. rewrite <- sumf_scal, <- Z.add_assoc. f_equal. rewrite <- sumf_plus. apply sumf_ext.
    intros i _. rewrite vadd_nth, vscale_nth by (rewrite vscale_length; congruence). ring.
  Qed.

  Lemma steps_down_ok k : forall G, length G = g -> exists R, steps_down slv D r u v k G = OK R /\ length R = g.
  Proof.
    induction k as [|k IH]; intros G HG; cbn [steps_down]; eauto.
    destruct (reduce_vector_entries slv D inv Hslv r Hr (vadd u (vscale (Z.of_nat k) v)) v Hlv Hsv (Huv_k _) G HG)
      as (Ms & R & _ & E2 & E3 & _).
    rewrite E2. cbn [bind]. auto.
  Qed.

  Lemma poly_equals_steps k G : length G = g ->
    exists R R', reduce_vector_J_poly slv D r u v (Z.of_nat k) G = OK R /\
      steps_down slv D r u v k G = OK R' /\ length R' = g /\ vcong q R R'.
  Proof.
    intros HG. destruct (Ms_ok slv D inv Hslv v Hlv Hsv) as (Ms & EM & S0 & S1).
    destruct (foldM_mat r (fun i => nth i u 0) (fun i => nth (S i) Ms []) g g (seq 0 (S n)) (nth 0 Ms [])) as (M0 & A1 & A2 & A3).
    { apply S1. lia. } { intros i Hi. apply in_seq in Hi. apply S1. lia. }
    destruct (foldM_mat r (fun i => nth i v 0) (fun i => nth (S i) Ms []) g g (seq 0 (S n)) (mzero g g)) as (M1 & B1 & B2 & B3).
    { apply shape_mzero. } { intros i Hi. apply in_seq in Hi. apply S1. lia. }
    unfold reduce_vector_J_poly. rewrite (pre_ok D u v Hlv Hsv Huv). cbn [bind]. rewrite EM. cbn [bind].
    rewrite A1. cbn [bind]. rewrite HG, B1. cbn [bind].
    replace (Z.of_nat k <? 0) with false by (symmetry; apply Z.ltb_ge; lia).
    set (step := fun (Gin : list Z) (x : Z) => _).
    assert (One : forall x G1 G2, length G2 = g -> vcong q G1 G2 ->
      exists R R', step G1 x = OK R /\ reduce_vector_J slv D r (vadd u (vscale x v)) v G2 = OK R' /\
        length R' = g /\ vcong q R R').
    { intros x G1 G2 L2 [L12 H12].
      destruct (reduce_vector_entries slv D inv Hslv r Hr (vadd u (vscale x v)) v Hlv Hsv (Huv_k x) G2 L2)
        as (Ms' & R' & E1 & E2 & E3 & E4). rewrite EM in E1. injection E1 as <-.
      destruct (mat_vec_ok r M0 G1 g) as (V0 & V0a & V0b & V0c); [now rewrite L12, L2|].
      destruct (mat_vec_ok r M1 G1 g) as (V1 & V1a & V1b & V1c); [now rewrite L12, L2|].
      destruct (lvec_add_ok r V0 (lvec_scal r x V1)) as (W & Wa & Wb & Wc); [rewrite lvec_scal_length; congruence|].
      exists (lvec_red q W), R'. split.
      { unfold step. rewrite V0a. cbn [bind]. rewrite V1a. cbn [bind]. rewrite Wa. reflexivity. }
      split; auto. split; auto. split; [rewrite lvec_red_length; congruence|].
      rewrite lvec_red_length. intros a Ha. rewrite lvec_red_nth by auto. rewrite cong_mod.
      assert (Ha' : (a < g)%nat) by congruence.
      rewrite (E4 a Ha').
      transitivity (nth a V0 0 + x * nth a V1 0).
      { rewrite Wc by congruence. rewrite lvec_scal_nth by congruence.
        apply (cong_divide r q _ _ Hr). rewrite !cong_mod. reflexivity. }
      rewrite V0c, V1c by auto. rewrite L12, L2.
      transitivity (sumf (fun j => mget M0 a j * nth j G1 0) (seq 0 g) + x * sumf (fun j => mget M1 a j * nth j G1 0) (seq 0 g)).
      { apply (cong_divide r q _ _ Hr). rewrite !cong_mod. reflexivity. }
      rewrite <- sumf_scal, <- sumf_plus. apply cong_sumf. intros c Hc. apply in_seq in Hc.
      rewrite redm_shift. rewrite H12 by lia.
      rewrite (cong_divide r q _ _ Hr (A3 a c Ha' (proj2 Hc))), (cong_divide r q _ _ Hr (B3 a c Ha' (proj2 Hc))).
      rewrite mget_mzero. apply cong_of_eq. ring. }
    assert (Gen : forall k G1 G2, length G2 = g -> vcong q G1 G2 ->
      exists R R', foldM step (rev (zseq 0 (Z.of_nat k))) G1 = OK R /\ steps_down slv D r u v k G2 = OK R' /\
        length R' = g /\ vcong q R R').
    { clear k G HG. induction k as [|k IH]; intros G1 G2 L2 H12.
      - exists G1, G2. auto.
      - replace (Z.of_nat (S k)) with (Z.of_nat k + 1) by lia.
        rewrite zseq_snoc by lia. rewrite rev_app_distr. cbn [rev app foldM steps_down].
        destruct (One (Z.of_nat k) G1 G2 L2 H12) as (R & R' & O1 & O2 & O3 & O4).
        rewrite O1, O2. cbn [bind]. apply IH; auto. }
    apply Gen; auto using vcong_refl.
  Qed.

  (** the class along several steps *)
  Variable phi : Z -> list Z -> Z.
  Hypothesis Hphi : GD q n d (r_f D) phi.
  Variable m : Z.
  Hypothesis Hu : is_tuple (S n) (d * m - degG D) u.

  Lemma steps_down_class k : forall G R, length G = g -> steps_down slv D r u v k G = OK R ->
    cong q (ev phi m u LG R) (ev phi (m + Z.of_nat k) (eplus u (vscale (Z.of_nat k) v)) LG G).
  Proof.
    assert (Ez : forall x, eplus x (vscale 0 v) = vadd x (vscale 0 v)) by (intros; apply eplus_vadd).
    induction k as [|k IH]; intros G R HG HR; cbn [steps_down] in HR.
    - injection HR as <-. rewrite Z.add_0_r. replace (eplus u (vscale (Z.of_nat 0) v)) with u; [reflexivity|].
      rewrite eplus_vadd. apply vec_ext.
      + rewrite (vadd_length _ _ (S n)); auto. now rewrite vscale_length.
      + intros i Hi. rewrite vadd_nth, vscale_nth by (rewrite vscale_length; congruence). lia.
    - set (uk := vadd u (vscale (Z.of_nat k) v)) in *.
      assert (Hk : is_tuple (S n) (d * (m + Z.of_nat k) - degG D) uk).
      { destruct Hu as (U1 & U2 & U3). split; [|split].
        - apply vadd_length; auto. now rewrite vscale_length.
        - apply nonneg_vadd; auto. apply nonneg_iff. intros i Hi. rewrite vscale_nth.
          pose proof (nonneg_nth v i Hnv). nia.
        - unfold uk. rewrite zsum_vadd by (rewrite vscale_length; congruence). rewrite zsum_vscale, U3, Hsv. ring. }
      destruct (reduce_vector_class slv D inv Hslv r Hr uk v Hlv Hsv (Huv_k _) phi Hphi (m + Z.of_nat k) Hk G HG)
        as (R1 & E1 & L1 & C1).
      rewrite E1 in HR. cbn [bind] in HR. rewrite (IH R1 R L1 HR).
      rewrite eplus_vadd. fold uk. rewrite C1. apply cong_of_eq.
      replace (m + Z.of_nat (S k)) with (m + Z.of_nat k + 1) by lia. f_equal.
      rewrite !eplus_vadd. apply vec_ext.
      + rewrite !(vadd_length _ _ (S n)); auto; try (now rewrite vscale_length). apply (proj1 Hk).
      + intros i Hi. rewrite vadd_nth by (rewrite Hlv; apply (proj1 Hk)). unfold uk.
        rewrite !vadd_nth, !vscale_nth by (rewrite vscale_length; congruence). lia.
  Qed.
End MULTI.
