(** Homogeneous polynomials as operators; if some power of every variable is in
    the ideal of m forms in m variables, the forms are a regular sequence. *)
From Coq Require Import ZArith List Bool Lia.
From Verif Require Import Base VecSpec ToolsSpec ToolsProofs DRSpec HilbKoszul.
Import ListNotations.
Open Scope Z_scope.

(** w - a, of the length of w *)
Fixpoint wsub (w a : list Z) : list Z :=
  match w, a with x :: w, y :: a => (x - y) :: wsub w a | _, _ => w end.

Lemma wsub_length w : forall a, length (wsub w a) = length w.
Proof. induction w as [|x w IH]; intros [|y a]; cbn; auto. Qed.
Lemma wsub_comm w : forall a b, wsub (wsub w a) b = wsub (wsub w b) a.
Proof.
  induction w as [|x w IH]; intros [|y a] [|z b]; cbn [wsub]; auto. rewrite IH. f_equal. lia.
Qed.
Lemma wsub_zsum w : forall a, (length a <= length w)%nat -> zsum (wsub w a) = zsum w - zsum a.
Proof.
  induction w as [|x w IH]; intros [|y a] H; cbn [wsub zsum length] in *; try lia. rewrite IH by lia. lia.
Qed.
Lemma wsub_nth w : forall a i, (length a <= length w)%nat -> nth i (wsub w a) 0 = nth i w 0 - nth i a 0.
Proof.
  induction w as [|x w IH]; intros [|y a] [|i] H; cbn [wsub nth length] in *; try lia. apply IH. lia.
Qed.
Lemma wsub_nonneg w : forall a, nonneg a -> nonneg (wsub w a) -> nonneg w.
Proof.
  unfold nonneg. induction w as [|x w IH]; intros [|y a] Ha H; cbn [wsub] in *; auto.
  inversion Ha; subst. inversion H; subst. constructor; [lia|]. now apply (IH a).
Qed.
Lemma wsub_eplus w : forall a b, length a = length b -> (length a <= length w)%nat -> wsub (wsub w a) b = wsub w (eplus a b).
Proof.
  induction w as [|x w IH]; intros [|y a] [|z b] H1 H2; cbn [wsub eplus length] in *; try lia; auto. rewrite IH by lia. f_equal. lia.
Qed.
Lemma nonneg_nth w i : nonneg w -> 0 <= nth i w 0.
Proof.
  unfold nonneg. intros H. revert i. induction H; intros [|i]; cbn [nth]; try lia; auto.
Qed.

(** multiplication by the polynomial P *)
Definition act (P : list (list Z * Z)) (x : list Z -> Z) : list Z -> Z :=
  fun w => sumf (fun t => snd t * x (wsub w (fst t))) P.

(** coefficient of x^t in x^s P *)
Definition coefP (P : list (list Z * Z)) (s t : list Z) : Z :=
  sumf (fun bc => if list_eq_dec Z.eq_dec (eplus s (fst bc)) t then snd bc else 0) P.

Section Poly.
  Variables (m : nat) (p : Z).

  Definition Gs (x : list Z -> Z) : Prop := forall w, x w <> 0 -> length w = m /\ nonneg w.
  Definition S0 (x : list Z -> Z) : Prop := forall w, cong p (x w) 0.

  Definition form (e : Z) (P : list (list Z * Z)) : Prop := forall a c, In (a, c) P -> c <> 0 -> is_tuple m e a.
  Definition OpP (f : (list Z -> Z) -> list Z -> Z) : Prop := exists P, f = act P /\ forall a c, In (a, c) P -> c <> 0 -> length a = m /\ nonneg a.

  Lemma form_Op e P : form e P -> OpP (act P).
  Proof. intros H. exists P. split; auto. intros a c Hi Hc. destruct (H a c Hi Hc) as (A & B & _). auto. Qed.

  Lemma act_lin P : lin (act P).
  Proof.
    split.
    - intros x y H w. apply sumf_ext. intros t _. now rewrite H.
    - intros x y w. unfold act. rewrite <- sumf_plus. apply sumf_ext. intros; lia.
  Qed.
  Lemma act_comm P Q x w : act P (act Q x) w = act Q (act P x) w.
  Proof.
    unfold act.
    transitivity (sumf (fun t => sumf (fun s => snd t * (snd s * x (wsub (wsub w (fst t)) (fst s)))) Q) P).
    { apply sumf_ext. intros. now rewrite sumf_scal. }
    rewrite sumf_swap. apply sumf_ext. intros s _. rewrite <- sumf_scal. apply sumf_ext. intros t _. rewrite wsub_comm. ring.
  Qed.
  Lemma Gs_sub : sub Gs.
  Proof.
    split; unfold Gs.
    - intros w H. congruence.
    - intros x y Hx Hy w H. destruct (Z.eq_dec (x w) 0); [apply Hy; lia|apply Hx; auto].
    - intros x Hx w H. apply Hx. lia.
    - intros x y E Hx w H. apply Hx. now rewrite E.
  Qed.
  Lemma S0_sub : sub S0.
  Proof.
    split; unfold S0.
    - intros; apply cong_refl.
    - intros x y Hx Hy w. replace 0 with (0 + 0) by lia. now apply cong_add.
    - intros x Hx w. replace 0 with (- 0) by lia. now apply cong_opp.
    - intros x y E Hx w. rewrite <- E. auto.
  Qed.
  Lemma Gs_0 x w : Gs x -> ~ (length w = m /\ nonneg w) -> x w = 0.
  Proof. intros H N. destruct (Z.eq_dec (x w) 0); auto. exfalso. auto. Qed.
  Lemma OpP_lin f : OpP f -> lin f.
  Proof. intros (P & -> & _). apply act_lin. Qed.
  Lemma OpP_comm f g : OpP f -> OpP g -> forall x w, f (g x) w = g (f x) w.
  Proof. intros (P & -> & _) (Q & -> & _). apply act_comm. Qed.
  Lemma OpP_G f x : OpP f -> Gs x -> Gs (f x).
  Proof.
    intros (P & -> & HP) Hx w Hw. unfold act in Hw.
    assert (E : exists t, In t P /\ snd t * x (wsub w (fst t)) <> 0).
    { clear HP. induction P as [|t P IH]; [rewrite sumf_nil in Hw; congruence|]. rewrite sumf_cons in Hw.
      destruct (Z.eq_dec (snd t * x (wsub w (fst t))) 0) as [E|N]; [|exists t; split; [left|]; auto].
      destruct IH as (t' & A & B); [lia|]. exists t'. split; [right|]; auto. }
    destruct E as ([a c] & Hi & N). cbn [fst snd] in N. destruct (HP a c Hi) as (A & B); [intros ->; lia|].
    destruct (Hx (wsub w a)) as (C & D); [intros K; rewrite K in N; lia|]. rewrite wsub_length in C. split; auto. now apply (wsub_nonneg w a).
  Qed.
  Lemma S0_good : good OpP S0.
  Proof.
    split; [apply S0_sub|]. intros f x (P & -> & _) Hx w. unfold act.
    apply cong_trans with (sumf (fun _ => 0) P); [|apply cong_of_eq; now apply sumf_zero].
    apply cong_sumf. intros t _. replace 0 with (snd t * 0) by lia. apply cong_mul; [apply cong_refl|apply Hx].
  Qed.

  (** ** the components of a given degree *)
  Definition homog (t : Z) (x : list Z -> Z) : Prop := forall w, zsum w <> t -> x w = 0.
  Definition proj (t : Z) (x : list Z -> Z) : list Z -> Z := fun w => if zsum w =? t then x w else 0.

  Lemma proj_homog t x : homog t (proj t x).
  Proof. intros w H. unfold proj. destruct (Z.eqb_spec (zsum w) t); congruence. Qed.
  Lemma proj_G t x : Gs x -> Gs (proj t x).
  Proof. intros H w. unfold proj. destruct (_ =? _); [apply H|congruence]. Qed.
  Lemma proj_S0 t x : S0 x -> S0 (proj t x).
  Proof. intros H w. unfold proj. destruct (_ =? _); [apply H|apply cong_refl]. Qed.
  Lemma proj_id t x : homog t x -> forall w, proj t x w = x w.
  Proof. intros H w. unfold proj. destruct (Z.eqb_spec (zsum w) t); auto. now rewrite H. Qed.
  Lemma proj_add t x y w : proj t (fun w => x w + y w) w = proj t x w + proj t y w.
  Proof. unfold proj. destruct (_ =? _); lia. Qed.

  Lemma act_proj e P t x w : form e P -> Gs x -> act P (proj t x) w = proj (t + e) (act P x) w.
  Proof.
    intros HP Hx. destruct (Nat.eq_dec (length w) m) as [Hw|Hw].
    - unfold act. transitivity (sumf (fun s => if zsum w =? t + e then snd s * x (wsub w (fst s)) else 0) P).
      { apply sumf_ext. intros [a c] Hi. cbn [fst snd]. destruct (Z.eq_dec c 0) as [->|Hc]; [destruct (_ =? _); lia|].
        destruct (HP a c Hi Hc) as (A & B & C). unfold proj. rewrite wsub_zsum by lia.
        destruct (Z.eqb_spec (zsum w - zsum a) t), (Z.eqb_spec (zsum w) (t + e)); lia. }
      unfold proj. destruct (_ =? _); [reflexivity|]. now apply sumf_zero.
    - assert (L : forall y, Gs y -> act P y w = 0).
      { intros y Hy. apply Gs_0; [|tauto]. apply OpP_G; auto. eapply form_Op; eauto. }
      rewrite L by now apply proj_G. unfold proj. destruct (_ =? _); auto. symmetry. now apply L.
  Qed.
  Lemma act_homog e P t x : form e P -> Gs x -> homog t x -> homog (t + e) (act P x).
  Proof.
    intros HP Hx H w N. rewrite (l_ext _ (act_lin P) _ (proj t x)) by (intros; symmetry; now apply proj_id).
    rewrite (act_proj e) by auto. now apply proj_homog.
  Qed.

  Variable e : Z.
  Hypothesis He : 0 < e.

  Definition projc (t : Z) (c : list bool -> list Z -> Z) : list bool -> list Z -> Z := fun J => proj (t - e * cnt J) (c J).
  Definition ideg (t : Z) (c : list bool -> list Z -> Z) : Prop := forall J, homog (t - e * cnt J) (c J).

  Lemma dK_proj Ps : Forall (form e) Ps -> forall t c J, length J = length Ps -> (forall J, Gs (c J)) -> forall w,
    dK (map act Ps) (projc t c) J w = projc t (dK (map act Ps) c) J w.
  Proof.
    induction 1 as [|P Ps HP HF IH]; intros t c [|[] J] HJ Gc w; try discriminate; try (unfold projc, proj; cbn; now destruct (_ =? _)); injection HJ as HJ; cbn [map dK].
    - assert (F : Forall OpP (map act Ps)). { clear -HF. induction HF; cbn [map]; constructor; auto. eapply form_Op; eauto. }
      rewrite (dK_ext OpP OpP_lin (map act Ps) F _ (projc (t - e) (fun J => c (true :: J))) J); [| |now rewrite map_length].
      + rewrite IH by auto. unfold projc at 1. unfold projc. cbn [cnt dK map]. unfold proj.
        replace (t - e * (1 + cnt J)) with (t - e - e * cnt J) by lia. destruct (_ =? _); lia.
      + intros J' w' _. unfold projc. cbn [cnt]. now replace (t - e * (1 + cnt J')) with (t - e - e * cnt J') by lia.
    - assert (F : Forall OpP (map act Ps)). { clear -HF. induction HF; cbn [map]; constructor; auto. eapply form_Op; eauto. }
      rewrite (dK_ext OpP OpP_lin (map act Ps) F _ (projc t (fun J => c (false :: J))) J); [| |now rewrite map_length].
      + rewrite IH by auto. unfold projc at 2. rewrite (act_proj e) by auto. unfold projc. cbn [cnt dK map].
        replace (t - e * (1 + cnt J) + e) with (t - e * cnt J) by lia. unfold proj.
        replace (t - e * (0 + cnt J)) with (t - e * cnt J) by lia. destruct (_ =? _); lia.
      + intros J' w' _. unfold projc. cbn [cnt]. now replace (t - e * (0 + cnt J')) with (t - e * cnt J') by lia.
  Qed.

  Lemma forms_Op Ps : Forall (form e) Ps -> Forall OpP (map act Ps).
  Proof. induction 1; cbn [map]; constructor; auto. eapply form_Op; eauto. Qed.

  Definition vanishH (Ps : list (list (list Z * Z))) : Prop := forall t i (c : list bool -> list Z -> Z),
    0 < i -> (forall J, Gs (c J)) -> hdeg i c -> ideg t c -> (forall J, length J = length Ps -> S0 (dK (map act Ps) c J)) ->
    exists u : list bool -> list Z -> Z, (forall J, Gs (u J)) /\ hdeg (i + 1) u /\ ideg t u /\
      forall J, length J = length Ps -> S0 (fun w => c J w - dK (map act Ps) u J w).

  Lemma hdeg_projc i t c : hdeg i c -> hdeg i (projc t c).
  Proof. intros H J N w. unfold projc, proj. rewrite H by auto. now destruct (_ =? _). Qed.

  Lemma vanish_H Ps : Forall (form e) Ps -> vanish Gs S0 (map act Ps) 0 -> vanishH Ps.
  Proof.
    intros HF V t i c Hi Gc Dc Ic Zc. destruct (V i c Hi Gc Dc) as (u & Gu & Du & Bu). { intros J HJ. apply Zc. now rewrite map_length in HJ. }
    exists (projc t u). split; [intros; now apply proj_G|]. split; [now apply hdeg_projc|]. split; [intros J; apply proj_homog|].
    intros J HJ. apply (s_ext S0 S0_sub (proj (t - e * cnt J) (fun w => c J w - dK (map act Ps) u J w))).
    - intros w. rewrite dK_proj by auto. unfold projc. rewrite <- (proj_id _ _ (Ic J) w). unfold proj. destruct (_ =? _); lia.
    - apply proj_S0, Bu. now rewrite map_length.
  Qed.

  Lemma nonneg_zsum w : nonneg w -> 0 <= zsum w.
  Proof. unfold nonneg. induction 1; cbn [zsum]; lia. Qed.

  Lemma vanish_tail P Ps : form e P -> Forall (form e) Ps -> vanishH (P :: Ps) -> vanishH Ps.
  Proof.
    intros HP HF V t. pose proof (forms_Op Ps HF) as FO. pose proof (form_Op e P HP) as OP.
    remember (Z.to_nat (t + 1)) as k eqn:Ek. revert t Ek. induction k as [k IH] using lt_wf_ind. intros t Ek i c Hi Gc Dc Ic Zc.
    assert (LM : length (map act Ps) = length Ps) by apply map_length.
    destruct (Z_lt_le_dec t 0) as [Ht|Ht].
    - exists (fun _ _ => 0). split; [intros; apply (s_0 Gs Gs_sub)|]. split; [intros J _ w; reflexivity|]. split; [intros J w _; reflexivity|].
      intros J HJ w. rewrite (dK_0 OpP OpP_lin _ FO) by (rewrite ?LM; auto).
      assert (E : c J w = 0); [|rewrite E; apply cong_refl].
      destruct (Z.eq_dec (zsum w) (t - e * cnt J)) as [Ez|Nz]; [|now apply Ic].
      apply Gs_0; auto. intros (_ & K). apply nonneg_zsum in K. pose proof (cnt_bound J). nia.
    - set (c' := (fun J => match J with false :: J => c J | _ => fun _ => 0 end) : list bool -> list Z -> Z).
      destruct (V t i c') as (u & Gu & Du & Iu & Bu); auto.
      { intros [|[] J]; cbn; auto; apply (s_0 Gs Gs_sub). }
      { intros [|[] J] N w; cbn [c']; try reflexivity. apply Dc. cbn [cnt] in N. lia. }
      { intros [|[] J] w; cbn [c']; try reflexivity. cbn [cnt]. replace (t - e * (0 + cnt J)) with (t - e * cnt J) by lia. apply Ic. }
      { intros [|[] J] HJ; try discriminate; injection HJ as HJ; cbn [map dK].
        - intros w. rewrite (dK_0 OpP OpP_lin _ FO) by (rewrite ?LM; auto). apply cong_refl.
        - intros w. rewrite (l_0 (act P) (act_lin P)) by auto.
          rewrite (dK_ext OpP OpP_lin _ FO _ c) by (rewrite ?LM; auto). rewrite Z.add_0_r. now apply Zc. }
      set (v := fun J => u (true :: J)).
      assert (Zv : forall J, length J = length Ps -> S0 (dK (map act Ps) v J)).
      { intros J HJ. specialize (Bu (true :: J)). cbn [map dK length] in Bu. specialize (Bu (f_equal S HJ)).
        eapply (s_ext S0 S0_sub); [|exact Bu]. intros w. cbn [c']. unfold v. lia. }
      destruct (IH (Z.to_nat (t - e + 1))) with (t := t - e) (i := i) (c := v) as (v' & Gv & Dv & Iv & Bv); auto; try lia.
      { intros J. apply Gu. }
      { intros J N. apply Du. cbn [cnt]. lia. }
      { intros J. unfold v. replace (t - e - e * cnt J) with (t - e * cnt (true :: J)) by (cbn [cnt]; lia). apply Iu. }
      exists (fun J w => u (false :: J) w + act P (v' J) w). split; [|split; [|split]].
      + intros J. apply (s_add Gs Gs_sub); auto. apply OpP_G; auto.
      + intros J N w. rewrite Du by (cbn [cnt]; lia). rewrite (l_0 (act P) (act_lin P)); [reflexivity|]. now apply Dv.
      + intros J w N. rewrite Iu by (cbn [cnt]; lia). rewrite (act_homog e P (t - e - e * cnt J)); auto. lia.
      + intros J HJ. pose proof (Bu (false :: J) (f_equal S HJ)) as B1.
        pose proof (g_op _ _ S0_good (act P) _ OP (Bv J HJ)) as B2.
        eapply (s_ext S0 S0_sub); [|apply (s_add S0 S0_sub _ _ B1 B2)]. intros w. cbn [c' map dK]. cbv beta.
        rewrite (dK_add OpP OpP_lin _ FO (fun J => u (false :: J)) (fun J => act P (v' J))).
        rewrite (dK_comm OpP OpP_lin OpP_comm _ (act P) FO OP v'). rewrite (l_sub _ (act_lin P) (v J)). unfold v. lia.
  Qed.

  (** ** the ideal of the forms *)
  Fixpoint ideal (Ps : list (list (list Z * Z))) : (list Z -> Z) -> Prop :=
    match Ps with [] => S0 | P :: Ps => quot Gs (ideal Ps) (act P) end.

  Lemma ideal_good Ps : Forall (form e) Ps -> good OpP (ideal Ps).
  Proof.
    induction 1 as [|P Ps HP HF IH]; cbn [ideal]; [apply S0_good|].
    apply (quot_good Gs OpP Gs_sub OpP_lin OpP_comm OpP_G); auto. eapply form_Op; eauto.
  Qed.
  Lemma ideal_proj Ps : Forall (form e) Ps -> forall t x, ideal Ps x -> ideal Ps (proj t x).
  Proof.
    induction 1 as [|P Ps HP HF IH]; cbn [ideal]; intros t x; [apply proj_S0|].
    intros (y & Gy & Hy). exists (proj (t - e) y). split; [now apply proj_G|].
    eapply (s_ext _ (g_sub _ _ (ideal_good Ps HF))); [|apply (IH t _ Hy)]. intros w. cbv beta.
    rewrite (act_proj e) by auto. replace (t - e + e) with t by lia. unfold proj. destruct (_ =? _); lia.
  Qed.
  (** homogeneous multipliers suffice *)
  Lemma ideal_homog P Ps t x : form e P -> Forall (form e) Ps -> homog t x -> ideal (P :: Ps) x ->
    exists y, Gs y /\ homog (t - e) y /\ ideal Ps (fun w => x w - act P y w).
  Proof.
    intros HP HF Hx (y & Gy & Hy). exists (proj (t - e) y). split; [now apply proj_G|]. split; [apply proj_homog|].
    eapply (s_ext _ (g_sub _ _ (ideal_good Ps HF))); [|apply (ideal_proj Ps HF t _ Hy)]. intros w. cbv beta.
    rewrite (act_proj e) by auto. replace (t - e + e) with t by lia. rewrite <- (proj_id t x Hx w). unfold proj. destruct (_ =? _); lia.
  Qed.
  Lemma ideal_S0 Ps : Forall (form e) Ps -> forall x, S0 x -> ideal Ps x.
  Proof.
    induction 1 as [|P Ps HP HF IH]; cbn [ideal]; intros x Hx; auto.
    exists (fun _ => 0). split; [apply (s_0 Gs Gs_sub)|]. eapply (s_ext _ (g_sub _ _ (ideal_good Ps HF))); [|apply (IH _ Hx)].
    intros w. rewrite (l_0 _ (act_lin P)) by auto. lia.
  Qed.

  Lemma cnt_0 J : cnt J = 0 <-> J = repeat false (length J).
  Proof.
    induction J as [|b J IH]; cbn [cnt repeat length]; [tauto|]. pose proof (cnt_bound J). destruct b; split; intros H'; try lia; try congruence.
    - f_equal. apply IH. lia.
    - injection H' as H'. apply IH in H'. lia.
  Qed.

  Lemma ideal_chain Ps : Forall (form e) Ps -> forall x, ideal Ps x <->
    exists u : list bool -> list Z -> Z, (forall J, Gs (u J)) /\ hdeg 1 u /\ S0 (fun w => x w - dK (map act Ps) u (repeat false (length Ps)) w).
  Proof.
    induction 1 as [|P Ps HP HF IH]; intros x; cbn [ideal map].
    - cbn [length repeat dK]. split.
      + intros H. exists (fun _ _ => 0). split; [intros; apply (s_0 Gs Gs_sub)|]. split; [intros J _ w; reflexivity|].
        eapply (s_ext S0 S0_sub); [|apply H]. intros; cbv beta; lia.
      + intros (u & _ & _ & H). eapply (s_ext S0 S0_sub); [|apply H]. intros; cbv beta; lia.
    - cbn [length repeat dK]. split.
      + intros (y & Gy & Hy). apply IH in Hy. destruct Hy as (u & Gu & Du & Bu).
        exists (fun J => match J with false :: J => u J | true :: J => if Z.eq_dec (cnt J) 0 then y else fun _ => 0 | [] => fun _ => 0 end). split; [|split].
        * intros [|[] J]; auto; [apply (s_0 Gs Gs_sub)|]. destruct (Z.eq_dec _ _); auto. apply (s_0 Gs Gs_sub).
        * intros [|[] J] N w; cbn [cnt] in N; [reflexivity| |apply Du; lia]. destruct (Z.eq_dec _ _); [lia|reflexivity].
        * assert (E0 : cnt (repeat false (length Ps)) = 0) by (apply cnt_0; now rewrite repeat_length).
          destruct (Z.eq_dec (cnt (repeat false (length Ps))) 0); [|congruence].
          eapply (s_ext S0 S0_sub); [|apply Bu]. intros w. cbv beta. change (fun J => u J) with u. lia.
      + intros (u & Gu & Du & Bu). exists (u (true :: repeat false (length Ps))). split; auto. apply IH.
        exists (fun J => u (false :: J)). split; auto. split; [now apply hdeg_false|].
        eapply (s_ext S0 S0_sub); [|apply Bu]. intros w. cbv beta. lia.
  Qed.

  Lemma regular P Ps : form e P -> Forall (form e) Ps -> vanishH (P :: Ps) -> forall s y, Gs y -> homog s y ->
    ideal Ps (act P y) -> ideal Ps y.
  Proof.
    intros HP HF V s y Gy Hy H. pose proof (forms_Op Ps HF) as FO. pose proof (form_Op e P HP) as OP.
    assert (LM : length (map act Ps) = length Ps) by apply map_length.
    apply ideal_chain in H; auto. destruct H as (u0 & Gu0 & Du0 & Bu0). set (J0 := repeat false (length Ps)) in *.
    assert (LJ : length J0 = length Ps) by apply repeat_length. assert (C0 : cnt J0 = 0) by (apply cnt_0; now rewrite LJ).
    set (u := projc (s + e) u0).
    assert (Gu : forall J, Gs (u J)) by (intros; now apply proj_G). assert (Du : hdeg 1 u) by now apply hdeg_projc.
    assert (Bu : S0 (fun w => act P y w - dK (map act Ps) u J0 w)).
    { eapply (s_ext S0 S0_sub); [|apply (proj_S0 (s + e) _ Bu0)]. intros w. cbv beta. unfold u. rewrite dK_proj by auto. unfold projc.
      rewrite C0. replace (s + e - e * 0) with (s + e) by lia. rewrite <- (proj_id (s + e) (act P y)) by (now apply act_homog).
      unfold proj. destruct (_ =? _); lia. }
    set (c := (fun J => match J with false :: J => fun w => - u J w | true :: J => if Z.eq_dec (cnt J) 0 then y else fun _ => 0 | [] => fun _ => 0 end) : list bool -> list Z -> Z).
    assert (Dc : hdeg 1 c).
    { intros [|[] J] N w; cbn [c]; auto; cbn [cnt] in N; [|rewrite Du by lia; lia]. destruct (Z.eq_dec _ _); auto. lia. }
    destruct (V (s + e) 1 c) as (v & Gv & Dv & Iv & Bv); auto; try lia.
    { intros [|[] J]; cbn [c]; [apply (s_0 Gs Gs_sub)| |apply (s_opp Gs Gs_sub); auto]. destruct (Z.eq_dec _ _); auto. apply (s_0 Gs Gs_sub). }
    { intros [|[] J]; cbn [c]; [intros w _; reflexivity| |].
      - cbn [cnt]. destruct (Z.eq_dec _ _) as [E|]; [|intros w _; reflexivity]. rewrite E. replace (s + e - e * (1 + 0)) with s by lia. auto.
      - intros w N. cbn [cnt] in N. unfold u, projc. rewrite proj_homog; [lia|lia]. }
    { intros J HJ. destruct (Z.eq_dec (cnt J) 0) as [E|N].
      - apply cnt_0 in E. rewrite HJ in E. cbn [length repeat] in E. fold J0 in E. subst J. cbn [map dK c].
        destruct (Z.eq_dec (cnt J0) 0); [|congruence]. eapply (s_ext S0 S0_sub); [|apply Bu]. intros w. cbv beta.
        rewrite (dK_opp OpP OpP_lin _ FO u). lia.
      - intros w. change (map act (P :: Ps)) with (act P :: map act Ps).
        rewrite (dK_deg OpP OpP_lin (act P :: map act Ps) (Forall_cons _ OP FO) 1 c Dc J) by lia. apply cong_refl. }
    apply ideal_chain; auto. exists (fun J w => - v (true :: J) w). split; [intros; apply (s_opp Gs Gs_sub); auto|].
    split. { intros J N w. rewrite Dv by (cbn [cnt]; lia). lia. }
    specialize (Bv (true :: J0)). cbn [length map dK c] in Bv. specialize (Bv (f_equal S LJ)).
    destruct (Z.eq_dec (cnt J0) 0); [|congruence]. eapply (s_ext S0 S0_sub); [|apply Bv]. intros w. cbv beta. fold J0.
    rewrite (dK_opp OpP OpP_lin _ FO (fun J => v (true :: J))). lia.
  Qed.
End Poly.
