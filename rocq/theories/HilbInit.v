(** The assertions of the two constructors. *)
From Coq Require Import ZArith List Bool Lia Znumtheory.
From Verif Require Import Base VecModel VecSpec ToolsModel ToolsSpec ToolsProofs MatModel MatProofs DRModel DRSpec DRProofs DRLemmas LinAlg
  NDModel NDSpec NDMat NDBasis SolveModel SolveSpec SolveProofs SmoothProofs ChangeSpec HilbKoszul HilbPoly HilbTop HilbDim HilbNum.
Import ListNotations.
Open Scope Z_scope.

Definition dxP (f : list (list Z * Z)) (i : nat) : list (list Z * Z) := map (fun ac => (eminus (fst ac) i, nth i (fst ac) 0 * snd ac)) f.
Definition xdxP (f : list (list Z * Z)) (i : nat) : list (list Z * Z) := map (fun ac => (fst ac, nth i (fst ac) 0 * snd ac)) f.

Lemma eplus_eminus s : forall a i, eplus s (eminus a i) = eminus (eplus s a) i.
Proof.
  induction s as [|x s IH]; intros [|y a] [|i]; cbn [eplus eminus]; auto.
  - f_equal. lia.
  - now rewrite IH.
Qed.
Lemma coefP_dx f i s t : coefP (dxP f i) s t = coef_dx f i s t.
Proof. unfold coefP, dxP, coef_dx. rewrite sumf_map. apply sumf_ext. intros ac _. cbn [fst snd]. now rewrite eplus_eminus. Qed.
Lemma coefP_xdx f i s t : coefP (xdxP f i) s t = coef_xdx f i s t.
Proof. unfold coefP, xdxP, coef_xdx. rewrite sumf_map. reflexivity. Qed.

Lemma eminus_tuple m d a i : is_tuple m d a -> (i < m)%nat -> 0 < nth i a 0 -> is_tuple m (d - 1) (eminus a i).
Proof.
  intros (L & N & Z). subst m d. revert i. unfold nonneg in N. induction N as [|x a Hx N IH]; intros i Hi H.
  - cbn in Hi. lia.
  - destruct i as [|i]; cbn [eminus length nth zsum] in *.
    + split; [reflexivity|]. split; [constructor; [lia|auto]|]. cbn [zsum]. lia.
    + destruct (IH i ltac:(lia) H) as (A & B & C). split; [cbn [length]; lia|]. split; [constructor; auto; lia|]. cbn [zsum]. lia.
Qed.

Section Forms.
  Variables (n : nat) (d : Z) (f : poly).
  Hypothesis W : wf_poly n d f.
  Let m := S n.
  Definition Js : list (list (list Z * Z)) := map (dxP f) (seq 0 (S n)).
  Definition Ls : list (list (list Z * Z)) := map (xdxP f) (seq 0 (S n)).

  Lemma Js_forms : Forall (form m (d - 1)) Js.
  Proof.
    apply Forall_forall. intros P HP. apply in_map_iff in HP. destruct HP as (i & <- & Hi). apply in_seq in Hi.
    intros a c Hac Hc. apply in_map_iff in Hac. destruct Hac as ([a0 c0] & E & H0). injection E as <- <-. cbn [fst snd] in *.
    pose proof (proj2 W a0 c0 H0) as T0. apply eminus_tuple; [auto|unfold m; lia|]. destruct T0 as (_ & N0 & _). pose proof (nonneg_nth a0 i N0). destruct (Z.eq_dec (nth i a0 0) 0) as [E|]; [rewrite E in Hc; lia|lia].
  Qed.
  Lemma Ls_forms : Forall (form m d) Ls.
  Proof.
    apply Forall_forall. intros P HP. apply in_map_iff in HP. destruct HP as (i & <- & Hi).
    intros a c Hac Hc. apply in_map_iff in Hac. destruct Hac as ([a0 c0] & E & H0). injection E as <- <-. cbn [fst snd] in *. exact (proj2 W a0 c0 H0).
  Qed.
  Lemma Js_length : length Js = m.
  Proof. unfold Js. now rewrite map_length, seq_length. Qed.
  Lemma Ls_length : length Ls = m.
  Proof. unfold Ls. now rewrite map_length, seq_length. Qed.
  Lemma Js_nth i : (i < m)%nat -> nth i Js [] = dxP f i.
  Proof.
    intros Hi. unfold Js. rewrite (nth_indep _ [] (dxP f 0)) by (rewrite map_length, seq_length; auto). rewrite (map_nth (dxP f)), seq_nth by auto. reflexivity.
  Qed.
  Lemma Ls_nth i : (i < m)%nat -> nth i Ls [] = xdxP f i.
  Proof.
    intros Hi. unfold Ls. rewrite (nth_indep _ [] (xdxP f 0)) by (rewrite map_length, seq_length; auto). rewrite (map_nth (xdxP f)), seq_nth by auto. reflexivity.
  Qed.
  Lemma mons_enum k : 0 <= k -> mons m k = enum (S n) (Z.to_nat k).
  Proof. intros H. unfold mons. destruct (Z.ltb_spec k 0); [lia|reflexivity]. Qed.

  Variable p : Z.
  Hypothesis Pp : prime p.

  (** every form of degree N is in the ideal *)
  Lemma exact_J N : 2 <= d -> d - 1 <= N -> (forall G, in_jacobian p n d f N G) -> vanishH m p (d - 1) Js.
  Proof.
    intros Hd HN H. apply (koszul_exact m p (d - 1) N Js); [unfold m; lia|lia|lia|apply Js_forms|apply Js_length|].
    intros alpha _. destruct (H (fun t => if list_eq_dec Z.eq_dec t alpha then 1 else 0)) as (h & Hh). exists h. intros t Ht.
    eapply cong_trans; [apply (Hh t Ht)|]. apply cong_of_eq. rewrite Js_length, mons_enum by lia. apply sumf_ext. intros i Hi. apply in_seq in Hi.
    apply sumf_ext. intros s _. rewrite Js_nth by (unfold m; lia). now rewrite coefP_dx.
  Qed.
  Lemma exact_L N : 1 <= d -> d <= N -> (forall G, in_log_jacobian p n d f N G) -> vanishH m p d Ls.
  Proof.
    intros Hd HN H. apply (koszul_exact m p d N Ls); [unfold m; lia|lia|lia|apply Ls_forms|apply Ls_length|].
    intros alpha _. destruct (H (fun t => if list_eq_dec Z.eq_dec t alpha then 1 else 0)) as (h & Hh). exists h. intros t Ht.
    eapply cong_trans; [apply (Hh t Ht)|]. apply cong_of_eq. rewrite Ls_length, mons_enum by lia. apply sumf_ext. intros i Hi. apply in_seq in Hi.
    apply sumf_ext. intros s _. rewrite Ls_nth by (unfold m; lia). now rewrite coefP_xdx.
  Qed.

  (** the logarithmic derivatives are multiples of the derivatives *)
  Definition eup (s : list Z) (i : nat) : list Z := upd s i (nth i s 0 + 1).
  Lemma eup_tuple k s i : (i < m)%nat -> is_tuple m k s -> is_tuple m (k + 1) (eup s i).
  Proof.
    intros Hi (L & N & Z). subst k. unfold eup. rewrite <- L in Hi. clearbody m. subst m. revert i Hi. unfold nonneg in N.
    induction N as [|x s Hx N IH]; intros i Hi; [cbn in Hi; lia|].
    destruct i as [|i]; cbn [upd nth length zsum] in *.
    + split; [reflexivity|]. split; [constructor; [lia|auto]|]. cbn [zsum]. lia.
    + destruct (IH i ltac:(lia)) as (A & B & C). split; [cbn [length]; lia|]. split; [constructor; auto|]. cbn [zsum]. lia.
  Qed.
  Lemma eminus_eup s : forall i, (i < length s)%nat -> eminus (eup s i) i = s.
  Proof.
    unfold eup. induction s as [|x s IH]; intros [|i] H; cbn [upd nth eminus length] in *; try lia.
    - f_equal. lia.
    - now rewrite IH by lia.
  Qed.
  Lemma eminus_eplus_eup s : forall a i, (i < length s)%nat -> length a = length s -> eminus (eplus (eup s i) a) i = eplus s a.
  Proof.
    unfold eup. induction s as [|x s IH]; intros [|y a] [|i] H L; cbn [upd nth eminus eplus length] in *; try lia.
    - f_equal. lia.
    - now rewrite IH by lia.
  Qed.
  Lemma coef_xdx_dx i s t k : (i < m)%nat -> is_tuple m k s -> coef_dx f i (eup s i) t = coef_xdx f i s t.
  Proof.
    intros Hi (L & _). unfold coef_dx, coef_xdx. apply sumf_ext. intros [a c] Hac. cbn [fst snd].
    destruct (proj2 W a c Hac) as (La & _). rewrite eminus_eplus_eup by (unfold m in *; lia). reflexivity.
  Qed.
  Lemma eup_eminus s : forall i, (i < length s)%nat -> eup (eminus s i) i = s.
  Proof.
    unfold eup. induction s as [|x s IH]; intros [|i] H; cbn [upd nth eminus length] in *; try lia.
    - f_equal. lia.
    - now rewrite IH by lia.
  Qed.

  Lemma log_jac N : d <= N -> 1 <= d -> forall G, in_log_jacobian p n d f N G -> in_jacobian p n d f N G.
  Proof.
    intros HN Hd G (h & Hh). exists (fun i s => if 0 <? nth i s 0 then h i (eminus s i) else 0). intros t Ht. eapply cong_trans; [apply (Hh t Ht)|].
    apply cong_of_eq. apply sumf_ext. intros i Hi. apply in_seq in Hi. rewrite <- !mons_enum by lia.
    transitivity (sumf (fun s => sumf (fun s' => if list_eq_dec (Z.eq_dec) (eup s i) s' then h i s * coef_xdx f i s t else 0) (mons m (N - (d - 1)))) (mons m (N - d))).
    - apply sumf_ext. intros s Hs. apply mons_In in Hs; [|unfold m; lia].
      rewrite (sumf_pick (list_eq_dec Z.eq_dec) (fun _ => h i s * coef_xdx f i s t) (eup s i)) by apply mons_NoDup.
      destruct (in_dec _ _ _) as [|K]; auto. exfalso. apply K. apply mons_In; [unfold m; lia|]. replace (N - (d - 1)) with (N - d + 1) by lia. apply eup_tuple; auto; lia.
    - rewrite sumf_swap. apply sumf_ext. intros s' Hs'. apply mons_In in Hs'; [|unfold m; lia].
      destruct (Z.ltb_spec 0 (nth i s' 0)) as [P0|P0].
      + set (s := eminus s' i).
        assert (Ts : is_tuple m (N - d) s). { unfold s. replace (N - d) with (N - (d - 1) - 1) by lia. apply eminus_tuple; auto; lia. }
        assert (Es : eup s i = s'). { apply eup_eminus. destruct Hs' as (L & _). unfold m in L. lia. }
        rewrite (sumf_ext _ (fun s0 => if list_eq_dec Z.eq_dec s s0 then h i s0 * coef_xdx f i s0 t else 0)).
        * rewrite (sumf_pick (list_eq_dec Z.eq_dec) (fun s0 => h i s0 * coef_xdx f i s0 t) s) by apply mons_NoDup.
          destruct (in_dec _ _ _) as [|K]; [|exfalso; apply K; apply mons_In; auto; unfold m; lia].
          rewrite <- (coef_xdx_dx i s t (N - d)) by (auto; lia). now rewrite Es.
        * intros s0 Hs0. apply mons_In in Hs0; [|unfold m; lia]. destruct Hs0 as (L0 & _).
          destruct (list_eq_dec Z.eq_dec (eup s0 i) s') as [E|E], (list_eq_dec Z.eq_dec s s0) as [E'|E']; auto; exfalso.
          -- apply E'. unfold s. rewrite <- E. apply eminus_eup. unfold m in L0. lia.
          -- apply E. now rewrite <- E'.
      + rewrite sumf_zero; [lia|]. intros s Hs. apply mons_In in Hs; [|unfold m; lia]. destruct (list_eq_dec _ _ _) as [E|]; auto. exfalso.
        destruct Hs as (L & Ns & _). rewrite <- E in P0. unfold eup in P0. rewrite nth_upd_eq in P0 by (unfold m in L; lia). pose proof (nonneg_nth s i Ns). lia.
  Qed.

  (** Euler's relation excludes p | d *)
  Lemma unit_tuple i : (i < m)%nat -> is_tuple m 1 (eup (repeat 0 m) i).
  Proof.
    intros Hi. replace 1 with (0 + 1) by lia. apply eup_tuple; auto. split; [apply repeat_length|]. split.
    - unfold nonneg. apply Forall_forall. intros x Hx. apply repeat_spec in Hx. lia.
    - clear. induction m as [|k IH]; cbn [repeat zsum]; lia.
  Qed.
  Lemma zero_tuple : is_tuple m 0 (repeat 0 m).
  Proof.
    split; [apply repeat_length|]. split.
    - unfold nonneg. apply Forall_forall. intros x Hx. apply repeat_spec in Hx. lia.
    - clear. induction m as [|k IH]; cbn [repeat zsum]; lia.
  Qed.
  Lemma eplus_zero a k : length a = k -> eplus (repeat 0 k) a = a.
  Proof. intros <-. induction a as [|x a IH]; cbn [repeat eplus length]; auto. f_equal. auto. Qed.
  Lemma zsum_nth a : zsum a = sumf (fun i => nth i a 0) (seq 0 (length a)).
  Proof. apply zsum_seq. Qed.

  Lemma euler w : (p | d) -> cong p (sumf (fun i => coef_xdx f i (repeat 0 m) w) (seq 0 m)) 0.
  Proof.
    intros Hp. unfold coef_xdx. rewrite sumf_swap.
    apply cong_trans with (sumf (fun _ => 0) f); [|apply cong_of_eq; now apply sumf_zero]. apply cong_sumf. intros [a c] Hac. cbn [fst snd].
    destruct (proj2 W a c Hac) as (La & _ & Za). destruct (list_eq_dec _ _ _).
    - rewrite sumf_scal_r. unfold m. rewrite <- La, <- zsum_nth, Za. apply cong_0. now apply Z.divide_mul_l.
    - apply cong_of_eq. now apply sumf_zero.
  Qed.

  Lemma p_not_1 : ~ cong p 1 0.
  Proof. intros H. apply cong_0 in H. pose proof (prime_ge_2 p Pp). apply Z.divide_1_r_nonneg in H; lia. Qed.

  Lemma sumf_dmon b (F : list Z -> Z) l : NoDup l -> In b l -> sumf (fun s => dmon b s * F s) l = F b.
  Proof.
    intros HN Hb. rewrite (sumf_ext _ (fun s => if list_eq_dec Z.eq_dec b s then F s else 0)).
    - rewrite (sumf_pick (list_eq_dec Z.eq_dec) F b) by auto. destruct (in_dec _ _ _); [auto|contradiction].
    - intros s _. unfold dmon. destruct (list_eq_dec _ s b), (list_eq_dec _ b s); congruence || lia.
  Qed.
  Lemma dmon_G b k : is_tuple m k b -> Gs m (dmon b) /\ homog k (dmon b).
  Proof. intros (A & B & C). unfold dmon. split; intros w; destruct (list_eq_dec _ _ _) as [->|]; try congruence; tauto. Qed.

  Lemma Ls_euler : 1 <= d -> vanishH m p d Ls -> ~ (p | d).
  Proof.
    intros Hd V Hp. apply p_not_1. unfold Ls in V. cbn [seq map] in V.
    pose proof Ls_forms as FL. unfold Ls in FL. cbn [seq map] in FL. inversion FL as [|? ? F0 FT]; subst.
    destruct (dmon_G (repeat 0 m) 0 zero_tuple) as (G0 & H0).
    assert (I : ideal m p (map (xdxP f) (seq 1 n)) (dmon (repeat 0 m))).
    { apply (regular m p d (xdxP f 0) (map (xdxP f) (seq 1 n))) with (s := 0); auto.
      apply (ideal_coef m p d ltac:(unfold m; lia) _ FT d).
      { apply OpP_G; auto. eapply form_Op; eauto. }
      { replace d with (0 + d) at 1 by lia. now apply (act_homog m d). }
      exists (fun _ s => - dmon (repeat 0 m) s). intros w Hw.
      rewrite (act_coef m d ltac:(unfold m; lia) (xdxP f 0) 0) by (auto; apply Hw).
      rewrite (sumf_dmon (repeat 0 m) (fun s => coefP (xdxP f 0) s w)) by (first [apply mons_NoDup|apply mons_In; [unfold m; lia|apply zero_tuple]]).
      unfold comb. rewrite map_length, seq_length. replace (d - d) with 0 by lia.
      rewrite (sumf_ext _ (fun i => -1 * coef_xdx f (S i) (repeat 0 m) w)).
      - rewrite sumf_scal. pose proof (euler w Hp) as E. unfold m in E. cbn [seq] in E. rewrite sumf_cons, <- seq_shift, sumf_map in E. fold m in E.
        rewrite coefP_xdx. apply cong_0 in E. destruct E as [z Hz]. exists z. lia.
      - intros i Hi. apply in_seq in Hi. rewrite (sumf_ext _ (fun s => dmon (repeat 0 m) s * (-1 * coefP (nth i (map (xdxP f) (seq 1 n)) []) s w))) by (intros; ring).
        rewrite (sumf_dmon (repeat 0 m) (fun s => -1 * coefP (nth i (map (xdxP f) (seq 1 n)) []) s w)) by (first [apply mons_NoDup|apply mons_In; [unfold m; lia|apply zero_tuple]]).
        f_equal. rewrite (nth_indep _ [] (xdxP f 0)) by (rewrite map_length, seq_length; lia). rewrite (map_nth (xdxP f)), seq_nth by lia. apply coefP_xdx. }
    apply (ideal_coef m p d ltac:(unfold m; lia) _ FT 0) in I; auto. destruct I as (h & Hh).
    specialize (Hh _ zero_tuple). unfold dmon in Hh. destruct (list_eq_dec _ _ _); [|congruence]. eapply cong_trans; [apply Hh|].
    apply cong_of_eq. unfold comb. apply sumf_zero. intros i _. unfold mons. destruct (Z.ltb_spec (0 - d) 0); [reflexivity|lia].
  Qed.

  Lemma Js_euler : 3 <= d -> vanishH m p (d - 1) Js -> ~ (p | d).
  Proof.
    intros Hd V Hp. apply p_not_1. unfold Js in V. cbn [seq map] in V.
    pose proof Js_forms as FL. unfold Js in FL. cbn [seq map] in FL. inversion FL as [|? ? F0 FT]; subst.
    set (u := fun i => eup (repeat 0 m) i). assert (M0 : (0 < m)%nat) by (unfold m; lia).
    assert (Tu : forall i, (i < m)%nat -> is_tuple m 1 (u i)) by apply unit_tuple.
    destruct (dmon_G (u 0%nat) 1 (Tu 0%nat M0)) as (G0 & H0).
    assert (I : ideal m p (map (dxP f) (seq 1 n)) (dmon (u 0%nat))).
    { apply (regular m p (d - 1) (dxP f 0) (map (dxP f) (seq 1 n))) with (s := 1); auto.
      apply (ideal_coef m p (d - 1) M0 _ FT d).
      { apply OpP_G; auto. eapply form_Op; eauto. }
      { replace d with (1 + (d - 1)) at 1 by lia. now apply (act_homog m (d - 1)). }
      exists (fun i s => - dmon (u (S i)) s). intros w Hw.
      rewrite (act_coef m (d - 1) M0 (dxP f 0) 1) by (auto; apply Hw).
      rewrite (sumf_dmon (u 0%nat) (fun s => coefP (dxP f 0) s w)) by (first [apply mons_NoDup|apply mons_In; auto]).
      unfold comb. rewrite map_length, seq_length. replace (d - (d - 1)) with 1 by lia.
      rewrite (sumf_ext _ (fun i => -1 * coef_xdx f (S i) (repeat 0 m) w)).
      - rewrite sumf_scal. pose proof (euler w Hp) as E. unfold m in E. cbn [seq] in E. rewrite sumf_cons, <- seq_shift, sumf_map in E. fold m in E.
        rewrite coefP_dx. unfold u. rewrite (coef_xdx_dx 0 (repeat 0 m) w 0 M0 zero_tuple). apply cong_0 in E. destruct E as [z Hz]. exists z. lia.
      - intros i Hi. apply in_seq in Hi. rewrite (sumf_ext _ (fun s => dmon (u (S i)) s * (-1 * coefP (nth i (map (dxP f) (seq 1 n)) []) s w))) by (intros; ring).
        rewrite (sumf_dmon (u (S i)) (fun s => -1 * coefP (nth i (map (dxP f) (seq 1 n)) []) s w)) by (first [apply mons_NoDup|apply mons_In; [auto|apply Tu; unfold m; lia]]).
        f_equal. rewrite (nth_indep _ [] (dxP f 0)) by (rewrite map_length, seq_length; lia). rewrite (map_nth (dxP f)), seq_nth by lia. rewrite coefP_dx.
        apply (coef_xdx_dx (S i) (repeat 0 m) w 0); [unfold m; lia|apply zero_tuple]. }
    apply (ideal_coef m p (d - 1) M0 _ FT 1) in I; auto. destruct I as (h & Hh).
    specialize (Hh _ (Tu 0%nat M0)). unfold dmon in Hh. destruct (list_eq_dec _ _ _); [|congruence]. eapply cong_trans; [apply Hh|].
    apply cong_of_eq. unfold comb. apply sumf_zero. intros i _. unfold mons. destruct (Z.ltb_spec (1 - (d - 1)) 0); [reflexivity|lia].
  Qed.
End Forms.
