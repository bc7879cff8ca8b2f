(** The self-tests compare what they say they compare. *)
From Coq Require Import ZArith List Bool Lia Znumtheory.
From Verif Require Import Base VecModel VecSpec VecProofs ToolsModel ToolsSpec MatModel MatProofs DRModel DRSpec DRProofs NDModel FrobModel FrobTop
  TestModel TestSpec TestProofs TestBasis.
Import ListNotations.
Open Scope Z_scope.

Lemma dbind_ok {A B} (m : draws A) (k : A -> draws B) rs b rest : dbind m k rs = OK (b, rest) ->
  exists a rs1, m rs = OK (a, rs1) /\ k a rs1 = OK (b, rest).
Proof. unfold dbind. intros H. apply bind_ok in H. destruct H as ([a rs1] & H1 & H2). eauto. Qed.
Lemma dlift_ok {A} (r : res A) rs a rest : dlift r rs = OK (a, rest) -> r = OK a /\ rest = rs.
Proof. unfold dlift. intros H. apply bind_ok in H. destruct H as (x & H1 & H2). injection H2 as -> ->. auto. Qed.

Lemma all_equal_cons {A} (M0 : A) l : (forall x, In x l -> x = M0) -> all_equal (M0 :: l).
Proof. intros H x y [<-|X] [<-|Y]; auto; try (symmetry; auto). rewrite (H x X), (H y Y). reflexivity. Qed.

Lemma paths_loop_some one k : forall M0 rs b rest, paths_loop one k (Some M0) rs = OK (b, rest) ->
  exists Ms, drawn one rs Ms rest /\ (b = true -> length Ms = k /\ forall x, In x Ms -> x = M0) /\
    (b = false -> exists x, In x Ms /\ x <> M0).
Proof.
  induction k as [|k IH]; intros M0 rs b rest H; cbn [paths_loop] in H.
  - injection H as <- <-. exists []. split; [constructor|]. split; [|discriminate]. split; auto. intros x [].
  - apply dbind_ok in H. destruct H as (M & rs1 & H1 & H). destruct (list_eq_dec _ M0 M) as [<-|NE].
    + destruct (IH M0 rs1 b rest H) as (Ms & E1 & E2 & E3). exists (M0 :: Ms). split; [econstructor; eauto|]. split.
      * intros Hb. destruct (E2 Hb) as [L X]. split; [cbn [length]; lia|]. intros x [<-|Hx]; auto.
      * intros Hb. destruct (E3 Hb) as (x & X1 & X2). exists x. split; [now right|auto].
    + injection H as <- <-. exists [M]. split; [econstructor; [eauto|constructor]|]. split; [discriminate|]. intros _. exists M. split; [now left|congruence].
Qed.
Lemma paths_loop_none one k rs b rest : paths_loop one k None rs = OK (b, rest) ->
  exists Ms, drawn one rs Ms rest /\ (b = true -> length Ms = k /\ all_equal Ms) /\ (b = false -> ~ all_equal Ms).
Proof.
  destruct k as [|k]; cbn [paths_loop]; intros H.
  - injection H as <- <-. exists []. split; [constructor|]. split; [|discriminate]. split; auto. intros x y [].
  - apply dbind_ok in H. destruct H as (M & rs1 & H1 & H). destruct (paths_loop_some one k M rs1 b rest H) as (Ms & E1 & E2 & E3).
    exists (M :: Ms). split; [econstructor; eauto|]. split.
    + intros Hb. destruct (E2 Hb) as [L X]. split; [cbn [length]; lia|]. now apply all_equal_cons.
    + intros Hb AE. destruct (E3 Hb) as (x & X1 & X2). apply X2, AE; [now right|now left].
Qed.
Lemma trials_loop_spec st one paths k : forall rs b rest, trials_loop st one k paths rs = OK (b, rest) ->
  exists T, attempts st one rs T rest /\
    (b = true -> length T = k /\ forall u Ms, In (u, Ms) T -> length Ms = paths /\ all_equal Ms) /\
    (b = false -> exists u Ms, In (u, Ms) T /\ ~ all_equal Ms).
Proof.
  induction k as [|k IH]; intros rs b rest H; cbn [trials_loop] in H.
  - injection H as <- <-. exists []. split; [constructor|]. split; [|discriminate]. split; auto. intros u Ms [].
  - apply dbind_ok in H. destruct H as (u & rs1 & H1 & H). apply dbind_ok in H. destruct H as (ok & rs2 & H2 & H).
    destruct (paths_loop_none _ _ _ _ _ H2) as (Ms & E1 & E2 & E3). destruct ok.
    + destruct (IH rs2 b rest H) as (T & F1 & F2 & F3). exists ((u, Ms) :: T). split; [econstructor; eauto|]. split.
      * intros Hb. destruct (F2 Hb) as [L X]. split; [cbn [length]; lia|]. intros v Ns [Hin|Hin]; [injection Hin as <- <-; apply E2; reflexivity|exact (X v Ns Hin)].
      * intros Hb. destruct (F3 Hb) as (v & Ns & X1 & X2). exists v, Ns. split; [now right|auto].
    + injection H as <- <-. exists [(u, Ms)]. split; [econstructor; eauto; constructor|]. split; [discriminate|]. intros _. exists u, Ms. split; [now left|auto].
Qed.

(** any form with small exponents can be the one drawn *)
Lemma draw_vec_any lo : forall u rest, (forall x, In x u -> lo <= x < lo + 20) ->
  draw_vec lo (length u) (map (fun x => x - lo) u ++ rest) = OK (u, rest).
Proof.
  induction u as [|x u IH]; intros rest H; [reflexivity|]. cbn [length draw_vec map app]. unfold dbind at 1, random_bnd. cbn [bind fst snd].
  unfold dbind. rewrite IH by (intros; apply H; now right). cbn [bind fst snd dret]. unfold dret. do 3 f_equal.
  specialize (H x (or_introl eq_refl)). rewrite Z.mod_small by lia. lia.
Qed.
Lemma start_any n d lo t u rest : 0 <= lo -> 0 < d -> length u = S n -> (forall x, In x u -> lo <= x < lo + 20) -> zsum u mod d = t ->
  start n d lo t (map (fun x => x - lo) u ++ rest) = OK (u, rest).
Proof.
  intros Hlo Hd L H E. unfold start, dbind. rewrite <- L, draw_vec_any by auto. cbn [bind fst snd].
  assert (S0 : 0 <= zsum u). { clear - H Hlo. induction u as [|x u IH]; cbn [zsum]; [lia|]. pose proof (H x (or_introl eq_refl)). assert (0 <= zsum u) by (apply IH; intros; apply H; now right). lia. }
  assert (R : Z.rem (zsum u) d =? t = true) by (apply Z.eqb_eq; rewrite Z.rem_mod_nonneg by lia; exact E).
  destruct rest; cbn [bump]; now rewrite R.
Qed.

(** ** powers of f *)
Lemma foldM_and {X} (g : X -> res bool) l : forall b, foldM (fun ok x => if ok : bool then g x else OK false) l true = OK b ->
  (b = true -> forall x, In x l -> g x = OK true) /\ (b = false -> exists x, In x l /\ g x = OK false).
Proof.
  induction l as [|x l IH]; intros b H; cbn [foldM] in H.
  - injection H as <-. split; [intros _ x []|discriminate].
  - apply bind_ok in H. destruct H as (c & Hc & H). destruct c.
    + destruct (IH b H) as [I1 I2]. split; [intros Hb y [<-|Hy]; auto|]. intros Hb. destruct (I2 Hb) as (y & Y1 & Y2). exists y. split; [now right|auto].
    + assert (b = false). { clear - H. induction l as [|y l IH]; cbn [foldM] in H; [congruence|]. cbn [bind] in H. auto. } subst b.
      split; [discriminate|]. intros _. exists x. split; [now left|auto].
Qed.
(** the sum over the terms of P, coordinate by coordinate *)
Lemma mtb_sum_spec q mtb b P len v : 0 < q -> mtb_sum q mtb b P len = OK v ->
  length v = len /\ exists cs, length cs = length P /\
    (forall i, (i < length P)%nat -> length (fst (nth i P ([], 0))) = length b /\ mtb (map (fun x => x + 1) (vadd (fst (nth i P ([], 0))) b)) = OK (nth i cs []) /\ length (nth i cs []) = len) /\
    forall k, (k < len)%nat -> nth k v 0 = sumf (fun i => snd (nth i P ([], 0)) * nth k (nth i cs []) 0) (seq 0 (length P)) mod q.
Proof.
  intros Hq. unfold mtb_sum. set (step := fun v t => _).
  revert v. induction P as [|[a c] P IH] using rev_ind; intros v H.
  - injection H as <-. rewrite repeat_length. split; auto. exists []. split; auto. split; [intros i Hi; cbn in Hi; lia|].
    intros k Hk. rewrite nth_repeat. cbn [length seq]. rewrite sumf_nil. symmetry. apply Zmod_0_l.
  - rewrite foldM_app in H. apply bind_ok in H. destruct H as (v0 & H0 & H). cbn [foldM] in H. unfold step at 1 in H. cbn [fst snd] in H.
    apply bind_ok in H. destruct H as (v1 & H & H'). injection H' as ->.
    apply bind_ok in H. destruct H as (w & Hw & H). apply bind_ok in H. destruct H as (cc & Hc & H).
    destruct (IH v0) as (L0 & cs & C1 & C2 & C3); [|]. { exact H0. }
    unfold vec_add in Hw. destruct (Nat.eqb_spec (length a) (length b)) as [La|]; [|discriminate]. injection Hw as <-.
    assert (Lc : length (lvec_scal q c cc) = length cc) by apply lvec_scal_length.
    assert (LL : length v0 = length cc).
    { unfold lvec_add in H. rewrite Lc in H. destruct (Nat.eqb_spec (length v0) (length cc)); [auto|discriminate]. }
    destruct (lvec_add_ok q v0 (lvec_scal q c cc)) as (v1 & X1 & X2 & X3); [congruence|]. rewrite H in X1. injection X1 as <-.
    split; [congruence|]. exists (cs ++ [cc]). rewrite !app_length. cbn [length]. split; [lia|].
    assert (NP : nth (length P) (P ++ [(a, c)]) ([], 0) = (a, c)) by (rewrite app_nth2, Nat.sub_diag by lia; reflexivity).
    assert (NC : nth (length P) (cs ++ [cc]) [] = cc) by (rewrite app_nth2, C1, Nat.sub_diag by lia; reflexivity).
    split.
    + intros i Hi. destruct (Nat.eq_dec i (length P)) as [->|].
      * rewrite NP, NC. cbn [fst]. split; auto. split; [auto|congruence].
      * rewrite !app_nth1 by lia. apply C2. lia.
    + intros k Hk. rewrite X3 by congruence. rewrite lvec_scal_nth by congruence.
      replace (length P + 1)%nat with (S (length P)) by lia. rewrite seq_S, sumf_app, sumf_cons, sumf_nil. cbn [Nat.add].
      rewrite NP, NC. cbn [snd]. rewrite C3 by auto. rewrite <- Z.add_mod by lia. rewrite Z.add_0_r. f_equal. f_equal.
      apply sumf_ext. intros i Hi. apply in_seq in Hi. rewrite !app_nth1 by lia. reflexivity.
Qed.
