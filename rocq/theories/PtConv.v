(** Converse of PtProofs: without a common zero over any field, the ideal contains
    all the forms of some degree. *)
From Coq Require Import ZArith List Bool Lia.
From Verif Require Import Base VecModel VecSpec VecProofs ToolsSpec ToolsProofs MatModel MatProofs DRSpec DRProofs HilbPoly HilbTop HilbInit PtSpec PtMax PtProofs.
Import ListNotations.
Open Scope Z_scope.

Lemma eplus_sum a : forall b, length a = length b -> zsum (eplus a b) = zsum a + zsum b.
Proof. induction a as [|x a IH]; intros [|y b] H; cbn [eplus zsum length] in *; try lia. rewrite IH by lia. lia. Qed.
Lemma ue_plus m : forall i j k, eplus (ue m i j) (ue m i k) = ue m i (j + k).
Proof.
  unfold ue. induction m as [|m IH]; intros [|i] j k; cbn [repeat upd eplus]; auto.
  - f_equal. replace m with (length (repeat 0 m)) at 1 by apply repeat_length. apply eplus_zero.
  - now rewrite IH.
Qed.
Lemma ue_0 m : forall i, ue m i 0 = repeat 0 m.
Proof. unfold ue. induction m as [|m IH]; intros [|i]; cbn [repeat upd]; auto. now rewrite IH. Qed.
Lemma ue_length m i k : length (ue m i k) = m.
Proof. unfold ue. now rewrite upd_length, repeat_length. Qed.

Section Conv.
  Variables (p : Z) (n : nat) (e : Z) (gs : list (list (list Z * Z))).
  Hypothesis He : 0 <= e.
  Hypothesis Hgs : Forall (form (S n) e) gs.
  Notation m := (S n).

  Definition zp (Q : list (list Z * Z)) (w : list Z -> Z) : Z := sumf (fun ac => snd ac * w (fst ac)) Q.
  Definition comb (cs : list (list Z * Z * nat)) (w : list Z -> Z) : Z :=
    sumf (fun c => snd (fst c) * zp (nth (snd c) gs []) (fun a => w (eplus (fst (fst c)) a))) cs.
  Definition okc (D : Z) (cs : list (list Z * Z * nat)) : Prop :=
    forall s k j, In (s, k, j) cs -> is_tuple m (D - e) s /\ (j < length gs)%nat.
  (** the functional on monomials is a combination of multiples of degree D of the generators *)
  Definition J (D : Z) (q : (list Z -> Z) -> Z) : Prop := exists cs, okc D cs /\ forall w, cong p (q w) (comb cs w).

  Lemma J_eq D q q' : (forall w, cong p (q' w) (q w)) -> J D q -> J D q'.
  Proof. intros H (cs & O & E). exists cs. split; auto. intros w. eapply cong_trans; [apply H|apply E]. Qed.
  Lemma J_zero D : J D (fun _ => 0).
  Proof. exists []. split; [intros s k j []|]. intros w. apply cong_refl. Qed.
  Lemma J_add D q q' : J D q -> J D q' -> J D (fun w => q w + q' w).
  Proof.
    intros (cs & O & E) (cs' & O' & E'). exists (cs ++ cs'). split.
    - intros s k j H. apply in_app_or in H. destruct H; [eapply O|eapply O']; eauto.
    - intros w. unfold comb. rewrite sumf_app. apply cong_add; [apply E|apply E'].
  Qed.
  Lemma J_mul D q u du c : is_tuple m du u -> J D q -> J (du + D) (fun w => c * q (fun a => w (eplus u a))).
  Proof.
    intros Hu (cs & O & E). exists (map (fun x => (eplus u (fst (fst x)), c * snd (fst x), snd x)) cs). split.
    - intros s k j H. apply in_map_iff in H. destruct H as ([[s' k'] j'] & H & Hi). cbn [fst snd] in H. injection H as <- <- <-. destruct (O _ _ _ Hi) as (A & B). split; auto.
      replace (du + D - e) with (du + (D - e)) by lia. now apply eplus_tuple.
    - intros w. eapply cong_trans; [apply cong_mul; [apply cong_refl|apply E]|]. apply cong_of_eq. unfold comb. rewrite sumf_map, <- sumf_scal. apply sumf_ext.
      intros [[s k] j] _. cbn [fst snd]. unfold zp. rewrite <- Z.mul_assoc. f_equal. f_equal. apply sumf_ext. intros ac _. now rewrite eplus_assoc.
  Qed.
  Lemma J_gen D j s : (j < length gs)%nat -> is_tuple m (D - e) s -> J D (fun w => zp (nth j gs []) (fun a => w (eplus s a))).
  Proof.
    intros Hj Hs. exists [(s, 1, j)]. split.
    - intros s' k j' [H|[]]. injection H as <- <- <-. auto.
    - intros w. apply cong_of_eq. unfold comb. rewrite sumf_cons, sumf_nil. cbn [fst snd]. ring.
  Qed.

  (** to the coefficients *)
  Lemma zp_coefP g s t : zp g (fun a => if list_eq_dec Z.eq_dec (eplus s a) t then 1 else 0) = coefP g s t.
  Proof. unfold zp, coefP. apply sumf_ext. intros ac _. destruct (list_eq_dec Z.eq_dec (eplus s (fst ac)) t); ring. Qed.
  Lemma J_inI D q : J D q -> inI p n e gs D (fun t => q (fun v => if list_eq_dec Z.eq_dec v t then 1 else 0)).
  Proof.
    intros (cs & O & E).
    exists (fun j s => sumf (fun c => if list_eq_dec Z.eq_dec (fst (fst c)) s then (if Nat.eq_dec (snd c) j then snd (fst c) else 0) else 0) cs).
    intros t Ht. eapply cong_trans; [apply E|]. apply cong_of_eq. unfold comb.
    rewrite (sumf_ext _ (fun c => snd (fst c) * coefP (nth (snd c) gs []) (fst (fst c)) t)) by (intros; now rewrite zp_coefP).
    symmetry. transitivity (sumf (fun j => sumf (fun s => sumf (fun c => (if list_eq_dec Z.eq_dec (fst (fst c)) s then (if Nat.eq_dec (snd c) j then snd (fst c) else 0) * coefP (nth j gs []) s t else 0)) cs) (mons m (D - e))) (seq 0 (length gs))).
    { apply sumf_ext. intros j _. apply sumf_ext. intros s _. rewrite <- sumf_scal_r. apply sumf_ext. intros c _. destruct (list_eq_dec Z.eq_dec (fst (fst c)) s); ring. }
    rewrite (sumf_ext _ (fun j => sumf (fun c => if Nat.eq_dec (snd c) j then snd (fst c) * coefP (nth j gs []) (fst (fst c)) t else 0) cs)).
    - rewrite sumf_swap. apply sumf_ext. intros [[s k] j] Hc. cbn [fst snd]. destruct (O _ _ _ Hc) as (A & B).
      rewrite (sumf_pick Nat.eq_dec (fun j0 => k * coefP (nth j0 gs []) s t) j) by apply seq_NoDup.
      destruct (in_dec Nat.eq_dec j (seq 0 (length gs))) as [|N]; [reflexivity|]. exfalso. apply N, in_seq. lia.
    - intros j _. rewrite sumf_swap. apply sumf_ext. intros [[s k] j'] Hc. cbn [fst snd]. destruct (O _ _ _ Hc) as (A & B).
      rewrite (sumf_pick (list_eq_dec Z.eq_dec) (fun s0 => (if Nat.eq_dec j' j then k else 0) * coefP (nth j gs []) s0 t) s) by apply mons_NoDup.
      destruct (in_dec (list_eq_dec Z.eq_dec) s (mons m (D - e))) as [|N].
      + destruct (Nat.eq_dec j' j); ring.
      + exfalso. apply N, mons_In; [lia|exact A].
  Qed.

  (** the N-th power of the i-th variable is in the ideal *)
  Definition pw (i : nat) (N : Z) : Prop := J N (fun w => w (ue m i N)).
  Lemma pw_mono i N N' : (i <= n)%nat -> 0 <= N <= N' -> pw i N -> pw i N'.
  Proof.
    intros Hi HN H. unfold pw in *. replace N' with ((N' - N) + N) at 1 by lia.
    eapply J_eq; [|apply (J_mul N (fun w => w (ue m i N)) (ue m i (N' - N)) (N' - N) 1); [apply ue_tuple; lia|exact H]]. intros w. apply cong_of_eq. cbn beta.
    rewrite ue_plus. replace (N' - N + N) with N' by lia. ring.
  Qed.
  Lemma big_coord N t : 0 <= N -> forall k, length t = k -> (0 < k)%nat -> Z.of_nat k * N <= zsum t -> exists i, (i < k)%nat /\ N <= nth i t 0.
  Proof.
    intros HN. induction t as [|x t IH]; intros k Hk H0 Hs; cbn [length zsum] in *; [lia|]. subst k.
    destruct (Z_le_gt_dec N x) as [L|G]; [exists 0%nat; cbn [nth]; split; [lia|auto]|].
    destruct t as [|y t]; [cbn [length zsum] in *; lia|].
    destruct (IH (length (y :: t)) eq_refl) as (i & Hi & Hn); [cbn [length]; lia|nia|]. exists (S i). cbn [nth]. split; [lia|auto].
  Qed.
  Lemma ue_split t i N : nonneg t -> (i < length t)%nat -> 0 <= N <= nth i t 0 ->
    exists u, is_tuple (length t) (zsum t - N) u /\ eplus u (ue (length t) i N) = t.
  Proof.
    unfold ue. intros Nt. revert i. induction Nt as [|x t Hx Nt IH]; intros i Hi HN; [cbn in Hi; lia|]. destruct i as [|i]; cbn [length repeat upd nth zsum] in *.
    - exists ((x - N) :: t). split.
      + split; [reflexivity|]. split; [constructor; [lia|exact Nt]|cbn [zsum]; lia].
      + cbn [eplus]. f_equal; [lia|]. rewrite eplus_comm. apply eplus_zero.
    - destruct (IH i ltac:(lia) HN) as (u & (U1 & U2 & U3) & E). exists (x :: u). split.
      + split; [cbn [length]; lia|]. split; [constructor; auto|cbn [zsum]; lia].
      + cbn [eplus]. rewrite E. f_equal. lia.
  Qed.
  Lemma pw_full N : 0 <= N -> (forall i, (i <= n)%nat -> pw i N) -> forall G, inI p n e gs (Z.of_nat m * N) G.
  Proof.
    intros HN H G. set (D := Z.of_nat m * N).
    assert (K : J D (fun w => sumf (fun t => G t * w t) (mons m D))).
    { assert (A : forall t, In t (mons m D) -> is_tuple m D t) by (intros t Ht; apply mons_In in Ht; [exact Ht|lia]). revert A. generalize (mons m D). intros l A.
      induction l as [|t l IH]; [apply J_zero|]. eapply J_eq; [|apply J_add; [|apply IH; intros; apply A; now right]].
      { intros w. rewrite sumf_cons. apply (cong_refl p). }
      cbn beta. destruct (A t) as (T1 & T2 & T3); [now left|]. destruct (big_coord N t HN m T1) as (i & Hi & Hn); [lia|fold D; lia|].
      destruct (ue_split t i N T2 ltac:(lia) ltac:(lia)) as (u & U & E). rewrite T1 in U, E.
      replace D with ((zsum t - N) + N) by lia. eapply J_eq; [|apply (J_mul N (fun w => w (ue m i N)) u _ (G t) U), (H i); lia].
      intros w. apply cong_of_eq. cbn beta. now rewrite E. }
    destruct (J_inI _ _ K) as (h & Hh). exists h. intros t Ht. eapply cong_trans; [|apply Hh, Ht]. apply cong_of_eq.
    rewrite (sumf_ext _ (fun v => if list_eq_dec Z.eq_dec t v then G v else 0)).
    - rewrite (sumf_pick (list_eq_dec Z.eq_dec) G t) by apply mons_NoDup. destruct (in_dec (list_eq_dec Z.eq_dec) t (mons m D)) as [|C]; [reflexivity|].
      exfalso. apply C, mons_In; [lia|exact Ht].
    - intros v _. destruct (list_eq_dec Z.eq_dec v t) as [E|E]; destruct (list_eq_dec Z.eq_dec t v) as [E'|E']; try congruence; ring.
  Qed.

  (** * the ideal of the part of the zeros with x_i = 1 *)
  Section Chart.
    Variable i : nat.
    Hypothesis Hi : (i <= n)%nat.
    Definition hom (D : Z) (v : list Z) : list Z := eplus v (ue m i (D - zsum v)).
    Definition I0 (P : pol) : Prop := exists D0, 0 <= D0 /\ forall D, D0 <= D -> J D (fun w => pair m P (fun v => w (hom D v))).

    Lemma hom_plus D u v : length u = m -> length v = m -> hom D (eplus u v) = eplus u (hom (D - zsum u) v).
    Proof.
      intros Lu Lv. unfold hom. rewrite eplus_sum by congruence. rewrite <- eplus_assoc. do 2 f_equal. f_equal. lia.
    Qed.
    Lemma ex_tuple s : is_tuple m (zsum (ex m s)) (ex m s).
    Proof.
      split; [apply ex_length|]. split; [|reflexivity]. apply Forall_forall. intros x Hx. unfold ex in Hx. apply in_map_iff in Hx. destruct Hx as (k & <- & _). lia.
    Qed.
    Lemma I0_ideal : ideal m p I0.
    Proof.
      constructor.
      - intros P Q E (D0 & H0 & H). exists D0. split; auto. intros D HD. eapply J_eq; [|apply (H D HD)]. intros w. apply cong_sym, E.
      - exists 0. split; [lia|]. intros D HD. apply J_zero.
      - intros P Q (D0 & H0 & H) (D1 & H1 & H'). exists (Z.max D0 D1). split; [lia|]. intros D HD.
        eapply J_eq; [|apply J_add; [apply (H D); lia|apply (H' D); lia]]. intros w. rewrite pair_app. apply cong_refl.
      - intros Q P (D0 & H0 & H). induction Q as [|[u b] Q (D1 & H1 & IH)].
        + exists 0. split; [lia|]. intros D HD. apply J_zero.
        + pose proof (ex_tuple u) as Tu. pose proof (nonneg_zsum _ (proj1 (proj2 Tu))) as Nu.
          exists (Z.max D1 (zsum (ex m u) + D0)). split; [lia|]. intros D HD.
          eapply J_eq; [|apply J_add; [|apply (IH D); lia]].
          { intros w. unfold pmul. cbn [flat_map]. rewrite pair_app. apply cong_refl. }
          cbn beta. replace D with (zsum (ex m u) + (D - zsum (ex m u))) at 1 by lia.
          eapply J_eq; [|apply (J_mul (D - zsum (ex m u)) (fun w => pair m P (fun v => w (hom (D - zsum (ex m u)) v))) (ex m u) _ b Tu), (H (D - zsum (ex m u))); lia].
          intros w. apply cong_of_eq. cbn beta. unfold pair. rewrite sumf_map. cbn [fst snd]. rewrite <- sumf_scal. apply sumf_ext. intros [t c] _. cbn [fst snd].
          rewrite ex_emul, hom_plus by apply ex_length. ring.
    Qed.
    Lemma I0_one : I0 pone -> exists N, 0 <= N /\ pw i N.
    Proof.
      intros (D0 & H0 & H). exists D0. split; auto. unfold pw. eapply J_eq; [|apply (H D0); lia]. intros w. apply cong_of_eq. rewrite pair_one. f_equal.
      unfold hom. replace (zsum (repeat 0 m)) with 0 by (clear; induction n as [|k IH]; [reflexivity|cbn [repeat zsum] in *; lia]).
      rewrite Z.sub_0_r. symmetry. rewrite <- (ue_length m i D0) at 1. apply eplus_zero.
    Qed.
    Definition nat_pol (g : list (list Z * Z)) : pol := map (fun ac => (map Z.to_nat (fst ac), snd ac)) g.
    Lemma ex_nat a : length a = m -> nonneg a -> ex m (map Z.to_nat a) = a.
    Proof.
      intros La Na. apply (nth_ext _ _ 0 0); [now rewrite ex_length|]. rewrite ex_length. intros k Hk. unfold ex. rewrite nth_mapseq by auto.
      rewrite (nth_indep _ 0%nat (Z.to_nat 0)) by (rewrite map_length; lia). rewrite map_nth. pose proof (nonneg_nth a k Na). lia.
    Qed.
    Lemma nat_pol_pair g w : form m e g -> pair m (nat_pol g) w = zp g w.
    Proof.
      intros Fg. unfold pair, nat_pol, zp. rewrite sumf_map. cbn [fst snd]. apply sumf_ext. intros [a c] Hac. cbn [fst snd].
      destruct (Z.eq_dec c 0) as [->|Nc]; [ring|]. destruct (Fg a c Hac Nc) as (A & B & _). now rewrite ex_nat.
    Qed.
    Lemma I0_gen j : (j < length gs)%nat -> I0 (nat_pol (nth j gs [])).
    Proof.
      intros Hj. exists e. split; [exact He|]. intros D HD. assert (Fg : form m e (nth j gs [])) by (rewrite Forall_forall in Hgs; apply Hgs, nth_In, Hj).
      eapply J_eq; [|apply (J_gen D j (ue m i (D - e)) Hj)]; [|apply ue_tuple; lia]. intros w. apply cong_of_eq. rewrite nat_pol_pair by auto.
      unfold zp. apply sumf_ext. intros [a c] Hac. cbn [fst snd]. destruct (Z.eq_dec c 0) as [->|Nc]; [ring|]. destruct (Fg a c Hac Nc) as (_ & _ & C).
      unfold hom. rewrite C. now rewrite eplus_comm.
    Qed.
    (** the variables *)
    Definition X (k : nat) : pol := [(map (fun l => if Nat.eqb l k then 1%nat else 0%nat) (seq 0 m), 1)].
    Lemma ex_X k : ex m (map (fun l => if Nat.eqb l k then 1%nat else 0%nat) (seq 0 m)) = ue m k 1.
    Proof.
      apply (nth_ext _ _ 0 0); [now rewrite ex_length, ue_length|]. rewrite ex_length. intros l Hl. unfold ex. rewrite nth_mapseq by auto. rewrite nth_mapseq by auto.
      unfold ue. rewrite nth_upd, repeat_length, nth_repeat. rewrite (Nat.eqb_sym k l). destruct (Nat.eqb_spec l k) as [->|]; [|reflexivity].
      destruct (Nat.ltb_spec k m); [reflexivity|lia].
    Qed.
    Lemma pair_X k w : pair m (X k) w = w (ue m k 1).
    Proof. unfold pair, X. rewrite sumf_cons, sumf_nil. cbn [fst snd]. rewrite ex_X. ring. Qed.
    Lemma I0_X : I0 (X i ++ pneg pone).
    Proof.
      exists 0. split; [lia|]. intros D HD. eapply J_eq; [|apply J_zero]. intros w. apply cong_of_eq. rewrite pair_app, pair_neg, pair_X, pair_one.
      assert (E : hom D (ue m i 1) = hom D (repeat 0 m)); [|rewrite E; ring]. rewrite <- (ue_0 m i). unfold hom. rewrite !ue_sum by lia. rewrite !ue_plus. f_equal. lia.
    Qed.

    Section Res.
      Hypothesis P0 : proper I0.
      Notation K := (residue m p I0 I0_ideal P0).
      Definition pt : list (car K) := map X (seq 0 m).

      Lemma pair_ofZ c w : pair m (fofZ K c) w = c * w (repeat 0 m).
      Proof.
        assert (N : forall k, pair m (Nat.iter k (fadd K (f1 K)) (f0 K)) w = Z.of_nat k * w (repeat 0 m)).
        { induction k as [|k IH]; [reflexivity|]. change (Nat.iter (S k) (fadd K (f1 K)) (f0 K)) with (pone ++ Nat.iter k (fadd K (f1 K)) (f0 K)).
          rewrite pair_app, pair_one. etransitivity; [apply f_equal, IH|]. lia. }
        destruct c as [|c|c].
        - reflexivity.
        - unfold fofZ. etransitivity; [apply N|]. f_equal. lia.
        - unfold fofZ. change (pair m (pneg (Nat.iter (Pos.to_nat c) (fadd K (f1 K)) (f0 K))) w = Z.neg c * w (repeat 0 m)). rewrite pair_neg.
          etransitivity; [apply f_equal, N|]. lia.
      Qed.
      Lemma pair_pow k j : forall w, (k < m)%nat -> pair m (fpow K (X k) j) w = w (ue m k (Z.of_nat j)).
      Proof.
        induction j as [|j IH]; intros w Hk.
        - unfold fpow. cbn [Nat.iter nat_rect]. change (pair m pone w = w (ue m k (Z.of_nat 0))). rewrite pair_one. now rewrite ue_0.
        - change (fpow K (X k) (S j)) with (pmul m (X k) (fpow K (X k) j)). rewrite pair_mul, pair_X. etransitivity; [apply IH; auto|]. cbn beta. rewrite ue_plus. do 2 f_equal. lia.
      Qed.
      Fixpoint zeros (k : nat) (a : list Z) : list Z := match k with O => a | S k => 0 :: zeros k a end.
      Lemma zeros_app k a : zeros k a = repeat 0 k ++ a.
      Proof. induction k as [|k IH]; cbn [zeros repeat app]; [reflexivity|now rewrite IH]. Qed.
      Lemma ue_cons k x (a : list Z) l : (length l = k) -> eplus (ue (k + S (length a)) k x) (l ++ 0 :: a) = l ++ x :: a.
      Proof.
        unfold ue. revert k. induction l as [|y l IH]; intros k Hk; cbn [length] in Hk; subst k; cbn [Nat.add repeat upd app eplus].
        - rewrite Z.add_0_r. f_equal. rewrite eplus_zero. reflexivity.
        - f_equal. now apply IH.
      Qed.
      Lemma pair_mono a : forall k w, (k + length a = m)%nat -> nonneg a -> pair m (fmono K (map X (seq k (length a))) a) w = w (repeat 0 k ++ a).
      Proof.
        induction a as [|x a IH]; intros k w Hk Na.
        - cbn [length seq map fmono] in *. change (pair m pone w = w (repeat 0 k ++ [])). rewrite pair_one, app_nil_r. do 2 f_equal. lia.
        - inversion Na; subst. cbn [length seq map] in *.
          change (pair m (pmul m (fpow K (X k) (Z.to_nat x)) (fmono K (map X (seq (S k) (length a))) a)) w = w (repeat 0 k ++ x :: a)).
          rewrite pair_mul. etransitivity; [apply pair_pow; lia|]. cbn beta. etransitivity; [apply IH; auto; lia|]. cbn beta. f_equal. rewrite Z2Nat.id by auto.
          replace (repeat 0 (S k) ++ a) with (repeat 0 k ++ 0 :: a).
          + rewrite <- Hk. apply ue_cons. apply repeat_length.
          + change (0 :: a) with ([0] ++ a). rewrite app_assoc. f_equal. now rewrite <- repeat_cons.
      Qed.
      Lemma pair_eval g w : form m e g -> pair m (feval K g pt) w = zp g w.
      Proof.
        intros Fg. induction g as [|[a c] g IH]; [reflexivity|].
        change (feval K ((a, c) :: g) pt) with (pmul m (fofZ K c) (fmono K pt a) ++ feval K g pt). rewrite pair_app, pair_mul.
        unfold zp. rewrite sumf_cons. fold (zp g w). f_equal; [|apply IH; intros a' c' H; apply Fg; now right]. cbn [fst snd].
        etransitivity; [apply pair_ofZ|]. destruct (Z.eq_dec c 0) as [->|Nc]; [ring|]. f_equal. destruct (Fg a c (or_introl eq_refl) Nc) as (A & B & _). assert (Ept : pt = map X (seq 0 (length a))) by (unfold pt; now rewrite A). rewrite Ept.
        etransitivity; [apply (pair_mono a 0); auto|]. cbn beta. change (repeat 0 0 ++ a) with a. f_equal. rewrite <- A. apply eplus_zero.
      Qed.

      Lemma chart_point : feq K (fofZ K p) (f0 K) /\ length pt = m /\ ~ feq K (nth i pt (f0 K)) (f0 K) /\ forall g, In g gs -> feq K (feval K g pt) (f0 K).
      Proof.
        assert (Sub : forall P, I0 P -> M m p I0 P) by (intros P H; now exists 0%nat).
        split; [|split; [|split]].
        - apply (req_of m p I0 I0_ideal P0). intros w. rewrite pair_nil. exists (w (repeat 0 m)). etransitivity; [apply f_equal2; [apply pair_ofZ|reflexivity]|]. ring.
        - unfold pt. now rewrite map_length, seq_length.
        - intros H. unfold pt in H. rewrite nth_mapseq in H by lia. apply (req_zero m p I0) in H.
          destruct (M_ideal m p I0 I0_ideal P0) as (MI & MP). apply MP. pose proof (Sub _ I0_X) as H1.
          apply (i_eq _ _ _ MI (X i ++ pmul m [([], -1)] (X i ++ pneg pone))).
          + intros w. apply cong_of_eq. rewrite pair_app, pair_mul, pair_one. unfold pair at 2. rewrite sumf_cons, sumf_nil. cbn [fst snd].
            rewrite pair_app, pair_neg, !pair_X, pair_one, ex_nil.
            assert (Z1 : forall a, length a = m -> eplus (repeat 0 m) a = a) by (intros a <-; apply eplus_zero).
            rewrite !Z1 by (apply ue_length || apply repeat_length). ring.
          + apply (i_add _ _ _ MI); [exact H|]. apply (i_mul _ _ _ MI), H1.
        - intros g Hg. apply (req_zero m p I0). assert (Fg : form m e g) by (rewrite Forall_forall in Hgs; auto).
          apply (In_nth _ _ []) in Hg. destruct Hg as (j & Hj & <-).
          apply (M_eq m p I0 I0_ideal P0 (nat_pol (nth j gs []))); [|apply Sub, I0_gen, Hj]. intros w. rewrite nat_pol_pair by auto. symmetry. now apply pair_eval.
      Qed.
    End Res.

    Lemma chart : (forall F, feq F (fofZ F p) (f0 F) -> forall x, length x = m -> ~ feq F (nth i x (f0 F)) (f0 F) -> ~ forall g, In g gs -> feq F (feval F g x) (f0 F)) ->
      ~ ~ exists N, 0 <= N /\ pw i N.
    Proof.
      intros H C. assert (P0 : proper I0) by (intros K; apply C, I0_one, K). destruct (chart_point P0) as (A & B & C' & D). exact (H _ A _ B C' D).
    Qed.
  End Chart.

  Lemma no_zero_full : (forall F, feq F (fofZ F p) (f0 F) -> forall x i, (i <= n)%nat -> length x = m -> ~ feq F (nth i x (f0 F)) (f0 F) -> ~ forall g, In g gs -> feq F (feval F g x) (f0 F)) ->
    forall N0, ~ ~ exists D, N0 <= D /\ 0 <= D /\ forall G, inI p n e gs D G.
  Proof.
    intros H N0 C. assert (K : forall k, (k <= m)%nat -> ~ ~ exists N, Z.max 0 N0 <= N /\ forall i, (i < k)%nat -> pw i N).
    { induction k as [|k IH]; intros Hk C'.
      - apply C'. exists (Z.max 0 N0). split; [lia|]. intros; lia.
      - apply IH; [lia|]. intros (N & HN & A). apply (chart k ltac:(lia)).
        + intros F HF x Lx Nx. apply (H F HF x k); auto; lia.
        + intros (N' & HN' & B). apply C'. exists (Z.max N N'). split; [lia|]. intros i Hi. destruct (Nat.eq_dec i k) as [->|].
          * apply (pw_mono _ N'); auto; lia.
          * apply (pw_mono _ N); [lia|lia|]. apply A. lia. }
    apply (K m (le_n _)). intros (N & HN & A). apply C. exists (Z.of_nat m * N). split; [nia|]. split; [nia|]. apply pw_full; [lia|]. intros i Hi. apply A. lia.
  Qed.
End Conv.
