(** The ring of polynomials modulo p as lists, and maximal ideals in it. *)
From Coq Require Import ZArith List Bool Lia Setoid Ring_theory.
From Verif Require Import Base VecSpec ToolsSpec DRSpec PtSpec.
Import ListNotations.
Open Scope Z_scope.

Lemma nth_mapseq {A} (g : nat -> A) m k d : (k < m)%nat -> nth k (map g (seq 0 m)) d = g k.
Proof.
  intros H. rewrite (nth_indep _ d (g O)) by (rewrite map_length, seq_length; lia). rewrite map_nth. now rewrite seq_nth by lia.
Qed.

Section Ring.
  Variables (m : nat) (p : Z).

  (** exponents in m variables: the first m entries count *)
  Definition ex (s : list nat) : list Z := map (fun k => Z.of_nat (nth k s 0%nat)) (seq 0 m).
  Definition emul (s t : list nat) : list nat := map (fun k => (nth k s 0 + nth k t 0)%nat) (seq 0 m).
  Definition pol : Type := list (list nat * Z).
  Definition pair (P : pol) (w : list Z -> Z) : Z := sumf (fun sc => snd sc * w (ex (fst sc))) P.
  Definition peq (P Q : pol) : Prop := forall w, cong p (pair P w) (pair Q w).
  Definition pneg (P : pol) : pol := map (fun sc => (fst sc, - snd sc)) P.
  Definition pmul (P Q : pol) : pol := flat_map (fun sc => map (fun tc => (emul (fst sc) (fst tc), snd sc * snd tc)) Q) P.
  Definition pone : pol := [([], 1)].

  Lemma ex_length s : length (ex s) = m.
  Proof. unfold ex. now rewrite map_length, seq_length. Qed.
  Lemma eplus_map (f g : nat -> Z) l : eplus (map f l) (map g l) = map (fun k => f k + g k) l.
  Proof. induction l as [|a l IH]; [reflexivity|]. cbn [map eplus]. now rewrite IH. Qed.
  Lemma ex_emul s t : ex (emul s t) = eplus (ex s) (ex t).
  Proof.
    unfold ex. rewrite eplus_map. apply map_ext_in. intros k Hk. apply in_seq in Hk. unfold emul.
    rewrite nth_mapseq by lia. lia.
  Qed.
  Lemma eplus_comm a : forall b, eplus a b = eplus b a.
  Proof. induction a as [|x a IH]; intros [|y b]; cbn [eplus]; auto. rewrite IH. f_equal. lia. Qed.
  Lemma eplus_assoc a : forall b c, eplus a (eplus b c) = eplus (eplus a b) c.
  Proof. induction a as [|x a IH]; intros [|y b] [|z c]; cbn [eplus]; auto. rewrite IH. f_equal. lia. Qed.
  Lemma ex_nil : ex [] = repeat 0 m.
  Proof. unfold ex. generalize 0%nat at 2. induction m as [|k IH]; intros a; [reflexivity|]. cbn [seq map repeat]. rewrite IH. f_equal. now destruct a. Qed.
  Lemma eplus_zero a : eplus (repeat 0 (length a)) a = a.
  Proof. induction a as [|x a IH]; [reflexivity|]. cbn [length repeat eplus]. now rewrite IH. Qed.

  Lemma pair_nil w : pair [] w = 0.
  Proof. reflexivity. Qed.
  Lemma pair_app P Q w : pair (P ++ Q) w = pair P w + pair Q w.
  Proof. apply sumf_app. Qed.
  Lemma pair_neg P w : pair (pneg P) w = - pair P w.
  Proof. unfold pair, pneg. rewrite sumf_map. cbn [fst snd]. rewrite (sumf_ext _ (fun sc => (-1) * (snd sc * w (ex (fst sc))))) by (intros; ring). rewrite sumf_scal. ring. Qed.
  Lemma pair_mul P Q w : pair (pmul P Q) w = pair P (fun s => pair Q (fun t => w (eplus s t))).
  Proof.
    unfold pair, pmul. rewrite sumf_flat_map. apply sumf_ext. intros sc _. rewrite sumf_map. cbn [fst snd]. rewrite <- sumf_scal.
    apply sumf_ext. intros tc _. rewrite ex_emul. ring.
  Qed.
  Lemma pair_ext P w w' : (forall s, length s = m -> w s = w' s) -> pair P w = pair P w'.
  Proof. intros H. apply sumf_ext. intros sc _. rewrite H; [reflexivity|apply ex_length]. Qed.
  Lemma pair_one w : pair pone w = w (repeat 0 m).
  Proof. unfold pair, pone. rewrite sumf_cons, sumf_nil. cbn [fst snd]. rewrite ex_nil. ring. Qed.
  Lemma pair_swap P Q (w : list Z -> list Z -> Z) : pair P (fun s => pair Q (fun t => w s t)) = pair Q (fun t => pair P (fun s => w s t)).
  Proof.
    unfold pair. rewrite (sumf_ext _ (fun sc => sumf (fun tc => snd sc * (snd tc * w (ex (fst sc)) (ex (fst tc)))) Q)) by (intros; now rewrite <- sumf_scal).
    rewrite sumf_swap. apply sumf_ext. intros tc _. rewrite <- sumf_scal. apply sumf_ext. intros sc _. ring.
  Qed.
  Lemma pair_plus P w w' : pair P (fun s => w s + w' s) = pair P w + pair P w'.
  Proof. unfold pair. rewrite <- sumf_plus. apply sumf_ext. intros; ring. Qed.
  Lemma pair_cong P w w' : (forall s, cong p (w s) (w' s)) -> cong p (pair P w) (pair P w').
  Proof. intros H. apply cong_sumf. intros sc _. apply cong_mul; [apply cong_refl|apply H]. Qed.

  Record ideal (I : pol -> Prop) : Prop := {
    i_eq : forall P Q, peq P Q -> I P -> I Q;
    i_nil : I [];
    i_add : forall P Q, I P -> I Q -> I (P ++ Q);
    i_mul : forall B P, I P -> I (pmul B P) }.
  Definition proper (I : pol -> Prop) : Prop := ~ I pone.
  Definition adj (I : pol -> Prop) (a : pol) (b : pol) : Prop := exists u c, I u /\ peq (u ++ pmul c a) b.
  Definition step (I : pol -> Prop) (a : pol) (b : pol) : Prop := I b \/ (~ adj I a pone /\ adj I a b).

  Lemma adj_ideal I a : ideal I -> ideal (adj I a) /\ (forall b, I b -> adj I a b) /\ adj I a a.
  Proof.
    intros Hi. split; [constructor|split].
    - intros P Q E (u & c & Hu & Hc). exists u, c. split; auto. intros w. eapply cong_trans; [apply Hc|apply E].
    - exists [], []. split; [apply Hi|]. intros w. apply cong_refl.
    - intros P Q (u & c & Hu & Hc) (u' & c' & Hu' & Hc'). exists (u ++ u'), (c ++ c'). split; [now apply Hi|]. intros w.
      specialize (Hc w). specialize (Hc' w). rewrite pair_app, pair_mul in Hc, Hc'. rewrite !pair_app, pair_mul, pair_app.
      match goal with |- cong p ?A _ => match type of Hc with cong p ?B _ => match type of Hc' with cong p ?C _ => replace A with (B + C) by ring end end end.
      now apply cong_add.
    - intros B P (u & c & Hu & Hc). exists (pmul B u), (pmul B c). split; [now apply Hi|]. intros w.
      rewrite !pair_app, !pair_mul. rewrite <- pair_plus. apply pair_cong. intros s. specialize (Hc (fun t => w (eplus s t))). rewrite pair_app, pair_mul in Hc.
      eapply cong_trans; [|exact Hc]. apply cong_of_eq. f_equal. apply pair_ext. intros t _. apply pair_ext. intros r _. now rewrite eplus_assoc.
    - intros b Hb. exists b, []. split; auto. intros w. rewrite pair_app. apply cong_of_eq. change (pair (pmul [] a) w) with 0. lia.
    - exists [], pone. split; [apply Hi|]. intros w. cbn [app]. rewrite pair_mul, pair_one. apply cong_of_eq. apply pair_ext. intros t Ht. now rewrite <- Ht, eplus_zero.
  Qed.
  Lemma step_ideal I a : ideal I -> proper I -> ideal (step I a) /\ proper (step I a) /\ (forall b, I b -> step I a b).
  Proof.
    intros Hi Pi. destruct (adj_ideal I a Hi) as (A & B & C). split; [constructor|split].
    - intros P Q E [H|(K & H)]; [left; eapply i_eq; eauto|right; split; auto; eapply i_eq; eauto].
    - left. apply Hi.
    - intros P Q [H|(K & H)] [H'|(K' & H')]; [left; now apply Hi|right; split; auto; apply A; auto..].
    - intros R P [H|(K & H)]; [left; now apply Hi|right; split; auto; now apply A].
    - intros [H|(K & H)]; [now apply Pi|now apply K].
    - intros b Hb. now left.
  Qed.

  (** all polynomials, in finite portions *)
  Fixpoint lists {A} (k : nat) (l : list A) : list (list A) :=
    match k with O => [[]] | S k => [] :: flat_map (fun t => map (fun a => a :: t) l) (lists k l) end.
  Lemma lists_In {A} k (l : list A) : forall t, (length t <= k)%nat -> (forall a, In a t -> In a l) -> In t (lists k l).
  Proof.
    induction k as [|k IH]; intros [|a t] Ht H; cbn [lists length In] in *; try (left; reflexivity); [lia|right].
    apply in_flat_map. exists t. split; [apply IH; auto; lia|]. apply in_map_iff. exists a. split; auto.
  Qed.
  Definition portion (k : nat) : list pol :=
    lists k (list_prod (lists k (seq 0 k)) (map (fun i => Z.of_nat i - Z.of_nat k) (seq 0 (2 * k + 1)))).
  Lemma portion_In (P : pol) : exists k, In P (portion k).
  Proof.
    assert (B : exists k, (length P <= k)%nat /\ forall s c, In (s, c) P -> (length s <= k)%nat /\ Z.abs c <= Z.of_nat k /\ forall i, In i s -> (i < k)%nat).
    { induction P as [|[s c] P (k & L & H)].
      - exists O. split; [cbn; lia|]. intros s c [].
      - assert (X : exists K, forall i, In i s -> (i < K)%nat).
        { induction s as [|i s (K & HK)]; [exists O; intros ? []|]. exists (S i + K)%nat. intros j [<-|Hj]; [lia|]. specialize (HK j Hj). lia. }
        destruct X as (K & HK). exists (S k + length s + Z.to_nat (Z.abs c) + K)%nat. split; [cbn [length]; lia|].
        intros s' c' [E|E].
        + injection E as <- <-. split; [lia|]. split; [lia|]. intros i Hi. specialize (HK i Hi). lia.
        + destruct (H s' c' E) as (A & A' & A''). split; [lia|]. split; [lia|]. intros i Hi. specialize (A'' i Hi). lia. }
    destruct B as (k & L & H). exists k. apply lists_In; auto. intros [s c] Hsc. destruct (H s c Hsc) as (A & B & C).
    apply in_prod.
    - apply lists_In; auto. intros i Hi. apply in_seq. specialize (C i Hi). lia.
    - apply in_map_iff. exists (Z.to_nat (c + Z.of_nat k)). split; [lia|]. apply in_seq. lia.
  Qed.

  Variable I0 : pol -> Prop.
  Hypothesis H0 : ideal I0.
  Hypothesis P0 : proper I0.
  Fixpoint stages (l : list pol) (I : pol -> Prop) : pol -> Prop :=
    match l with [] => I | a :: l => stages l (step I a) end.
  Fixpoint chain (k : nat) : pol -> Prop :=
    match k with O => I0 | S k => stages (portion k) (chain k) end.
  Definition M (b : pol) : Prop := exists k, chain k b.

  Lemma stages_ideal l : forall I, ideal I -> proper I -> ideal (stages l I) /\ proper (stages l I) /\ forall b, I b -> stages l I b.
  Proof.
    induction l as [|a l IH]; intros I Hi Pi; cbn [stages]; auto. destruct (step_ideal I a Hi Pi) as (A & B & C).
    destruct (IH _ A B) as (A' & B' & C'). split; auto.
  Qed.
  Lemma stages_app l l' : forall I, stages (l ++ l') I = stages l' (stages l I).
  Proof. induction l as [|a l IH]; intros I; [reflexivity|]. cbn [app stages]. apply IH. Qed.
  Lemma chain_ideal k : ideal (chain k) /\ proper (chain k).
  Proof. induction k as [|k (A & B)]; cbn [chain]; [split; auto|]. destruct (stages_ideal (portion k) _ A B) as (A' & B' & _). auto. Qed.
  Lemma chain_mono k l b : (k <= l)%nat -> chain k b -> chain l b.
  Proof.
    induction 1 as [|l H IH]; intros C; auto. cbn [chain]. destruct (chain_ideal l) as (A & B).
    apply (stages_ideal (portion l) _ A B). auto.
  Qed.
  Lemma M_ideal : ideal M /\ proper M.
  Proof.
    split; [constructor|].
    - intros P Q E (k & H). exists k. eapply i_eq; eauto. apply chain_ideal.
    - exists O. apply H0.
    - intros P Q (k & H) (l & H'). exists (k + l)%nat. apply (i_add _ (proj1 (chain_ideal (k + l)))); eapply chain_mono; try eassumption; lia.
    - intros B P (k & H). exists k. apply (i_mul _ (proj1 (chain_ideal k))). auto.
    - intros (k & H). now apply (proj2 (chain_ideal k)).
  Qed.
  Lemma M_max a : ~ M a -> ~ ~ adj M a pone.
  Proof.
    intros Ha HN. destruct (portion_In a) as (k & Hk). apply in_split in Hk. destruct Hk as (l1 & l2 & Hk).
    destruct (chain_ideal k) as (A & B). destruct (stages_ideal l1 _ A B) as (A1 & B1 & _). destruct (step_ideal _ a A1 B1) as (A2 & B2 & C2).
    destruct (stages_ideal l2 _ A2 B2) as (_ & _ & C3).
    assert (T : forall b, step (stages l1 (chain k)) a b -> M b).
    { intros b Hb. exists (S k). cbn [chain]. rewrite Hk, stages_app. cbn [stages]. now apply C3. }
    assert (NA : ~ adj (stages l1 (chain k)) a pone).
    { intros (u & c & Hu & E). apply HN. exists u, c. split; auto. }
    apply Ha, T. right. split; auto. now apply adj_ideal.
  Qed.

  (** the residue field *)
  Definition req (P Q : pol) : Prop := M (P ++ pneg Q).
  Lemma req_of P Q : (forall w, cong p (pair P w) (pair Q w)) -> req P Q.
  Proof.
    intros H. unfold req. apply (i_eq _ (proj1 M_ideal) []); [|apply M_ideal]. intros w. rewrite pair_app, pair_neg, pair_nil.
    destruct (H w) as (k & Hk). exists (- k). lia.
  Qed.
  Lemma req_of_eq P Q : (forall w, pair P w = pair Q w) -> req P Q.
  Proof. intros H. apply req_of. intros w. apply cong_of_eq, H. Qed.
  Lemma M_eq P Q : (forall w, pair P w = pair Q w) -> M P -> M Q.
  Proof. intros H. apply (i_eq _ (proj1 M_ideal)). intros w. apply cong_of_eq, H. Qed.
  Lemma req_equiv : Equivalence req.
  Proof.
    split.
    - intros P. now apply req_of_eq.
    - intros P Q H. apply (M_eq (pmul (pneg pone) (P ++ pneg Q))); [|now apply (i_mul _ (proj1 M_ideal))].
      intros w. rewrite pair_mul, pair_neg, pair_one, !pair_app, !pair_neg.
      rewrite !(pair_ext _ (fun t => w (eplus (repeat 0 m) t)) w) by (intros t Ht; rewrite <- Ht; now rewrite eplus_zero). ring.
    - intros P Q R H H'. apply (M_eq ((P ++ pneg Q) ++ (Q ++ pneg R))); [|now apply (i_add _ (proj1 M_ideal))]. intros w. rewrite !pair_app, !pair_neg. ring.
  Qed.
  Lemma req_add a a' b b' : req a a' -> req b b' -> req (a ++ b) (a' ++ b').
  Proof. intros H H'. apply (M_eq ((a ++ pneg a') ++ (b ++ pneg b'))); [|now apply (i_add _ (proj1 M_ideal))]. intros w. rewrite !pair_app, !pair_neg, !pair_app. ring. Qed.
  Lemma req_opp a a' : req a a' -> req (pneg a) (pneg a').
  Proof.
    intros H. destruct req_equiv as [_ S _]. apply (M_eq (a' ++ pneg a)); [|now apply S]. intros w. rewrite !pair_app, !pair_neg. ring.
  Qed.
  Lemma pair_minus P w w' : pair P (fun s => w s - w' s) = pair P w - pair P w'.
  Proof. rewrite (pair_ext P _ (fun s => w s + (-1) * w' s)) by (intros; ring). rewrite pair_plus. unfold pair at 2. rewrite (sumf_ext _ (fun sc => (-1) * (snd sc * w' (ex (fst sc))))) by (intros; ring). rewrite sumf_scal. unfold pair. ring. Qed.
  Lemma pair_mul' P Q w : pair (pmul P Q) w = pair Q (fun t => pair P (fun s => w (eplus s t))).
  Proof. rewrite pair_mul. apply (pair_swap P Q (fun s t => w (eplus s t))). Qed.
  Lemma req_mul a a' b b' : req a a' -> req b b' -> req (pmul a b) (pmul a' b').
  Proof.
    intros H H'. apply (M_eq (pmul b (a ++ pneg a') ++ pmul a' (b ++ pneg b'))); [|apply (i_add _ (proj1 M_ideal)); now apply (i_mul _ (proj1 M_ideal))].
    intros w. rewrite !pair_app, pair_neg.
    assert (E1 : pair (pmul b (a ++ pneg a')) w = pair (pmul a b) w - pair (pmul a' b) w).
    { rewrite pair_mul', pair_app, pair_neg, !pair_mul.
      assert (X : forall c, pair c (fun t => pair b (fun s => w (eplus s t))) = pair c (fun s => pair b (fun t => w (eplus s t)))).
      { intros c. apply pair_ext. intros t _. apply pair_ext. intros s _. now rewrite eplus_comm. }
      rewrite !X. ring. }
    assert (E2 : pair (pmul a' (b ++ pneg b')) w = pair (pmul a' b) w - pair (pmul a' b') w).
    { rewrite !pair_mul, <- pair_minus. apply pair_ext. intros s _. rewrite pair_app, pair_neg. ring. }
    rewrite E1, E2. ring.
  Qed.
  Lemma req_ring : ring_theory [] pone (@app _) pmul (fun a b => a ++ pneg b) pneg req.
  Proof.
    constructor; intros; apply req_of_eq; intros w.
    - reflexivity.
    - rewrite !pair_app. ring.
    - rewrite !pair_app. ring.
    - rewrite pair_mul, pair_one. apply pair_ext. intros t Ht. now rewrite <- Ht, eplus_zero.
    - rewrite pair_mul', pair_mul. apply pair_ext. intros t _. apply pair_ext. intros s _. now rewrite eplus_comm.
    - rewrite !pair_mul. apply pair_ext. intros s _. rewrite pair_mul. apply pair_ext. intros t _. apply pair_ext. intros r _. now rewrite eplus_assoc.
    - rewrite pair_mul, !pair_app, !pair_mul. reflexivity.
    - reflexivity.
    - rewrite pair_app, pair_neg, pair_nil. ring.
  Qed.
  Lemma req_zero a : req a [] <-> M a.
  Proof. unfold req. cbn [pneg map]. now rewrite app_nil_r. Qed.
  Definition residue : fld.
  Proof.
    refine (mk_fld pol req [] pone (@app _) pmul pneg req_equiv req_add req_mul req_opp req_ring _ _).
    - rewrite req_zero. apply M_ideal.
    - intros a Ha HN. rewrite req_zero in Ha. apply (M_max a Ha). intros (u & c & Hu & E). apply HN. exists c.
      apply (i_eq _ (proj1 M_ideal) (pmul (pneg pone) u)); [|now apply (i_mul _ (proj1 M_ideal))].
      intros w. rewrite pair_mul, pair_neg, pair_one, pair_app, pair_neg.
      rewrite (pair_ext u _ w) by (intros t Ht; rewrite <- Ht; now rewrite eplus_zero).
      destruct (E w) as (k & Hk). rewrite pair_app in Hk. exists (- k).
      replace (pair (pmul a c) w) with (pair (pmul c a) w); [lia|].
      rewrite pair_mul', pair_mul. apply pair_ext. intros t _. apply pair_ext. intros s _. now rewrite eplus_comm.
  Defined.
End Ring.
