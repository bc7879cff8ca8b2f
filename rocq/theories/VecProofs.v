From Coq Require Import ZArith List Lia Bool Sorted Permutation.
From Verif Require Import Base VecModel VecSpec.
Import ListNotations.
Open Scope Z_scope.

(** * operator< *)
Lemma vltb_lex a b : length a = length b -> vltb a b = true <-> lex_lt a b.
Proof.
  revert b. induction a as [|x a IH]; intros [|y b] Hl; simpl in Hl; try lia.
  - split; [discriminate|]. intros (k & H & _). simpl in H. lia.
  - assert (Hl' : length a = length b) by lia.
    assert (Hlex : lex_lt (x :: a) (y :: b) <-> x < y \/ (x = y /\ lex_lt a b)).
    { split.
      - intros (k & H1 & H2 & H3 & H4). destruct k as [|k]; simpl in *; [auto|].
        right. split. { apply (H3 0%nat). lia. }
        exists k. repeat split; try lia. intros i Hi. apply (H3 (S i)). lia.
      - intros [H|[-> (k & H1 & H2 & H3 & H4)]].
        + exists 0%nat. simpl. repeat split; try lia. 
        + exists (S k). simpl. repeat split; try lia. intros [|i] Hi; auto. apply H3. lia. }
    rewrite Hlex. clear Hlex.
    assert (E : vltb (x :: a) (y :: b) = match a, b with [], [] => x <? y | _, _ => if y <? x then false else if x <? y then true else vltb a b end).
    { destruct a, b; reflexivity. }
    rewrite E. clear E.
    destruct a as [|x' a], b as [|y' b]; simpl in Hl'; try lia.
    + rewrite Z.ltb_lt. split; [auto|]. intros [H|[_ (k & H & _)]]; [auto|]. simpl in H. lia.
    + destruct (Z.ltb_spec y x).
      * split; [discriminate|]. lia.
      * destruct (Z.ltb_spec x y).
        -- split; auto.
        -- rewrite (IH (y' :: b)) by (simpl; lia). split; intros; [right; split; [lia|auto]|].
           destruct H1 as [H1|[_ H1]]; [lia|auto].
Qed.

Lemma lex_lt_irrefl a : ~ lex_lt a a.
Proof. intros (k & _ & _ & _ & H). lia. Qed.

Lemma lex_lt_trans a b c : lex_lt a b -> lex_lt b c -> lex_lt a c.
Proof.
  intros (k & H1 & H2 & H3 & H4) (l & G1 & G2 & G3 & G4).
  destruct (Nat.lt_trichotomy k l) as [H|[->|H]].
  - exists k. repeat split; try lia.
    + intros i Hi. rewrite H3, G3; auto; lia.
    + rewrite <- G3 by lia. auto.
  - exists l. repeat split; try lia. intros i Hi. rewrite H3, G3; auto.
  - exists l. repeat split; try lia.
    + intros i Hi. rewrite H3, G3; auto; lia.
    + rewrite H3 by lia. auto.
Qed.

Lemma lex_lt_total a b : length a = length b -> lex_lt a b \/ a = b \/ lex_lt b a.
Proof.
  revert b. induction a as [|x a IH]; intros [|y b] Hl; simpl in Hl; try lia; auto.
  destruct (Z.lt_trichotomy x y) as [H|[->|H]].
  - left. exists 0%nat. simpl. repeat split; try lia. 
  - destruct (IH b ltac:(lia)) as [H|[->|H]]; auto.
    + left. destruct H as (k & H1 & H2 & H3 & H4). exists (S k). simpl.
      repeat split; try lia. intros [|i] Hi; auto. apply H3. lia.
    + right; right. destruct H as (k & H1 & H2 & H3 & H4). exists (S k). simpl.
      repeat split; try lia. intros [|i] Hi; auto. apply H3. lia.
  - right; right. exists 0%nat. simpl. repeat split; try lia. 
Qed.

Lemma vec_less_ok a b : length a = length b -> a <> [] -> vec_less a b = OK (vltb a b).
Proof.
  intros Hl Ha. unfold vec_less. rewrite Hl, Nat.eqb_refl. simpl. destruct a; congruence.
Qed.

Lemma vltb_irrefl a : vltb a a = false.
Proof.
  destruct (vltb a a) eqn:E; auto. apply vltb_lex in E; auto. now apply lex_lt_irrefl in E.
Qed.

Lemma vltb_trans n a b c : length a = n -> length b = n -> length c = n ->
  vltb a b = true -> vltb b c = true -> vltb a c = true.
Proof.
  intros Ha Hb Hc. rewrite !vltb_lex by congruence. apply lex_lt_trans.
Qed.

Lemma vltb_total n a b : length a = n -> length b = n ->
  vltb a b = false -> vltb b a = false -> a = b.
Proof.
  intros Ha Hb H1 H2. destruct (lex_lt_total a b ltac:(congruence)) as [H|[H|H]]; auto;
  apply vltb_lex in H; congruence.
Qed.

(** * Finite maps *)
Section MAPLEM.
  Context {K V : Type}.
  Variable ltb : K -> K -> bool.
  Variable D : K -> Prop.
  Hypothesis irr : forall a, ltb a a = false.
  Hypothesis trans : forall a b c, D a -> D b -> D c -> ltb a b = true -> ltb b c = true -> ltb a c = true.
  Hypothesis total : forall a b, D a -> D b -> ltb a b = false -> ltb b a = false -> a = b.

  Notation find := (mfind (V:=V) ltb).
  Notation insert := (minsert (V:=V) ltb).
  Notation erase := (merase (V:=V) ltb).

  (** sorted, all keys in the domain *)
  Inductive msorted : list (K * V) -> Prop :=
  | ms_nil : msorted []
  | ms_cons k v m : D k -> msorted m -> (forall k' v', In (k', v') m -> ltb k k' = true) ->
      msorted ((k, v) :: m).

  Lemma ltb_asym a b : D a -> D b -> ltb a b = true -> ltb b a = false.
  Proof.
    intros Ha Hb H. destruct (ltb b a) eqn:E; auto.
    rewrite <- (irr a). symmetry. eapply (trans a b a); eauto.
  Qed.

  Lemma msorted_D m k v : msorted m -> In (k, v) m -> D k.
  Proof. induction 1; simpl; intros; [tauto|]. destruct H2 as [H2|H2]; [congruence|auto]. Qed.

  Lemma mfind_In m k v : msorted m -> D k -> (find k m = Some v <-> In (k, v) m).
  Proof.
    intros Hs Hk. induction Hs as [|k' v' m Hk' Hs IH Hlt]; simpl.
    - split; [discriminate|tauto].
    - destruct (ltb k k') eqn:E1.
      + split; [discriminate|]. intros [H|H].
        * injection H as -> ->. rewrite irr in E1. discriminate.
        * assert (HH := Hlt _ _ H). rewrite (ltb_asym k' k) in E1; auto. discriminate.
      + destruct (ltb k' k) eqn:E2.
        * rewrite IH. split; auto. intros [H|H]; auto. injection H as -> ->.
          rewrite irr in E2. discriminate.
        * assert (k = k') by (apply total; auto). subst k'.
          split; [intros H; left; congruence|]. intros [H|H]; [congruence|].
          apply Hlt in H. congruence.
  Qed.

  Lemma minsert_In m k v k' v' : msorted m -> D k ->
    (In (k', v') (insert k v m) <-> (k' = k /\ v' = v) \/ (k' <> k /\ In (k', v') m)).
  Proof.
    intros Hs Hk. induction Hs as [|k0 v0 m Hk0 Hs IH Hlt]; simpl.
    - split; [intros [H|[]]; injection H; auto|]. intros [[-> ->]|[_ []]]; auto.
    - destruct (ltb k k0) eqn:E1.
      + simpl. split.
        * intros [H|[H|H]].
          -- left. injection H; auto.
          -- right. injection H as <- <-. split; auto. intros ->. rewrite irr in E1. discriminate.
          -- right. split; auto. intros ->. apply Hlt in H. rewrite (ltb_asym k0 k) in E1; auto. discriminate.
        * intros [[-> ->]|[Hn [H|H]]]; auto.
      + destruct (ltb k0 k) eqn:E2; simpl.
        * rewrite IH. split.
          -- intros [H|[H|[H1 H2]]]; auto. injection H as <- <-. right; split; auto.
             intros ->. rewrite irr in E2. discriminate.
          -- intros [H|[H1 [H2|H2]]]; auto.
        * assert (k = k0) by (apply total; auto). subst k0. split.
          -- intros [H|H]. { injection H; auto. } right. split; auto. intros ->.
             apply Hlt in H. congruence.
          -- intros [[-> ->]|[H1 [H2|H2]]]; auto. congruence.
  Qed.

  Lemma minsert_sorted m k v : msorted m -> D k -> msorted (insert k v m).
  Proof.
    intros Hs Hk. induction Hs as [|k0 v0 m Hk0 Hs IH Hlt]; simpl.
    - constructor; [auto|constructor|simpl; tauto].
    - destruct (ltb k k0) eqn:E1.
      + constructor; auto. { constructor; auto. }
        simpl. intros k' v' [H|H]; [injection H as <- <-; auto|].
        apply (trans k k0 k'); eauto using msorted_D.
      + destruct (ltb k0 k) eqn:E2.
        * constructor; auto. intros k' v' H. apply minsert_In in H; auto.
          destruct H as [[-> ->]|[_ H]]; eauto.
        * assert (k = k0) by (apply total; auto). subst k0. constructor; auto.
  Qed.

  Lemma mfind_insert_eq m k v : msorted m -> D k -> find k (insert k v m) = Some v.
  Proof.
    intros. apply mfind_In; auto using minsert_sorted. apply minsert_In; auto.
  Qed.

  Lemma mfind_insert_neq m k v k' : msorted m -> D k -> D k' -> k' <> k ->
    find k' (insert k v m) = find k' m.
  Proof.
    intros Hs Hk Hk' Hn. destruct (find k' m) as [w|] eqn:E.
    - apply mfind_In; auto using minsert_sorted. apply minsert_In; auto.
      apply mfind_In in E; auto.
    - destruct (find k' (insert k v m)) as [w|] eqn:E'; auto.
      apply mfind_In in E'; auto using minsert_sorted. apply minsert_In in E'; auto.
      destruct E' as [[-> _]|[_ E']]; [congruence|]. apply mfind_In in E'; auto. congruence.
  Qed.

  Lemma merase_In m k k' v' : msorted m -> D k ->
    (In (k', v') (erase k m) <-> k' <> k /\ In (k', v') m).
  Proof.
    intros Hs Hk. induction Hs as [|k0 v0 m Hk0 Hs IH Hlt]; simpl.
    - tauto.
    - destruct (ltb k k0) eqn:E1.
      + simpl. split.
        * intros [H|H]; split; auto.
          -- injection H as <- <-. intros ->. rewrite irr in E1. discriminate.
          -- intros ->. apply Hlt in H. rewrite (ltb_asym k0 k) in E1; auto. discriminate.
        * tauto.
      + destruct (ltb k0 k) eqn:E2; simpl.
        * rewrite IH. split.
          -- intros [H|[H1 H2]]; auto. injection H as <- <-. split; auto.
             intros ->. rewrite irr in E2. discriminate.
          -- intros [H1 [H2|H2]]; auto.
        * assert (k = k0) by (apply total; auto). subst k0. split.
          -- intros H. split; auto. intros ->. apply Hlt in H. rewrite irr in H. discriminate.
          -- intros [H1 [H2|H2]]; auto. congruence.
  Qed.

  Lemma merase_sorted m k : msorted m -> D k -> msorted (erase k m).
  Proof.
    intros Hs Hk. induction Hs as [|k0 v0 m Hk0 Hs IH Hlt]; simpl.
    - constructor.
    - destruct (ltb k k0) eqn:E1; [constructor; auto|].
      destruct (ltb k0 k) eqn:E2; auto. constructor; auto.
      intros k' v' H. apply merase_In in H; auto. destruct H. eauto.
  Qed.

  Lemma mfind_erase m k k' : msorted m -> D k -> D k' ->
    (k' = k /\ find k' (erase k m) = None) \/ (k' <> k /\ find k' (erase k m) = find k' m).
  Proof.
    intros Hs Hk Hk'. destruct (find k' (erase k m)) as [w|] eqn:E.
    - apply mfind_In in E; auto using merase_sorted. apply merase_In in E; auto.
      destruct E as [H1 H2]. right. split; auto. symmetry. apply mfind_In; auto.
    - destruct (find k' m) as [w|] eqn:E'.
      + left. split; auto. apply mfind_In in E'; auto.
        destruct (find k' (erase k m)) eqn:E''; [congruence|].
        destruct (ltb k' k) eqn:L1; [|destruct (ltb k k') eqn:L2; [|apply total; auto]]; exfalso.
        * assert (HH : In (k', w) (erase k m)). { apply merase_In; auto. split; auto. intros ->. rewrite irr in L1. discriminate. }
          apply mfind_In in HH; auto using merase_sorted. congruence.
        * assert (HH : In (k', w) (erase k m)). { apply merase_In; auto. split; auto. intros ->. rewrite irr in L2. discriminate. }
          apply mfind_In in HH; auto using merase_sorted. congruence.
      + destruct (ltb k' k) eqn:L1; [|destruct (ltb k k') eqn:L2; [|left; split; auto; apply total; auto]].
        * right. split; auto. intros ->. rewrite irr in L1. discriminate.
        * right. split; auto. intros ->. rewrite irr in L2. discriminate.
  Qed.

  Lemma msorted_NoDup m : msorted m -> NoDup (map fst m).
  Proof.
    induction 1 as [|k v m Hk Hs IH Hlt]; simpl; constructor; auto.
    intros H. apply in_map_iff in H. destruct H as ([k' v'] & H1 & H2). simpl in H1. subst k'.
    apply Hlt in H2. rewrite irr in H2. discriminate.
  Qed.
End MAPLEM.

(** exponent-vector maps with keys of length n *)
Definition vsorted {V} (n : nat) (m : vmap V) : Prop := msorted vltb (fun k => length k = n) m.

Lemma vfind_In {V} n (m : vmap V) k v : vsorted n m -> length k = n ->
  (vfind k m = Some v <-> In (k, v) m).
Proof. intros. apply (mfind_In vltb (fun k => length k = n)); eauto using vltb_irrefl, vltb_trans, vltb_total. Qed.

Lemma vinsert_In {V} n (m : vmap V) k v k' v' : vsorted n m -> length k = n ->
  (In (k', v') (vinsert k v m) <-> (k' = k /\ v' = v) \/ (k' <> k /\ In (k', v') m)).
Proof. intros. apply (minsert_In vltb (fun k => length k = n)); eauto using vltb_irrefl, vltb_trans, vltb_total. Qed.

Lemma vinsert_sorted {V} n (m : vmap V) k v : vsorted n m -> length k = n -> vsorted n (vinsert k v m).
Proof. intros. apply minsert_sorted; eauto using vltb_irrefl, vltb_trans, vltb_total. Qed.

Lemma vfind_insert_eq {V} n (m : vmap V) k v : vsorted n m -> length k = n ->
  vfind k (vinsert k v m) = Some v.
Proof. intros. apply (mfind_insert_eq vltb (fun k => length k = n)); eauto using vltb_irrefl, vltb_trans, vltb_total. Qed.

Lemma vfind_insert_neq {V} n (m : vmap V) k v k' : vsorted n m -> length k = n -> length k' = n ->
  k' <> k -> vfind k' (vinsert k v m) = vfind k' m.
Proof. intros. apply (mfind_insert_neq vltb (fun k => length k = n)); eauto using vltb_irrefl, vltb_trans, vltb_total. Qed.

Lemma vsorted_nil {V} n : vsorted n (@nil (vec * V)).
Proof. constructor. Qed.

Lemma vsorted_NoDup {V} n (m : vmap V) : vsorted n m -> NoDup (map fst m).
Proof. intros. eapply msorted_NoDup; eauto using vltb_irrefl. Qed.

Lemma vsorted_len {V} n (m : vmap V) k v : vsorted n m -> In (k, v) m -> length k = n.
Proof. intros. eapply (msorted_D vltb (fun k => length k = n)); eauto. Qed.

Lemma vec_eq_dec (a b : vec) : {a = b} + {a <> b}.
Proof. apply (list_eq_dec Z.eq_dec). Qed.

(** Any two sorted maps with the same lookups are equal. *)
Lemma vsorted_ext {V} n (m1 m2 : vmap V) : vsorted n m1 -> vsorted n m2 ->
  (forall k v, In (k, v) m1 <-> In (k, v) m2) -> m1 = m2.
Proof.
  intros H1. revert m2. induction H1 as [|k v m Hk Hs IH Hlt]; intros m2 H2 Hin.
  - destruct m2 as [|[k v] m2]; auto. destruct (proj2 (Hin k v)). now left.
  - destruct H2 as [|k2 v2 m2 Hk2 Hs2 Hlt2].
    + destruct (proj1 (Hin k v)). now left.
    + assert (E : (k, v) = (k2, v2)).
      { destruct (proj1 (Hin k v) (or_introl eq_refl)) as [E|E]; [congruence|].
        destruct (proj2 (Hin k2 v2) (or_introl eq_refl)) as [E'|E']; [congruence|].
        apply Hlt in E'. apply Hlt2 in E.
        assert (vltb k k = true) by (eapply vltb_trans; [| | |exact E'|exact E]; eauto).
        rewrite vltb_irrefl in H. discriminate. }
      injection E as <- <-. f_equal. apply IH; auto.
      intros k' v'. specialize (Hin k' v'). simpl in Hin.
      split; intros H.
      * destruct (proj1 Hin (or_intror H)) as [E|E]; auto. injection E as <- <-.
        apply Hlt in H. rewrite vltb_irrefl in H. discriminate.
      * destruct (proj2 Hin (or_intror H)) as [E|E]; auto. injection E as <- <-.
        apply Hlt2 in H. rewrite vltb_irrefl in H. discriminate.
Qed.

(** * vector algebra *)
Lemma map2_length {A B C} (f : A -> B -> C) l1 l2 :
  length l1 = length l2 -> length (map2 f l1 l2) = length l1.
Proof. revert l2; induction l1; intros [|]; simpl; intros; try lia; auto. Qed.

Lemma vadd_length v w n : length v = n -> length w = n -> length (vadd v w) = n.
Proof. intros. unfold vadd. rewrite map2_length; congruence. Qed.
Lemma vsub_length v w n : length v = n -> length w = n -> length (vsub v w) = n.
Proof. intros. unfold vsub. rewrite map2_length; congruence. Qed.
Lemma vscale_length c v : length (vscale c v) = length v.
Proof. apply map_length. Qed.

Lemma nth_map2 {A B C} (f : A -> B -> C) l1 l2 i a b c :
  length l1 = length l2 -> f a b = c -> nth i (map2 f l1 l2) c = f (nth i l1 a) (nth i l2 b).
Proof.
  revert l2 i; induction l1; intros [|] [|i]; simpl; intros; try lia; auto.
Qed.

Lemma vadd_nth v w i : length v = length w -> nth i (vadd v w) 0 = nth i v 0 + nth i w 0.
Proof. intros. unfold vadd. now apply nth_map2. Qed.
Lemma vsub_nth v w i : length v = length w -> nth i (vsub v w) 0 = nth i v 0 - nth i w 0.
Proof. intros. unfold vsub. now apply nth_map2. Qed.
Lemma vscale_nth c v i : nth i (vscale c v) 0 = c * nth i v 0.
Proof.
  unfold vscale. revert i; induction v as [|x v IH]; intros [|i]; cbn [map nth]; try lia.
  apply IH.
Qed.

Lemma vec_ext (a b : vec) : length a = length b ->
  (forall i, (i < length a)%nat -> nth i a 0 = nth i b 0) -> a = b.
Proof. intros. apply (nth_ext _ _ 0 0); auto. Qed.

Lemma zsum_vadd v w : length v = length w -> zsum (vadd v w) = zsum v + zsum w.
Proof.
  revert w; induction v; intros [|]; simpl; intros; try lia.
  unfold vadd in *. rewrite IHv; lia.
Qed.
Lemma zsum_vsub v w : length v = length w -> zsum (vsub v w) = zsum v - zsum w.
Proof.
  revert w; induction v; intros [|]; simpl; intros; try lia.
  unfold vsub in *. rewrite IHv; lia.
Qed.
Lemma zsum_vscale c v : zsum (vscale c v) = c * zsum v.
Proof. induction v as [|x v IH]; cbn [vscale map zsum]; [lia|]. unfold vscale in IH. rewrite IH. lia. Qed.

Lemma vadd_comm v w : length v = length w -> vadd v w = vadd w v.
Proof. intros. apply vec_ext; rewrite ?(vadd_length _ _ (length v)); auto. intros. rewrite !vadd_nth; lia. Qed.

Lemma vadd_assoc u v w : length u = length v -> length v = length w ->
  vadd u (vadd v w) = vadd (vadd u v) w.
Proof.
  revert v w; induction u as [|x u IH]; intros [|y v] [|z w]; simpl; intros; try lia; auto.
  unfold vadd in *. cbn [map2]. f_equal; [lia|]. apply IH; lia.
Qed.

Lemma nonneg_nth v i : nonneg v -> 0 <= nth i v 0.
Proof.
  intros H. destruct (Nat.ltb_spec i (length v)).
  - unfold nonneg in H. rewrite Forall_forall in H. apply H. now apply nth_In.
  - rewrite nth_overflow by lia. lia.
Qed.

Lemma nonneg_iff v : nonneg v <-> forall i, (i < length v)%nat -> 0 <= nth i v 0.
Proof.
  split; intros. { now apply nonneg_nth. }
  apply Forall_forall. intros x Hx. destruct (In_nth _ _ 0 Hx) as (i & Hi & <-). auto.
Qed.

Lemma nonneg_zsum v : nonneg v -> 0 <= zsum v.
Proof. induction 1; simpl; lia. Qed.

Lemma nth_le_zsum v i : nonneg v -> nth i v 0 <= zsum v.
Proof.
  intros H. revert i. induction H; intros [|i]; simpl; try lia.
  - pose proof (nonneg_zsum l H0). lia.
  - specialize (IHForall i). lia.
Qed.

Lemma zsum_upd l i x : (i < length l)%nat -> zsum (upd l i x) = zsum l - nth i l 0 + x.
Proof. revert i; induction l; intros [|i]; simpl; intros; try lia. rewrite IHl; lia. Qed.

(** * tweak *)
Lemma tweak_step_length v : length (tweak_step v) = length v.
Proof. induction v; simpl; auto. destruct (0 <? a); simpl; auto. Qed.

Lemma tweak_n_length v r : length (tweak_n v r) = length v.
Proof. revert v; induction r; intros; simpl; auto. rewrite IHr. apply tweak_step_length. Qed.

Lemma tweak_step_nonneg v : nonneg v -> nonneg (tweak_step v).
Proof.
  unfold nonneg. induction 1; simpl. { constructor. }
  destruct (Z.ltb_spec 0 x); constructor; auto; lia.
Qed.

Lemma tweak_step_sum v : nonneg v -> zsum (tweak_step v) = Z.max 0 (zsum v - 1).
Proof.
  induction 1; simpl; auto. pose proof (nonneg_zsum l H0).
  destruct (Z.ltb_spec 0 x); simpl; try lia.
Qed.

Lemma tweak_n_nonneg v r : nonneg v -> nonneg (tweak_n v r).
Proof. revert v; induction r; intros; simpl; auto using tweak_step_nonneg. Qed.

Lemma tweak_n_sum v r : nonneg v -> zsum (tweak_n v r) = Z.max 0 (zsum v - Z.of_nat r).
Proof.
  revert v; induction r; intros v H; cbn [tweak_n].
  - pose proof (nonneg_zsum v H). lia.
  - rewrite IHr by now apply tweak_step_nonneg. rewrite tweak_step_sum by auto.
    lia.
Qed.

(** explicit form: the r units are taken from the left *)
Fixpoint tweak_closed (v : vec) (r : Z) : vec :=
  match v with
  | [] => []
  | x :: w => (x - Z.min x r) :: tweak_closed w (r - Z.min x r)
  end.

Lemma tweak_closed_0 v : nonneg v -> tweak_closed v 0 = v.
Proof.
  induction 1; cbn [tweak_closed]; auto. rewrite Z.min_r by lia.
  change (0 - 0) with 0. rewrite IHForall. f_equal. lia.
Qed.

Lemma tweak_closed_succ v r : nonneg v -> 0 <= r ->
  tweak_closed (tweak_step v) r = tweak_closed v (r + 1).
Proof.
  intros H. revert r. induction H; intros r Hr; simpl; auto.
  destruct (Z.ltb_spec 0 x); simpl.
  - f_equal; [|f_equal]; lia.
  - f_equal; [lia|]. rewrite IHForall by lia. f_equal. lia.
Qed.

Lemma tweak_n_closed v r : nonneg v -> tweak_n v r = tweak_closed v (Z.of_nat r).
Proof.
  revert v; induction r; intros v H; cbn [tweak_n].
  - now rewrite tweak_closed_0.
  - rewrite IHr by now apply tweak_step_nonneg. rewrite tweak_closed_succ by (auto; lia).
    f_equal. lia.
Qed.

Lemma tweak_step_le v i : nonneg v -> nth i (tweak_step v) 0 <= nth i v 0.
Proof.
  intros H. revert i. induction H; intros i; simpl; [lia|].
  destruct (Z.ltb_spec 0 x); destruct i; simpl; auto; lia.
Qed.

Lemma tweak_n_le v r i : nonneg v -> nth i (tweak_n v r) 0 <= nth i v 0.
Proof.
  revert v; induction r; intros v H; simpl; [lia|].
  etransitivity; [apply IHr; now apply tweak_step_nonneg|]. now apply tweak_step_le.
Qed.

Lemma tweak_n_add v r s : tweak_n v (r + s) = tweak_n (tweak_n v r) s.
Proof. revert v; induction r; intros; simpl; auto. Qed.

(** * histories of map operations *)
Definition run_op {V} (m : vmap V) (o : mop vec V) : vmap V :=
  match o with Put k v => vinsert k v m | Del k => verase k m end.

Lemma run_ops_find {V} n (h : list (mop vec V)) : Forall (fun o => length (mop_key o) = n) h ->
  let m := fold_right (fun o m => run_op m o) [] h in
  vsorted n m /\ forall k, length k = n -> vfind k m = last_write vec_eq_dec h k.
Proof.
  induction 1 as [|o h Ho Hh IH]; cbv zeta; cbn [fold_right].
  - split; [constructor|]. reflexivity.
  - destruct IH as [I1 I2]. destruct o as [k v|k]; cbn [run_op mop_key] in *.
    + split; [now apply vinsert_sorted|]. intros k' Hk'. cbn [last_write].
      destruct (vec_eq_dec k k') as [<-|Hne].
      * eapply vfind_insert_eq; eauto.
      * rewrite (vfind_insert_neq n); auto.
    + split.
      * apply merase_sorted; auto; eauto using vltb_irrefl, vltb_trans, vltb_total.
      * intros k' Hk'. cbn [last_write].
        destruct (mfind_erase vltb (fun k => length k = n) vltb_irrefl
            (vltb_trans n) (vltb_total n)
            (fold_right (fun o m => run_op m o) [] h) k k' I1 Ho Hk') as [[-> E]|[Hne E]];
        unfold vfind, verase.
        -- destruct (vec_eq_dec k k); [auto|congruence].
        -- destruct (vec_eq_dec k k') as [->|]; [congruence|]. rewrite E. apply I2. auto.
Qed.

Lemma vec_less_strict_total n : (0 < n)%nat ->
  (forall a, length a = n -> vec_less a a = OK false) /\
  (forall a b c, length a = n -> length b = n -> length c = n ->
     vec_less a b = OK true -> vec_less b c = OK true -> vec_less a c = OK true) /\
  (forall a b, length a = n -> length b = n ->
     (vec_less a b = OK true /\ a <> b /\ vec_less b a = OK false) \/
     (vec_less a b = OK false /\ a = b /\ vec_less b a = OK false) \/
     (vec_less a b = OK false /\ a <> b /\ vec_less b a = OK true)).
Proof.
  intros Hn.
  assert (E : forall a b, length a = n -> length b = n -> vec_less a b = OK (vltb a b)).
  { intros a b Ha Hb. apply vec_less_ok; [congruence|]. intros ->. simpl in Ha. lia. }
  split; [|split].
  - intros a Ha. rewrite E, vltb_irrefl; auto.
  - intros a b c Ha Hb Hc. rewrite !E by auto. intros H1 H2. f_equal.
    injection H1 as H1. injection H2 as H2. eapply (vltb_trans n a b c); eauto.
  - intros a b Ha Hb. rewrite !E by auto.
    destruct (vltb a b) eqn:E1, (vltb b a) eqn:E2.
    + exfalso. assert (vltb a a = true) by (eapply (vltb_trans n a b a); eauto).
      rewrite vltb_irrefl in H. discriminate.
    + left. repeat split; auto. intros ->. rewrite vltb_irrefl in E1. discriminate.
    + right; right. repeat split; auto. intros ->. rewrite vltb_irrefl in E2. discriminate.
    + right; left. repeat split; auto. eapply vltb_total; eauto.
Qed.

Lemma vec_less_lex a b : length a = length b -> a <> [] ->
  exists r, vec_less a b = OK r /\ (r = true <-> lex_lt a b).
Proof.
  intros Hl Ha. exists (vltb a b). split; [now apply vec_less_ok|]. now apply vltb_lex.
Qed.

Lemma vec_less_outside a b :
  (length a <> length b -> vec_less a b = Err EAbort) /\ vec_less [] [] = Err EUB.
Proof.
  split; [|reflexivity]. intros H. unfold vec_less. now rewrite (proj2 (Nat.eqb_neq _ _) H).
Qed.

(** * tweak, prefix form *)
Lemma fold_right_zsum l : fold_right Z.add 0 l = zsum l.
Proof. induction l; simpl; auto. Qed.

Lemma tweak_closed_prefix v : nonneg v -> forall r i, 0 <= r ->
  removed_before v (tweak_closed v r) i = Z.min r (zsum (firstn i v)).
Proof.
  unfold removed_before. intros H. induction H as [|x v Hx Hv IH]; intros r i Hr.
  - destruct i; simpl; lia.
  - destruct i as [|i]; cbn [tweak_closed firstn fold_right zsum]; [lia|].
    specialize (IH (r - Z.min x r) i ltac:(lia)).
    assert (0 <= zsum (firstn i v)).
    { apply nonneg_zsum. unfold nonneg in *. apply Forall_forall. intros y Hy. rewrite Forall_forall in Hv.
      apply Hv. rewrite <- (firstn_skipn i v). apply in_or_app. auto. }
    lia.
Qed.

Lemma tweak_closed_length v r : length (tweak_closed v r) = length v.
Proof. revert r; induction v; intros; simpl; auto. Qed.

Lemma tweak_closed_add a b r : length a = length b -> nonneg a -> nonneg b -> 0 <= r ->
  (forall i, 0 < nth i a 0 -> 0 < nth i (tweak_closed b r) 0) ->
  tweak_closed (vadd a b) r = vadd a (tweak_closed b r).
Proof.
  intros Hl Ha. revert b r Hl. induction Ha as [|x a Hx Ha IH]; intros [|y b] r Hl Hb Hr Hs; simpl in Hl; try lia; auto.
  inversion Hb; subst. unfold vadd in *. cbn [map2 tweak_closed].
  pose proof (Hs 0%nat) as H0. cbn [tweak_closed nth] in H0.
  assert (Hs' : forall i, 0 < nth i a 0 -> 0 < nth i (tweak_closed b (r - Z.min y r)) 0).
  { intros i. exact (Hs (S i)). }
  destruct (Z.eq_dec x 0) as [->|Hne].
  - rewrite !Z.add_0_l. f_equal. apply IH; auto; lia.
  - assert (r < y) by lia. rewrite !Z.min_r in * by lia. f_equal; [lia|].
    apply IH; auto; lia.
Qed.

Lemma tweak_ok v r : nonneg v -> 0 <= r ->
  exists w, tweak v r = OK w /\ length w = length v /\ nonneg w /\
    zsum w = zsum v - Z.min r (zsum v) /\
    (forall i, nth i w 0 <= nth i v 0) /\
    (forall i, removed_before v w i = Z.min r (zsum (firstn i v))).
Proof.
  intros Hv Hr. exists (tweak_n v (Z.to_nat r)). unfold tweak.
  destruct (Z.ltb_spec r 0); [lia|]. split; [auto|]. split; [apply tweak_n_length|].
  split; [now apply tweak_n_nonneg|]. split.
  { rewrite tweak_n_sum by auto. pose proof (nonneg_zsum v Hv). lia. }
  split. { intros. now apply tweak_n_le. }
  intros i. rewrite tweak_n_closed by auto. rewrite Z2Nat.id by auto. now apply tweak_closed_prefix.
Qed.

Lemma tweak_add a b r w : length a = length b -> nonneg a -> nonneg b -> 0 <= r ->
  tweak b r = OK w -> (forall i, 0 < nth i a 0 -> 0 < nth i w 0) ->
  tweak (vadd a b) r = OK (vadd a w).
Proof.
  intros Hl Ha Hb Hr. unfold tweak. destruct (Z.ltb_spec r 0); [lia|].
  intros E. injection E as <-. intros Hs. f_equal.
  assert (Hab : nonneg (vadd a b)).
  { clear - Ha Hb. revert b Hb. induction Ha; intros b Hb; [constructor|].
    destruct b; [constructor|]. inversion Hb; subst. constructor; [lia|]. now apply IHHa. }
  rewrite !tweak_n_closed in * by auto. rewrite Z2Nat.id in * by auto.
  now apply tweak_closed_add.
Qed.

Lemma tweak_neg v r : r < 0 -> tweak v r = Err EFuel.
Proof. intros. unfold tweak. destruct (Z.ltb_spec r 0); [auto|lia]. Qed.

Lemma vec_diff_ok v i : (i < length v)%nat ->
  (0 < nth i v 0 -> exists w, vec_diff v i = OK w /\ length w = length v /\
      nth i w 0 = nth i v 0 - 1 /\ forall j, j <> i -> nth j w 0 = nth j v 0) /\
  (nth i v 0 <= 0 -> vec_diff v i = Err EAssert).
Proof.
  intros Hi. unfold vec_diff. destruct (Nat.ltb_spec i (length v)); [|lia]. split; intros H0.
  - destruct (Z.ltb_spec 0 (nth i v 0)); [|lia]. eexists. split; [reflexivity|].
    rewrite upd_length. repeat split; auto. { now apply nth_upd_eq. }
    intros j Hj. apply nth_upd_neq. auto.
  - destruct (Z.ltb_spec 0 (nth i v 0)); [lia|auto].
Qed.
