(** Lemmas on the matrix model. *)
From Coq Require Import ZArith List Lia Bool.
From Verif Require Import Base VecModel VecSpec VecProofs MatModel.
From Verif Require PolyProofs ToolsProofs.
Import ListNotations.
Open Scope Z_scope.

Definition shape (M : mat) (r c : nat) : Prop :=
  length M = r /\ Forall (fun row => length row = c) M.

Lemma bind_ok {A B} (x : res A) (f : A -> res B) b :
  bind x f = OK b <-> exists a, x = OK a /\ f a = OK b.
Proof.
  destruct x; simpl; split; intros H; eauto.
  - destruct H as (a' & E & H). injection E as ->. auto.
  - discriminate.
  - destruct H as (a' & E & H). discriminate.
Qed.

Lemma mapM_ok {A B} (f : A -> res B) l r :
  mapM f l = OK r <-> Forall2 (fun a b => f a = OK b) l r.
Proof.
  revert r; induction l as [|a l IH]; intros r; simpl.
  - split; intros H.
    + injection H as <-. constructor.
    + inversion H. reflexivity.
  - rewrite bind_ok. split.
    + intros (b & E & H). rewrite bind_ok in H. destruct H as (bs & E2 & H). injection H as <-.
      constructor; auto. now apply IH.
    + intros H. inversion H; subst. exists y. split; auto. rewrite bind_ok. exists l'. split; auto.
      now apply IH.
Qed.

Lemma mapM_total {A B} (f : A -> res B) (g : A -> B) l :
  (forall a, In a l -> f a = OK (g a)) -> mapM f l = OK (map g l).
Proof.
  intros H. induction l as [|a l IH]; simpl; auto.
  rewrite (H a) by now left. simpl. rewrite IH by (intros; apply H; now right). reflexivity.
Qed.

Lemma get_at_ok {A} (l : list A) i a : get_at l i = OK a <-> 0 <= i /\ nth_error l (Z.to_nat i) = Some a.
Proof.
  unfold get_at. destruct (Z.ltb_spec i 0).
  - split; [discriminate|lia].
  - destruct (nth_error l (Z.to_nat i)); split; intros E; try discriminate.
    + injection E as ->. auto.
    + destruct E as [_ E]. injection E as ->. auto.
    + destruct E as [_ E]. discriminate.
Qed.

(** * sums over index ranges *)
Lemma sumf_zero_ext {A} (f : A -> Z) l : (forall a, In a l -> f a = 0) -> sumf f l = 0.
Proof. apply sumf_zero. Qed.

Lemma sumf_seq_single (f : nat -> Z) a n i : (a <= i < a + n)%nat ->
  (forall k, (a <= k < a + n)%nat -> k <> i -> f k = 0) -> sumf f (seq a n) = f i.
Proof.
  revert a. induction n as [|n IH]; intros a Hi Hz; [lia|].
  cbn [seq]. rewrite sumf_cons. destruct (Nat.eq_dec a i) as [->|Hne].
  - rewrite sumf_zero; [lia|]. intros k Hk. apply in_seq in Hk. apply Hz; lia.
  - rewrite IH; [|lia|]. { rewrite (Hz a); lia. } intros; apply Hz; lia.
Qed.

Lemma sumf_seq_change (f g : nat -> Z) a n i : (a <= i < a + n)%nat ->
  (forall k, (a <= k < a + n)%nat -> k <> i -> f k = g k) ->
  sumf f (seq a n) = sumf g (seq a n) + (f i - g i).
Proof.
  intros Hi H. assert (E : sumf (fun k => f k - g k) (seq a n) = f i - g i).
  { rewrite (sumf_seq_single _ a n i); auto. intros; rewrite H; auto; lia. }
  assert (E2 : sumf f (seq a n) = sumf (fun k => g k + (f k - g k)) (seq a n)).
  { apply sumf_ext. intros; lia. }
  rewrite E2, sumf_plus, E. lia.
Qed.

Lemma sumf_nth {A} (f : A -> Z) l d : sumf f l = sumf (fun i => f (nth i l d)) (seq 0 (length l)).
Proof.
  induction l as [|a l IH]; [reflexivity|].
  cbn [length seq]. rewrite !sumf_cons. cbn [nth]. rewrite IH.
  rewrite ToolsProofs.sumf_seq_shift. reflexivity.
Qed.

Lemma cong_eq_sumf {A} q (f g : A -> Z) l : (forall a, In a l -> cong q (f a) (g a)) ->
  cong q (sumf f l) (sumf g l).
Proof. apply cong_sumf. Qed.

Lemma sumf_cong_single q (f : nat -> Z) n i : (i < n)%nat ->
  (forall k, (k < n)%nat -> k <> i -> cong q (f k) 0) -> cong q (sumf f (seq 0 n)) (f i).
Proof.
  intros Hi H.
  rewrite (cong_sumf q f (fun k => if Nat.eqb k i then f i else 0)).
  - rewrite (sumf_seq_single _ 0 n i); [rewrite Nat.eqb_refl; reflexivity|lia|].
    intros k _ Hk. apply Nat.eqb_neq in Hk. now rewrite Hk.
  - intros k Hk. apply in_seq in Hk. destruct (Nat.eqb_spec k i) as [->|Hne]; [reflexivity|].
    apply H; auto; lia.
Qed.

Lemma vdot_idx (a b : list Z) : length a = length b ->
  vdot a b = sumf (fun j => nth j a 0 * nth j b 0) (seq 0 (length a)).
Proof.
  intros H. rewrite (PolyProofs.vdot_seq a b (length a)) by auto. reflexivity.
Qed.

(** * shapes *)
Lemma shape_row M r c i : shape M r c -> (i < r)%nat -> length (nth i M []) = c.
Proof.
  intros [H1 H2] Hi. rewrite Forall_forall in H2. apply H2, nth_In. lia.
Qed.

Lemma shape_mzero r c : shape (mzero r c) r c.
Proof.
  split; [apply repeat_length|]. apply Forall_forall. intros x Hx. apply repeat_spec in Hx.
  subst. apply repeat_length.
Qed.

Lemma nth_repeat_any {A} (x d : A) n i : nth i (repeat x n) d = if Nat.ltb i n then x else d.
Proof.
  revert i; induction n; intros [|i]; simpl; auto. rewrite IHn. reflexivity.
Qed.

Lemma mget_mzero r c i j : mget (mzero r c) i j = 0.
Proof.
  unfold mget, mzero. rewrite nth_repeat_any. destruct (Nat.ltb i r).
  - rewrite nth_repeat_any. now destruct (Nat.ltb j c).
  - now destruct j.
Qed.

Lemma Forall_upd {A} (P : A -> Prop) l i x : Forall P l -> P x -> Forall P (upd l i x).
Proof.
  intros H. revert i. induction H; intros [|i] Hx; simpl; constructor; auto.
Qed.

Lemma shape_mset M r c i j x : shape M r c -> (i < r)%nat -> shape (mset M i j x) r c.
Proof.
  intros H Hi. pose proof (shape_row _ _ _ _ H Hi) as Hr. destruct H as [H1 H2].
  split; unfold mset; rewrite ?upd_length; auto.
  apply Forall_upd; auto. now rewrite upd_length.
Qed.

Lemma mget_mset M r c i j x i' j' : shape M r c -> (i < r)%nat -> (j < c)%nat ->
  mget (mset M i j x) i' j' = if Nat.eqb i i' && Nat.eqb j j' then x else mget M i' j'.
Proof.
  intros H Hi Hj. pose proof (shape_row _ _ _ _ H Hi) as Hr. destruct H as [H1 H2].
  unfold mget, mset. rewrite nth_upd. destruct (Nat.eqb_spec i i') as [->|Hne]; simpl; auto.
  destruct (Nat.ltb_spec i' (length M)); [|lia].
  rewrite nth_upd. rewrite Hr. destruct (Nat.eqb_spec j j') as [->|Hne]; auto.
  destruct (Nat.ltb_spec j' c); [auto|lia].
Qed.

(** * weighted sum of all entries *)
Definition wsum (M : mat) (r c : nat) (w : nat -> nat -> Z) : Z :=
  sumf (fun i => sumf (fun j => w i j * mget M i j) (seq 0 c)) (seq 0 r).

Lemma wsum_mset M r c w i j x : shape M r c -> (i < r)%nat -> (j < c)%nat ->
  wsum (mset M i j x) r c w = wsum M r c w + w i j * (x - mget M i j).
Proof.
  intros H Hi Hj. unfold wsum.
  rewrite (sumf_seq_change _ (fun i => sumf (fun j => w i j * mget M i j) (seq 0 c)) 0 r i); [|lia|].
  - f_equal. rewrite (sumf_seq_change (fun j0 => w i j0 * mget (mset M i j x) i j0)
      (fun j => w i j * mget M i j) 0 c j); [|lia|].
    + rewrite (mget_mset M r c) by auto. rewrite !Nat.eqb_refl. simpl. lia.
    + intros k _ Hk. rewrite (mget_mset M r c) by auto.
      destruct (Nat.eqb_spec j k); [congruence|]. now rewrite andb_false_r.
  - intros k _ Hk. apply sumf_ext. intros k' _. rewrite (mget_mset M r c) by auto.
    destruct (Nat.eqb_spec i k); [congruence|]. reflexivity.
Qed.

Definition ups_ok (r c : nat) (ups : list (nat * nat * Z)) : Prop :=
  forall i j x, In (i, j, x) ups -> (i < r)%nat /\ (j < c)%nat.

Lemma in_range_ok r c ups : in_range r c ups = true <-> ups_ok r c ups.
Proof.
  unfold in_range, ups_ok. rewrite forallb_forall. split.
  - intros H i j x Hin. specialize (H _ Hin). simpl in H. apply andb_true_iff in H.
    destruct H as [H1 H2]. apply Nat.ltb_lt in H1, H2. auto.
  - intros H [[i j] x] Hin. simpl. apply H in Hin. apply andb_true_iff. rewrite !Nat.ltb_lt. auto.
Qed.

Lemma ups_ok_cons r c u ups : ups_ok r c (u :: ups) -> (fst (fst u) < r)%nat /\ (snd (fst u) < c)%nat /\ ups_ok r c ups.
Proof.
  intros H. destruct u as [[i j] x]. destruct (H i j x) as [H1 H2]; [now left|]. repeat split; auto.
  - apply (H i0 j0 x0). now right.
  - apply (H i0 j0 x0). now right.
Qed.

Lemma madd_all_shape q ups M r c : shape M r c -> ups_ok r c ups -> shape (madd_all q ups M) r c.
Proof.
  revert M. induction ups as [|u ups IH]; intros M H Hu; simpl; auto.
  apply ups_ok_cons in Hu. destruct Hu as (H1 & H2 & H3). apply IH; auto. now apply shape_mset.
Qed.

Lemma madd_all_wsum q ups M r c w : shape M r c -> ups_ok r c ups ->
  cong q (wsum (madd_all q ups M) r c w)
         (wsum M r c w + sumf (fun u => w (fst (fst u)) (snd (fst u)) * snd u) ups).
Proof.
  revert M. induction ups as [|u ups IH]; intros M H Hu.
  - simpl. rewrite sumf_nil. apply cong_of_eq. lia.
  - apply ups_ok_cons in Hu. destruct Hu as (H1 & H2 & H3). cbn [madd_all fold_left].
    change (fold_left _ ups ?X) with (madd_all q ups X).
    rewrite IH by (auto; now apply shape_mset). rewrite sumf_cons. unfold madd_at at 1.
    rewrite (wsum_mset M r c) by auto.
    assert (E : cong q ((mget M (fst (fst u)) (snd (fst u)) + snd u) mod q - mget M (fst (fst u)) (snd (fst u))) (snd u)).
    { rewrite cong_mod. apply cong_of_eq. lia. }
    rewrite E. apply cong_of_eq. lia.
Qed.

(** entry form *)
Lemma wsum_entry M r c i j : (i < r)%nat -> (j < c)%nat ->
  wsum M r c (fun a b => if Nat.eqb a i && Nat.eqb b j then 1 else 0) = mget M i j.
Proof.
  intros Hi Hj. unfold wsum. rewrite (sumf_seq_single _ 0 r i); [|lia|].
  - rewrite (sumf_seq_single _ 0 c j); [|lia|].
    + rewrite !Nat.eqb_refl. cbn [andb]. lia.
    + intros k _ Hk. apply Nat.eqb_neq in Hk. rewrite Hk, andb_false_r. lia.
  - intros k _ Hk. apply sumf_zero. intros k' _. apply Nat.eqb_neq in Hk. rewrite Hk. cbn [andb]. lia.
Qed.

Lemma wsum_mzero r c w r' c' : wsum (mzero r c) r' c' w = 0.
Proof.
  unfold wsum. apply sumf_zero. intros i _. apply sumf_zero. intros j _. rewrite mget_mzero. lia.
Qed.

Lemma madd_all_entry q ups M r c i j : shape M r c -> ups_ok r c ups -> (i < r)%nat -> (j < c)%nat ->
  cong q (mget (madd_all q ups M) i j)
         (mget M i j + sumf (fun u => if Nat.eqb (fst (fst u)) i && Nat.eqb (snd (fst u)) j then snd u else 0) ups).
Proof.
  intros H Hu Hi Hj. rewrite <- (wsum_entry _ r c i j), <- (wsum_entry M r c i j) by auto.
  rewrite (madd_all_wsum q ups M r c) by auto. apply cong_add; [reflexivity|].
  apply cong_of_eq, sumf_ext. intros u _. destruct (_ && _); lia.
Qed.

(** assignments to distinct positions that hold zero *)
Lemma mset_all_wsum ups M r c w : shape M r c -> ups_ok r c ups ->
  NoDup (map fst ups) -> (forall i j x, In (i, j, x) ups -> mget M i j = 0) ->
  shape (mset_all ups M) r c /\
  wsum (mset_all ups M) r c w = wsum M r c w + sumf (fun u => w (fst (fst u)) (snd (fst u)) * snd u) ups.
Proof.
  revert M. induction ups as [|u ups IH]; intros M H Hu Hnd Hz.
  - simpl. rewrite sumf_nil. split; auto. lia.
  - apply ups_ok_cons in Hu. destruct Hu as (H1 & H2 & H3). cbn [mset_all fold_left].
    change (fold_left _ ups ?X) with (mset_all ups X).
    inversion Hnd as [|? ? Hni Hnd']; subst.
    destruct u as [[i j] x]. cbn [fst snd] in *.
    assert (Hsh : shape (mset M i j x) r c) by now apply shape_mset.
    destruct (IH (mset M i j x)) as [I1 I2]; auto.
    { intros i' j' x' Hin. rewrite (mget_mset M r c) by auto.
      destruct (Nat.eqb_spec i i'), (Nat.eqb_spec j j'); simpl; try (apply (Hz i' j' x'); now right).
      exfalso. apply Hni. subst. apply (in_map fst) in Hin. exact Hin. }
    split; auto. rewrite I2, (wsum_mset M r c), sumf_cons by auto. cbn [fst snd].
    rewrite (Hz i j x) by now left. lia.
Qed.

Lemma vadd_all_length q ups v : length (vadd_all q ups v) = length v.
Proof.
  unfold vadd_all. revert v. induction ups; intros v; simpl; auto. rewrite IHups. apply upd_length.
Qed.

Lemma vadd_all_wsum q ups v w : (forall i x, In (i, x) ups -> (i < length v)%nat) ->
  cong q (sumf (fun i => w i * nth i (vadd_all q ups v) 0) (seq 0 (length v)))
         (sumf (fun i => w i * nth i v 0) (seq 0 (length v)) + sumf (fun u => w (fst u) * snd u) ups).
Proof.
  unfold vadd_all. revert v. induction ups as [|[i x] ups IH]; intros v Hu; simpl fold_left.
  - rewrite sumf_nil. apply cong_of_eq. lia.
  - assert (Hi : (i < length v)%nat) by (apply (Hu i x); now left).
    cbn [fst snd].
    specialize (IH (upd v i ((nth i v 0 + x) mod q))). rewrite upd_length in IH. rewrite IH.
    2:{ intros i' x' Hin. apply (Hu i' x'). now right. }
    rewrite sumf_cons. cbn [fst snd].
    rewrite (sumf_seq_change (fun i0 => w i0 * nth i0 (upd v i ((nth i v 0 + x) mod q)) 0)
       (fun i => w i * nth i v 0) 0 (length v) i); [|lia|].
    + rewrite nth_upd_eq by auto.
      assert (E : cong q (w i * ((nth i v 0 + x) mod q) - w i * nth i v 0) (w i * x)).
      { rewrite cong_mod. apply cong_of_eq. lia. }
      rewrite E. apply cong_of_eq. lia.
    + intros k _ Hk. rewrite nth_upd_neq by auto. reflexivity.
Qed.

(** * matrix-vector operations *)
Lemma nth_map_lt {A B} (f : A -> B) l i d d' : (i < length l)%nat -> nth i (map f l) d = f (nth i l d').
Proof.
  intros H. rewrite (nth_indep _ d (f d')) by now rewrite map_length. apply map_nth.
Qed.

Lemma mat_vec_ok q M v r : shape M r (length v) ->
  exists w, mat_vec q M v = OK w /\ length w = r /\
    forall i, (i < r)%nat -> nth i w 0 = (sumf (fun j => mget M i j * nth j v 0) (seq 0 (length v))) mod q.
Proof.
  intros [H1 H2]. unfold mat_vec.
  assert (E : forallb (fun r => Nat.eqb (length r) (length v)) M = true).
  { apply forallb_forall. intros x Hx. apply Nat.eqb_eq. rewrite Forall_forall in H2. auto. }
  rewrite E. eexists. split; [reflexivity|]. rewrite map_length. split; auto.
  intros i Hi. rewrite (nth_map_lt _ _ _ _ []) by (unfold mat in *; lia).
  rewrite vdot_idx; [|eapply shape_row; [split; eauto|lia]].
  rewrite (shape_row M r (length v)) by (try split; auto). reflexivity.
Qed.

Lemma mat_vec_dims q M v w : mat_vec q M v = OK w -> shape M (length w) (length v).
Proof.
  unfold mat_vec. destruct (forallb _ M) eqn:E; [|discriminate]. intros H. injection H as <-.
  split; [now rewrite map_length|]. apply Forall_forall. intros x Hx. rewrite forallb_forall in E.
  apply Nat.eqb_eq. auto.
Qed.

Lemma lvec_add_ok q v w : length v = length w ->
  exists x, lvec_add q v w = OK x /\ length x = length v /\
    forall i, (i < length v)%nat -> nth i x 0 = (nth i v 0 + nth i w 0) mod q.
Proof.
  intros H. unfold lvec_add. rewrite H, Nat.eqb_refl. eexists. split; [reflexivity|].
  split; [now rewrite map2_length|]. intros i Hi.
  apply (nth_map2 (fun a b => (a + b) mod q)); auto.
Qed.

Lemma lvec_scal_length q c v : length (lvec_scal q c v) = length v.
Proof. apply map_length. Qed.


Lemma lvec_scal_nth q c v i : (i < length v)%nat -> nth i (lvec_scal q c v) 0 = (c * nth i v 0) mod q.
Proof. intros H. unfold lvec_scal. now rewrite (nth_map_lt _ _ _ _ 0). Qed.

Lemma lvec_red_length q v : length (lvec_red q v) = length v.
Proof. apply map_length. Qed.
Lemma lvec_red_nth q v i : (i < length v)%nat -> nth i (lvec_red q v) 0 = (nth i v 0) mod q.
Proof. intros H. unfold lvec_red. now rewrite (nth_map_lt _ _ _ _ 0). Qed.

Lemma mat_scal_shape q c A r k : shape A r k -> shape (mat_scal q c A) r k.
Proof.
  intros [H1 H2]. split; unfold mat_scal; [now rewrite map_length|].
  apply Forall_forall. intros x Hx. apply in_map_iff in Hx. destruct Hx as (y & <- & Hy).
  rewrite map_length. rewrite Forall_forall in H2. auto.
Qed.

Lemma mat_scal_get q c A r k i j : shape A r k -> (i < r)%nat -> (j < k)%nat ->
  mget (mat_scal q c A) i j = (c * mget A i j) mod q.
Proof.
  intros H Hi Hj. unfold mget, mat_scal.
  rewrite (nth_map_lt _ _ _ _ []) by (destruct H; lia).
  rewrite (nth_map_lt _ _ _ _ 0); auto. rewrite (shape_row A r k); auto.
Qed.

Lemma mat_add_ok q A B r k : shape A r k -> shape B r k ->
  exists C, mat_add q A B = OK C /\ shape C r k /\
    forall i j, (i < r)%nat -> (j < k)%nat -> mget C i j = (mget A i j + mget B i j) mod q.
Proof.
  intros [A1 A2] [B1 B2]. unfold mat_add. rewrite A1, B1, Nat.eqb_refl. simpl.
  assert (E : forallb (fun ab => Nat.eqb (length (fst ab)) (length (snd ab))) (combine A B) = true).
  { apply forallb_forall. intros [x y] Hx. simpl. apply Nat.eqb_eq. rewrite Forall_forall in A2, B2.
    rewrite (A2 x), (B2 y); auto; [eapply in_combine_r|eapply in_combine_l]; eauto. }
  rewrite E. eexists. split; [reflexivity|]. split.
  - split; [rewrite map2_length; congruence|]. clear E.
    revert B r B1 B2 A1. induction A2 as [|x A Hx A2 IH]; intros B r B1 B2 A1; simpl; [constructor|].
    destruct B as [|y B]; [constructor|]. inversion B2; subst. constructor.
    + rewrite map2_length; congruence.
    + destruct (length B) eqn:EB; simpl in *; eapply IH; eauto; lia.
  - intros i j Hi Hj. unfold mget.
    rewrite (nth_map2 (map2 (fun a b => (a + b) mod q)) A B i [] [] []) by (auto; congruence).
    assert (LA : length (nth i A []) = k). { rewrite Forall_forall in A2. apply A2, nth_In. lia. }
    assert (LB : length (nth i B []) = k). { rewrite Forall_forall in B2. apply B2, nth_In. lia. }
    apply (nth_map2 (fun a b => (a + b) mod q)); [congruence|]. now rewrite Zmod_0_l.
Qed.

Lemma transpose_shape r c M : shape (transpose r c M) c r.
Proof.
  split; unfold transpose; [rewrite map_length, seq_length; auto|].
  apply Forall_forall. intros x Hx. apply in_map_iff in Hx. destruct Hx as (y & <- & Hy).
  rewrite map_length, seq_length. auto.
Qed.

Lemma transpose_get r c M i j : (i < r)%nat -> (j < c)%nat -> mget (transpose r c M) j i = mget M i j.
Proof.
  intros. unfold transpose, mget at 1.
  rewrite (nth_map_lt _ _ _ _ 0%nat) by now rewrite seq_length.
  rewrite (nth_map_lt _ _ _ _ 0%nat) by now rewrite seq_length.
  rewrite !seq_nth by auto. reflexivity.
Qed.

Lemma mat_ext A B r c : shape A r c -> shape B r c ->
  (forall i j, (i < r)%nat -> (j < c)%nat -> mget A i j = mget B i j) -> A = B.
Proof.
  intros HA HB H. apply (nth_ext _ _ [] []); [destruct HA, HB; congruence|].
  intros i Hi. assert (Hi' : (i < r)%nat) by (destruct HA; lia).
  apply (nth_ext _ _ 0 0).
  - rewrite (shape_row A r c), (shape_row B r c); auto.
  - intros j Hj. rewrite (shape_row A r c) in Hj by auto. apply H; auto.
Qed.
