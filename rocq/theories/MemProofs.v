(** Proofs about the routines that write through pointers (C67). *)
From Coq Require Import ZArith List Bool Lia.
From Verif Require Import Base VecModel VecProofs MatModel MatProofs FdModel DRProofs MemModel MemSpec.
Import ListNotations.
Open Scope Z_scope.

Definition shapes (m m' : mem) : Prop := forall h, o_r (m' h) = o_r (m h) /\ o_c (m' h) = o_c (m h).
Lemma shapes_refl m : shapes m m.
Proof. intros h. auto. Qed.
Lemma shapes_trans m1 m2 m3 : shapes m1 m2 -> shapes m2 m3 -> shapes m1 m3.
Proof. intros A B h. destruct (A h), (B h). split; congruence. Qed.

Lemma put_eq m h o : put m h o h = o.
Proof. unfold put. now rewrite Nat.eqb_refl. Qed.
Lemma put_ne m h o h' : h' <> h -> put m h o h' = m h'.
Proof. unfold put. intros H. now destruct (Nat.eqb_spec h' h). Qed.

Lemma rd_ok m h i j : (i < o_r (m h))%nat -> (j < o_c (m h))%nat -> rd m h i j = OK (o_cell (m h) i j).
Proof. intros A B. unfold rd. apply Nat.ltb_lt in A, B. now rewrite A, B. Qed.
Lemma wr_ok m h i j x : (i < o_r (m h))%nat -> (j < o_c (m h))%nat -> exists m', wr m h i j x = OK m' /\ shapes m m' /\ only h m m' /\
  o_cell (m' h) i j = x /\ forall i' j', (i', j') <> (i, j) -> o_cell (m' h) i' j' = o_cell (m h) i' j'.
Proof.
  intros A B. unfold wr. apply Nat.ltb_lt in A, B. rewrite A, B. cbn. eexists. split; [reflexivity|]. repeat split.
  - unfold put. destruct (Nat.eqb_spec h0 h); subst; reflexivity.
  - unfold put. destruct (Nat.eqb_spec h0 h); subst; reflexivity.
  - intros h' N. now apply put_ne.
  - rewrite put_eq. cbn. now rewrite !Nat.eqb_refl.
  - intros i' j' N. rewrite put_eq. cbn. destruct (Nat.eqb_spec i' i), (Nat.eqb_spec j' j); cbn; auto. subst. now destruct N.
Qed.

(** a loop that writes the cells [l] of the object [r], each once; the value written
    may depend on everything that is not written and on the old content of the cell itself *)
Lemma writes r (F : mem -> nat * nat -> res Z) (g : nat * nat -> Z) l : forall m0, NoDup l ->
  (forall p, In p l -> (fst p < o_r (m0 r))%nat /\ (snd p < o_c (m0 r))%nat) ->
  (forall m p, In p l -> shapes m0 m -> only r m0 m ->
     (forall i j, (~ In (i, j) l \/ (i, j) = p) -> o_cell (m r) i j = o_cell (m0 r) i j) -> F m p = OK (g p)) ->
  exists m', foldM (fun m p => x <- F m p ;; wr m r (fst p) (snd p) x) l m0 = OK m' /\ shapes m0 m' /\ only r m0 m' /\
    (forall p, In p l -> o_cell (m' r) (fst p) (snd p) = g p) /\
    (forall i j, ~ In (i, j) l -> o_cell (m' r) i j = o_cell (m0 r) i j).
Proof.
  induction l as [|p l IH]; intros m0 ND B HF.
  - exists m0. cbn. split; [auto|]. split; [apply shapes_refl|]. split; [intros h _; auto|]. split; [contradiction|auto].
  - inversion ND as [|? ? Np ND']; subst. cbn [foldM].
    rewrite (HF m0 p (or_introl eq_refl) (shapes_refl m0) ltac:(intros h _; auto) ltac:(auto)). cbn [bind].
    destruct (B p (or_introl eq_refl)) as (B1 & B2). destruct (wr_ok m0 r (fst p) (snd p) (g p) B1 B2) as (m1 & E & S & O & C & R). rewrite E. cbn [bind].
    destruct (IH m1 ND') as (m' & E' & S' & O' & C' & R').
    + intros p' I. destruct (S r) as (S1 & S2). rewrite S1, S2. apply B. now right.
    + intros m p' I S1 O1 K. apply HF; [now right|eapply shapes_trans; eauto| |].
      * intros h N. rewrite (O1 h N). apply O. exact N.
      * intros i j Hij. rewrite K.
        -- apply R. destruct p as [pi pj]. cbn in *. intros X. injection X as -> ->. destruct Hij as [Hij|Hij]; [apply Hij; now left|]. subst p'. contradiction.
        -- destruct Hij as [Hij|Hij]; auto. left. intros X. apply Hij. now right.
    + exists m'. split; [exact E'|]. split; [eapply shapes_trans; eauto|]. split; [intros h N; rewrite (O' h N); now apply O|]. split.
      * intros p' [<-|I]; [|now apply C']. rewrite R'; [exact C|]. now destruct p.
      * intros i j N. rewrite R'; [|intros X; apply N; now right]. apply R. intros X. apply N. left. rewrite X. now destruct p.
Qed.

Lemma foldM_ext' {A S} (f g : S -> A -> res S) l : (forall s a, f s a = g s a) -> forall s, foldM f l s = foldM g l s.
Proof. intros H. induction l as [|a l IH]; intros s; cbn; auto. rewrite H. destruct (g s a); cbn; auto. Qed.
Lemma foldM_map' {A B S} (f : S -> B -> res S) (h : A -> B) l : forall s, foldM f (map h l) s = foldM (fun s a => f s (h a)) l s.
Proof. induction l as [|a l IH]; intros s; cbn; auto. destruct (f s (h a)); cbn; auto. Qed.

Lemma nth_map_seq {B} (g : nat -> B) d i x : (i < d)%nat -> nth i (map g (seq 0 d)) x = g i.
Proof. intros H. rewrite (nth_indep _ x (g 0%nat)) by (now rewrite map_length, seq_length). now rewrite map_nth, seq_nth. Qed.
Lemma nth_map_in {A B} (g : A -> B) l i x y : (i < length l)%nat -> nth i (map g l) y = g (nth i l x).
Proof. intros H. rewrite (nth_indep _ y (g x)) by (now rewrite map_length). now rewrite map_nth. Qed.

(** sums accumulated with a reduction in every step *)
Lemma acc_mod q l (f : nat -> Z) (F : nat -> res Z) : (forall k, In k l -> F k = OK (f k)) -> forall a,
  foldM (fun acc k => y <- F k ;; OK ((acc + y mod q) mod q)) l (a mod q) = OK ((a + sumf f l) mod q).
Proof.
  induction l as [|k l IH]; intros HF a; cbn [foldM].
  - now rewrite sumf_nil, Z.add_0_r.
  - rewrite (HF k (or_introl eq_refl)). cbn [bind]. rewrite sumf_cons, Z.add_assoc, <- (IH ltac:(intros; apply HF; now right)).
    f_equal. destruct (Z.eq_dec q 0) as [->|N]; [now rewrite !Zmod_0_r|]. now rewrite <- Z.add_mod.
Qed.
Lemma acc_id l (f : nat -> Z) (F : nat -> res Z) : (forall k, In k l -> F k = OK (f k)) -> forall a,
  foldM (fun acc k => y <- F k ;; OK (acc + y)) l a = OK (a + sumf f l).
Proof.
  induction l as [|k l IH]; intros HF a; cbn [foldM].
  - now rewrite sumf_nil, Z.add_0_r.
  - rewrite (HF k (or_introl eq_refl)). cbn [bind]. now rewrite sumf_cons, Z.add_assoc, <- (IH ltac:(intros; apply HF; now right)).
Qed.

(** a product of two rows in memory *)
Definition dot_cells (f g : nat -> Z) (len : nat) : Z := sumf (fun k => f k * g k) (seq 0 len).
Lemma dot_list (f g : nat -> Z) u v : length u = length v -> (forall k, (k < length u)%nat -> f k = nth k u 0) -> (forall k, (k < length u)%nat -> g k = nth k v 0) ->
  dot_cells f g (length u) = vdot u v.
Proof.
  intros L Hf Hg. rewrite (vdot_idx u v L). unfold dot_cells. apply sumf_ext. intros k I. apply in_seq in I. rewrite Hf, Hg by lia. reflexivity.
Qed.

Lemma nmod_dot_ok q m a i v len : (i < o_r (m a))%nat -> (len <= o_c (m a))%nat -> (len <= o_r (m v))%nat -> (1 <= o_c (m v))%nat ->
  nmod_dot q m a i v len = OK (dot_cells (o_cell (m a) i) (fun k => o_cell (m v) k 0%nat) len mod q).
Proof.
  intros A B C D. unfold nmod_dot. rewrite (foldM_ext' _ (fun acc k => y <- (x <- rd m a i k ;; y <- rd m v k 0%nat ;; OK (x * y)) ;; OK ((acc + y mod q) mod q))).
  2:{ intros s k. destruct (rd m a i k); cbn; auto. destruct (rd m v k 0%nat); reflexivity. }
  rewrite <- (Zmod_0_l q) at 1. erewrite acc_mod; [now rewrite Z.add_0_l; reflexivity|].
  intros k I. apply in_seq in I. rewrite !rd_ok by lia. reflexivity.
Qed.

Lemma in_col i j d : In (i, j) (map (fun i => (i, 0%nat)) (seq 0 d)) <-> (i < d)%nat /\ j = 0%nat.
Proof.
  rewrite in_map_iff. split.
  - intros (x & E & I). apply in_seq in I. injection E as <- <-. lia.
  - intros (H & ->). exists i. split; auto. apply in_seq. lia.
Qed.
Lemma nodup_col d : NoDup (map (fun i => (i, 0%nat)) (seq 0 d)).
Proof. apply FinFun.Injective_map_NoDup; [|apply seq_NoDup]. intros x y E. now injection E. Qed.

(** a loop that fills the vector [r] *)
Lemma fills r (F : mem -> nat -> res Z) (g : nat -> Z) d m0 : room m0 r d 1 ->
  (forall m i, (i < d)%nat -> shapes m0 m -> only r m0 m -> o_cell (m r) i 0%nat = o_cell (m0 r) i 0%nat -> F m i = OK (g i)) ->
  exists m', foldM (fun m i => x <- F m i ;; wr m r i 0 x) (seq 0 d) m0 = OK m' /\ shapes m0 m' /\ only r m0 m' /\ holdsv m' r (map g (seq 0 d)).
Proof.
  intros (R1 & R2) HF. destruct (writes r (fun m p => F m (fst p)) (fun p => g (fst p)) (map (fun i => (i, 0%nat)) (seq 0 d)) m0 (nodup_col d)) as (m' & E & S & O & C & _).
  - intros [i j] I. apply in_col in I. cbn. lia.
  - intros m [i j] I Sh On K. apply in_col in I. destruct I as (I & ->). apply HF; auto.
  - rewrite foldM_map' in E. cbn [fst snd] in E. exists m'. split; [exact E|]. split; [exact S|]. split; [exact O|].
    unfold holdsv. rewrite map_length, seq_length. destruct (S r) as (S1 & S2). split; [lia|]. split; [lia|].
    intros i I. specialize (C (i, 0%nat) (proj2 (in_col i 0 d) (conj I eq_refl))). cbn in C. rewrite C.
    now rewrite nth_map_seq.
Qed.

Lemma holds_only m m' h h' r c M : only h m m' -> h' <> h -> holds m h' r c M -> holds m' h' r c M.
Proof. intros O N H. unfold holds. rewrite (O h' N). exact H. Qed.
Lemma holdsv_only m m' h h' v : only h m m' -> h' <> h -> holdsv m h' v -> holdsv m' h' v.
Proof. intros O N H. unfold holdsv. rewrite (O h' N). exact H. Qed.
Lemma holdsv_room m h v : holdsv m h v -> room m h (length v) 1.
Proof. intros (A & B & _). split; auto. Qed.
Lemma room_only m m' h h' r c : only h m m' -> h' <> h -> room m h' r c -> room m' h' r c.
Proof. intros O N H. unfold room. rewrite (O h' N). exact H. Qed.
Lemma room_shapes m m' h r c : shapes m m' -> room m h r c -> room m' h r c.
Proof. intros S (A & B). destruct (S h). split; congruence. Qed.
Lemma only_trans h m1 m2 m3 : only h m1 m2 -> only h m2 m3 -> only h m1 m3.
Proof. intros A B h' N. now rewrite (B h' N), (A h' N). Qed.

Lemma vec_ext (u v : list Z) : length u = length v -> (forall i, (i < length u)%nat -> nth i u 0 = nth i v 0) -> u = v.
Proof. intros L H. apply (nth_ext u v 0 0); auto. Qed.
(** the vector at an address is determined *)
Lemma holdsv_det m h u v : holdsv m h u -> holdsv m h v -> u = v.
Proof.
  intros (A & _ & B) (A' & _ & B'). apply vec_ext; [congruence|]. intros i I. rewrite <- B by auto. apply B'. congruence.
Qed.
Lemma holds_det m h r c M M' : holds m h r c M -> holds m h r c M' -> M = M'.
Proof.
  intros (_ & _ & L & R & B) (_ & _ & L' & R' & B'). apply (nth_ext M M' [] []); [congruence|]. intros i I.
  assert (Li : length (nth i M []) = c) by (apply R, nth_In; lia). assert (Li' : length (nth i M' []) = c) by (apply R', nth_In; lia).
  apply vec_ext; [congruence|]. intros j J. rewrite <- B by lia. apply B'; lia.
Qed.

(** mul(result, A, v) *)
Lemma nmod_mul_ok q m result a v r c A V : result <> a -> result <> v -> holds m a r c A -> holdsv m v V -> length V = c -> room m result r 1 ->
  exists m' W, nmod_mul q m result a v = OK m' /\ shapes m m' /\ only result m m' /\ mat_vec q A V = OK W /\ length W = r /\ holdsv m' result W.
Proof.
  intros Na Nv (H1 & H2 & H3 & H4 & H5) (V1 & V2 & V3) L R. unfold nmod_mul. rewrite H1.
  destruct (fills result (fun m i => nmod_dot q m a i v (o_c (m a))) (fun i => vdot (nth i A []) V mod q) r m R) as (m' & E & S & O & W).
  - intros m1 i I S O _. destruct (S a) as (S1 & S2), (S v) as (S3 & S4). rewrite nmod_dot_ok by lia. do 2 f_equal.
    rewrite (O a), (O v) by auto. rewrite H2. assert (Li : length (nth i A []) = c) by (apply H4, nth_In; lia). rewrite <- Li.
    apply dot_list; [lia| |]; intros k K; [apply H5; lia|apply V3; lia].
  - exists m', (map (fun i => vdot (nth i A []) V mod q) (seq 0 r)). split; [exact E|]. split; [exact S|]. split; [exact O|].
    split; [|split; [now rewrite map_length, seq_length|exact W]]. unfold mat_vec. replace (forallb _ A) with true.
    + f_equal. rewrite <- H3. clear. rewrite <- (map_map (fun i => nth i A []) (fun r => vdot r V mod q)). f_equal.
      apply (nth_ext _ _ [] []); [now rewrite map_length, seq_length|]. intros i I. now rewrite nth_map_seq.
    + symmetry. apply forallb_forall. intros row I. apply Nat.eqb_eq. rewrite (H4 row I). auto.
Qed.

(** res += c vec *)
Lemma nmod_addmul_ok q m result v len c X Y : result <> v -> holdsv m result X -> holdsv m v Y -> length X = len -> length Y = len ->
  exists m' W, nmod_addmul q m result v len c = OK m' /\ shapes m m' /\ only result m m' /\ lvec_add q X (lvec_scal q c Y) = OK W /\ length W = len /\ holdsv m' result W.
Proof.
  intros N HX HY LX LY. pose proof (holdsv_room _ _ _ HX) as R. rewrite LX in R. destruct HX as (X1 & X2 & X3), HY as (Y1 & Y2 & Y3).
  destruct (fills result (fun m i => x <- rd m result i 0 ;; y <- rd m v i 0 ;; OK ((x + (c * y) mod q) mod q)) (fun i => (nth i X 0 + (c * nth i Y 0) mod q) mod q) len m R) as (m' & E & S & O & W).
  - intros m1 i I S O K. destruct (S result) as (S1 & S2), (S v) as (S3 & S4). rewrite !rd_ok by lia. cbn [bind]. rewrite K, (O v) by auto. rewrite X3, Y3 by lia. reflexivity.
  - eexists m', _. split; [|split; [exact S|split; [exact O|split; [|split; [|exact W]]]]].
    + rewrite <- E. unfold nmod_addmul. apply foldM_ext'. intros s i. destruct (rd s result i 0); cbn; auto. destruct (rd s v i 0); reflexivity.
    + unfold lvec_add, lvec_scal. rewrite map_length, LX, LY, Nat.eqb_refl. f_equal. apply vec_ext.
      * rewrite map2_length; rewrite ?map_length, ?seq_length; lia.
      * intros i I. rewrite map2_length in I by (rewrite map_length; lia). rewrite (nth_map2 _ X _ i 0 0 0) by (rewrite ?map_length; first [lia|apply Zmod_0_l]).
        rewrite (nth_map_in _ Y i 0), nth_map_seq by lia. reflexivity.
    + now rewrite map_length, seq_length.
Qed.

(** * the products of NTL matrices *)
Lemma mk_length r c g : length (mk r c g) = r.
Proof. unfold mk. now rewrite map_length, seq_length. Qed.
Lemma mk_row r c g row : In row (mk r c g) -> length row = c.
Proof. unfold mk. intros I. apply in_map_iff in I. destruct I as (i & <- & _). now rewrite map_length, seq_length. Qed.
Lemma mk_nth r c g i j : (i < r)%nat -> (j < c)%nat -> nth j (nth i (mk r c g) []) 0 = g i j.
Proof. intros Hi Hj. unfold mk. now rewrite nth_map_seq, nth_map_seq. Qed.
Lemma holds_mk m h r c g : o_r (m h) = r -> o_c (m h) = c -> (forall i j, (i < r)%nat -> (j < c)%nat -> o_cell (m h) i j = g i j) -> holds m h r c (mk r c g).
Proof.
  intros A B H. split; [auto|]. split; [auto|]. split; [apply mk_length|]. split; [apply mk_row|]. intros i j Hi Hj. rewrite mk_nth by auto. now apply H.
Qed.

Lemma list_prod_nodup {X Y} (l : list X) (l' : list Y) : NoDup l -> NoDup l' -> NoDup (list_prod l l').
Proof.
  intros H H'. induction H as [|x l N H IH]; cbn; [constructor|]. apply DRProofs.NoDup_app_intro; auto.
  - apply FinFun.Injective_map_NoDup; auto. intros a b E. now injection E.
  - intros (a & b) I J. apply in_map_iff in I. destruct I as (y & E & _). injection E as <- <-. apply in_prod_iff in J. tauto.
Qed.

(** a loop that fills the matrix [res] after SetDims with values that do not depend on it *)
Lemma fill_mat tgt r c (F : mem -> nat * nat -> res Z) (g : nat -> nat -> Z) m :
  (forall m1 i j, (i < r)%nat -> (j < c)%nat -> only tgt m m1 -> F m1 (i, j) = OK (g i j)) ->
  exists m', foldM (fun m p => x <- F m p ;; wr m tgt (fst p) (snd p) x) (list_prod (seq 0 r) (seq 0 c)) (set_dims m tgt r c) = OK m' /\ only tgt m m' /\ holds m' tgt r c (mk r c g).
Proof.
  intros HF. assert (O0 : only tgt m (set_dims m tgt r c)) by (intros h N; unfold set_dims; now apply put_ne).
  assert (D0 : o_r (set_dims m tgt r c tgt) = r /\ o_c (set_dims m tgt r c tgt) = c) by (unfold set_dims; now rewrite put_eq).
  destruct (writes tgt F (fun p => g (fst p) (snd p)) (list_prod (seq 0 r) (seq 0 c)) (set_dims m tgt r c)) as (m' & E & S & O & V & _).
  - apply list_prod_nodup; apply seq_NoDup.
  - intros (i & j) I. apply in_prod_iff in I. rewrite !in_seq in I. cbn. lia.
  - intros m1 (i & j) I S O K. apply in_prod_iff in I. rewrite !in_seq in I. cbn. apply HF; [lia|lia|]. intros h N. now rewrite (O h N), (O0 h N).
  - exists m'. split; [exact E|]. split; [intros h N; now rewrite (O h N), (O0 h N)|]. destruct (S tgt) as (S1 & S2). apply holds_mk; [lia|lia|].
    intros i j Hi Hj. apply (V (i, j)). apply in_prod_iff. rewrite !in_seq. lia.
Qed.

Lemma prod_acc m a b rA rB k A B i j : holds m a rA k A -> holds m b rB k B -> (i < rA)%nat -> (j < rB)%nat ->
  forall l, In l (seq 0 k) -> (x <- rd m a i l ;; y <- rd m b j l ;; OK (x * y)) = OK (nth l (nth i A []) 0 * nth l (nth j B []) 0).
Proof.
  intros (A1 & A2 & A3 & A4 & A5) (B1 & B2 & B3 & B4 & B5) Hi Hj l I. apply in_seq in I. rewrite !rd_ok by lia. cbn. now rewrite A5, B5 by lia.
Qed.
Lemma acc_q q m a b rA rB k A B i j : holds m a rA k A -> holds m b rB k B -> (i < rA)%nat -> (j < rB)%nat ->
  foldM (fun acc l => x <- rd m a i l ;; y <- rd m b j l ;; OK ((acc + (x * y) mod q) mod q)) (seq 0 k) 0 = OK (prod_entry k A B i j mod q).
Proof.
  intros HA HB Hi Hj. rewrite (foldM_ext' _ (fun acc l => y <- (x <- rd m a i l ;; y <- rd m b j l ;; OK (x * y)) ;; OK ((acc + y mod q) mod q))).
  2:{ intros s l. destruct (rd m a i l); cbn; auto. destruct (rd m b j l); reflexivity. }
  rewrite <- (Zmod_0_l q) at 1. rewrite (acc_mod q _ _ _ (prod_acc m a b rA rB k A B i j HA HB Hi Hj)). now rewrite Z.add_0_l.
Qed.
Lemma acc_z m a b rA rB k A B i j : holds m a rA k A -> holds m b rB k B -> (i < rA)%nat -> (j < rB)%nat ->
  foldM (fun acc l => x <- rd m a i l ;; y <- rd m b j l ;; OK (acc + x * y)) (seq 0 k) 0 = OK (prod_entry k A B i j).
Proof.
  intros HA HB Hi Hj. rewrite (foldM_ext' _ (fun acc l => y <- (x <- rd m a i l ;; y <- rd m b j l ;; OK (x * y)) ;; OK (acc + y))).
  2:{ intros s l. destruct (rd m a i l); cbn; auto. destruct (rd m b j l); reflexivity. }
  now rewrite (acc_id _ _ _ (prod_acc m a b rA rB k A B i j HA HB Hi Hj)), Z.add_0_l.
Qed.

Section Products.
  Variables (q : Z) (m : mem) (result a b rA rB k : nat) (A B : list (list Z)).
  Hypothesis Na : result <> a.
  Hypothesis Nb : result <> b.
  Hypothesis HA : holds m a rA k A.
  Hypothesis HB : holds m b rB k B.

  Let keepA m1 : only result m m1 -> holds m1 a rA k A.
  Proof. intros O. apply (holds_only m m1 result); auto. Qed.
  Let keepB m1 : only result m m1 -> holds m1 b rB k B.
  Proof. intros O. apply (holds_only m m1 result); auto. Qed.

  Lemma mul_transpose_ok : exists m', mul_transpose q m result a b = OK m' /\ only result m m' /\ holds m' result rA rB (mk rA rB (fun i j => prod_entry k A B i j mod q)).
  Proof.
    unfold mul_transpose. pose proof HA as (A1 & A2 & _). pose proof HB as (B1 & B2 & _). rewrite A1, A2, B1, B2, Nat.eqb_refl. cbn [check bind].
    apply fill_mat. intros m1 i j Hi Hj O. cbn [fst snd]. now apply (acc_q q m1 a b rA rB k A B i j (keepA m1 O) (keepB m1 O)).
  Qed.
  Lemma mul_transpose_ZZ_p_ok : exists m', mul_transpose_ZZ_p q m result a b = OK m' /\ only result m m' /\ holds m' result rA rB (mk rA rB (fun i j => prod_entry k A B i j mod q)).
  Proof.
    unfold mul_transpose_ZZ_p. pose proof HA as (A1 & A2 & _). pose proof HB as (B1 & B2 & _). rewrite A1, A2, B1, B2, Nat.eqb_refl. cbn [check bind].
    destruct (fill_mat result rA rB (fun m ij => acc <- foldM (fun acc k => x <- rd m a (fst ij) k ;; y <- rd m b (snd ij) k ;; OK (acc + x * y)) (seq 0 k) 0 ;; OK (acc mod q)) (fun i j => prod_entry k A B i j mod q) m) as (m' & E & R).
    - intros m1 i j Hi Hj O. cbn [fst snd]. now rewrite (acc_z m1 a b rA rB k A B i j (keepA m1 O) (keepB m1 O)).
    - exists m'. split; auto. rewrite <- E. apply foldM_ext'. intros s p. destruct (foldM _ (seq 0 k) 0); reflexivity.
  Qed.
  Lemma transpose_mul_transpose_ok : exists m', transpose_mul_transpose q m result a b = OK m' /\ only result m m' /\ holds m' result rB rA (mk rB rA (fun j i => prod_entry k A B i j mod q)).
  Proof.
    unfold transpose_mul_transpose. pose proof HA as (A1 & A2 & _). pose proof HB as (B1 & B2 & _). rewrite A1, A2, B1, B2, Nat.eqb_refl. cbn [check bind].
    apply fill_mat. intros m1 j i Hj Hi O. cbn [fst snd]. now apply (acc_q q m1 a b rA rB k A B i j (keepA m1 O) (keepB m1 O)).
  Qed.
  Lemma transpose_mul_transpose_ZZ_p_ok : exists m', transpose_mul_transpose_ZZ_p q m result a b = OK m' /\ only result m m' /\ holds m' result rB rA (mk rB rA (fun j i => prod_entry k A B i j mod q)).
  Proof.
    unfold transpose_mul_transpose_ZZ_p. pose proof HA as (A1 & A2 & _). pose proof HB as (B1 & B2 & _). rewrite A1, A2, B1, B2, Nat.eqb_refl. cbn [check bind].
    destruct (fill_mat result rB rA (fun m ji => acc <- foldM (fun acc k => x <- rd m a (snd ji) k ;; y <- rd m b (fst ji) k ;; OK (acc + x * y)) (seq 0 k) 0 ;; OK (acc mod q)) (fun j i => prod_entry k A B i j mod q) m) as (m' & E & R).
    - intros m1 j i Hj Hi O. cbn [fst snd]. now rewrite (acc_z m1 a b rA rB k A B i j (keepA m1 O) (keepB m1 O)).
    - exists m'. split; auto. rewrite <- E. apply foldM_ext'. intros s p. destruct (foldM _ (seq 0 k) 0); reflexivity.
  Qed.
End Products.
