(** The loops with two exchanged buffers compute what the functional models say (C67). *)
From Coq Require Import ZArith List Bool Lia.
From Verif Require Import Base VecModel VecProofs MatModel MatProofs FdModel DRProofs NDModel MemModel MemSpec MemProofs.
Import ListNotations.
Open Scope Z_scope.

Section Word.
  Variables (q : Z) (n dp : nat) (P : nat -> nat) (Ps : list mat) (gtmp : nat).
  Hypothesis Hq : 1 <= q.
  Hypothesis Hdp : (1 <= dp)%nat.

  Definition red (x : Z) : Prop := 0 <= x < q.
  Lemma map_red {A} (f : A -> Z) l : Forall red (map (fun a => f a mod q) l).
  Proof. apply Forall_forall. intros x I. apply in_map_iff in I. destruct I as (a & <- & _). apply Z.mod_pos_bound. lia. Qed.
  Lemma mat_vec_red A V W : mat_vec q A V = OK W -> Forall red W.
  Proof. unfold mat_vec. destruct (forallb _ A); intros E; [|discriminate]. injection E as <-. apply map_red. Qed.
  Lemma lvec_add_red u v W : lvec_add q u v = OK W -> Forall red W.
  Proof.
    unfold lvec_add. destruct (Nat.eqb _ _); intros E; [|discriminate]. injection E as <-. revert v. induction u as [|x u IH]; intros [|y v]; cbn; constructor; auto.
    apply Z.mod_pos_bound. lia.
  Qed.

  (** the state between two passes *)
  Definition word_inv (st : mem * (nat * nat)) (G : list Z) : Prop :=
    let m := fst st in let gin := fst (snd st) in let gout := snd (snd st) in
    gin <> gout /\ gin <> gtmp /\ gout <> gtmp /\
    (forall i, (i <= S n)%nat -> P i <> gin /\ P i <> gout /\ P i <> gtmp /\ holds m (P i) dp dp (nth i Ps [])) /\
    holdsv m gin G /\ length G = dp /\ room m gout dp 1 /\ room m gtmp dp 1.

  Lemma word_inner gin gout x G l : gin <> gout -> gin <> gtmp -> gout <> gtmp -> length G = dp ->
    (forall i, In i l -> (i <= S n)%nat) -> forall m xp O,
    (forall i, (i <= S n)%nat -> P i <> gin /\ P i <> gout /\ P i <> gtmp /\ holds m (P i) dp dp (nth i Ps [])) ->
    holdsv m gin G -> holdsv m gout O -> length O = dp -> Forall red O -> room m gtmp dp 1 ->
    exists m' xp' O',
      foldM (fun (xm : Z * mem) i => let xp := (fst xm * x) mod q in
          m <- nmod_mul q (snd xm) gtmp (P i) gin ;; m <- nmod_addmul q m gout gtmp dp xp ;; OK (xp, m)) l (xp, m) = OK (xp', m') /\
      foldM (fun (st : Z * list Z) i => let xp := (fst st * x) mod q in
          t <- mat_vec q (nth i Ps []) G ;; o <- lvec_add q (snd st) (lvec_scal q xp t) ;; OK (xp, o)) l (xp, O) = OK (xp', O') /\
      (forall i, (i <= S n)%nat -> holds m' (P i) dp dp (nth i Ps [])) /\ holdsv m' gin G /\ holdsv m' gout O' /\ length O' = dp /\ Forall red O' /\ room m' gtmp dp 1.
  Proof.
    intros N1 N2 N3 LG. induction l as [|i l IH]; intros Hl m xp O HP HG HO LO RO R; cbn [foldM fst snd].
    - exists m, xp, O. split; [auto|]. split; [auto|]. split; [intros k Hk; now apply HP|]. auto.
    - destruct (HP i (Hl i (or_introl eq_refl))) as (A1 & A2 & A3 & A4).
      destruct (nmod_mul_ok q m gtmp (P i) gin dp dp _ G ltac:(auto) ltac:(auto) A4 HG LG R) as (m1 & W & E1 & S1 & O1 & E2 & LW & HW).
      rewrite E1, E2. cbn [bind].
      destruct (nmod_addmul_ok q m1 gout gtmp dp ((xp * x) mod q) O W N3 ltac:(eapply holdsv_only; eauto) HW LO LW) as (m2 & V & E3 & S2 & O2 & E4 & LV & HV).
      rewrite E3, E4. cbn [bind]. apply IH; auto.
      + intros j Hj. apply Hl. now right.
      + intros j Hj. destruct (HP j Hj) as (B1 & B2 & B3 & B4). split; [auto|]. split; [auto|]. split; [auto|].
        apply (holds_only m1 m2 gout); auto. apply (holds_only m m1 gtmp); auto.
      + apply (holdsv_only m1 m2 gout); auto. apply (holdsv_only m m1 gtmp); auto.
      + eapply lvec_add_red; eauto.
      + apply (room_shapes m1 m2); auto. apply (room_shapes m m1); auto.
  Qed.

  Lemma word_step_ok st G x : word_inv st G -> x < q -> exists st' W, word_step q n dp P st gtmp x = OK st' /\ nd_poly_step q q n Ps G x = OK W /\ word_inv st' W.
  Proof.
    destruct st as (m & gin & gout). unfold word_inv. cbn [fst snd]. intros (N1 & N2 & N3 & HP & HG & LG & R1 & R2) Hx.
    unfold word_step, nd_poly_step. cbn [fst snd]. rewrite (proj2 (Z.ltb_lt x q) Hx). cbn [bind check].
    destruct (HP 0%nat ltac:(lia)) as (A1 & A2 & A3 & A4).
    destruct (nmod_mul_ok q m gout (P 0%nat) gin dp dp _ G ltac:(auto) ltac:(auto) A4 HG LG R1) as (m1 & W0 & E1 & S1 & O1 & E2 & LW & HW).
    rewrite E1, E2. cbn [bind].
    destruct (word_inner gin gout x G (seq 1 n) N1 N2 N3 LG ltac:(intros i I; apply in_seq in I; lia) m1 1 W0) as (m2 & xp & V & E3 & E4 & HP2 & HG2 & HV & LV & RV & R3); auto.
    { intros i Hi. destruct (HP i Hi) as (B1 & B2 & B3 & B4). split; [auto|]. split; [auto|]. split; [auto|]. apply (holds_only m m1 gout); auto. }
    { eapply holdsv_only; eauto. }
    { eapply mat_vec_red; eauto. }
    { eapply room_shapes; eauto. }
    cbv zeta in E3, E4 |- *. rewrite E3, E4. cbn [bind fst snd].
    pose proof (HP2 (S n) ltac:(lia)) as (L1 & L2 & L3 & L4 & L5). destruct HG2 as (G1 & G2 & G3). destruct HV as (V1 & V2 & V3).
    rewrite nmod_dot_ok by lia. cbn [bind]. rewrite rd_ok by lia. cbn [bind].
    assert (Erow : get_at (nth (S n) Ps []) 0 = OK (nth 0 (nth (S n) Ps []) [])).
    { unfold get_at. cbn. destruct (nth (S n) Ps []) eqn:X; cbn in *; [lia|reflexivity]. }
    rewrite Erow. cbn [bind]. rewrite (proj2 (Nat.ltb_lt 0 (length V)) ltac:(lia)). cbn [check bind].
    set (row := nth 0 (nth (S n) Ps []) []) in *. assert (Lrow : length row = dp) by (apply L4, nth_In; lia).
    assert (Ed : dot_cells (o_cell (m2 (P (S n))) 0) (fun k => o_cell (m2 gin) k 0%nat) dp = vdot row G).
    { rewrite <- Lrow. apply dot_list; [lia| |]; intros k K; [apply L5; lia|apply G3; lia]. }
    rewrite Ed, V3 by lia. set (d := vdot row G).
    destruct (wr_ok m2 gout 0%nat 0%nat ((nth 0 V 0 + (d mod q * ((xp * x) mod q)) mod q) mod q) ltac:(lia) ltac:(lia)) as (m3 & E5 & S5 & O5 & C5 & K5).
    rewrite E5. cbn [bind]. eexists (m3, (gout, gin)), _. split; [reflexivity|]. split; [reflexivity|]. unfold word_inv. cbn [fst snd].
    assert (Lu : length (upd V 0 ((nth 0 V 0 + (xp * x) mod q * (d mod q)) mod q)) = dp) by (rewrite upd_length; lia).
    split; [auto|]. split; [auto|]. split; [auto|]. split; [|split; [|split; [|split]]].
    - intros i Hi. destruct (HP i Hi) as (B1 & B2 & B3 & B4). split; [auto|]. split; [auto|]. split; [auto|]. apply (holds_only m2 m3 gout); auto.
    - destruct (S5 gout) as (T1 & T2). unfold holdsv, lvec_red. rewrite map_length, Lu. split; [lia|]. split; [lia|]. intros i Hi.
      rewrite (nth_map_in _ _ i 0) by lia. destruct i as [|i].
      + rewrite C5. destruct V as [|v0 V]; [cbn in LV; lia|]. cbn [upd nth]. rewrite Z.mod_mod by lia.
        rewrite (Z.mul_comm (d mod q)). rewrite Zplus_mod_idemp_r. reflexivity.
      + rewrite K5 by congruence. rewrite V3 by lia. rewrite nth_upd_neq by lia. symmetry. apply Z.mod_small.
        rewrite Forall_forall in RV. apply RV, nth_In. lia.
    - unfold lvec_red. now rewrite map_length.
    - eapply room_only; [exact O5|auto|]. split; [congruence|auto].
    - eapply room_only; [exact O5|auto|exact R3].
  Qed.
End Word.

Lemma word_loop_ok q n dp P Ps gtmp l : 1 <= q -> (1 <= dp)%nat -> forall st G, word_inv n dp P Ps gtmp st G ->
  match foldM (fun Gin x => _ <- check (x <? q) EUB ;; nd_poly_step q q n Ps Gin x) l G with
  | OK W => exists st', foldM (fun st x => word_step q n dp P st gtmp x) l st = OK st' /\ word_inv n dp P Ps gtmp st' W
  | Err e => foldM (fun st x => word_step q n dp P st gtmp x) l st = Err e
  end.
Proof.
  intros Hq Hd. induction l as [|x l IH]; intros st G I; cbn [foldM]; [eauto|]. destruct (Z.ltb_spec x q) as [L|L].
  - destruct (word_step_ok q n dp P Ps gtmp Hq Hd st G x I L) as (st' & W & E1 & E2 & I'). cbn [check bind]. rewrite E1, E2. cbn [bind]. apply IH. exact I'.
  - cbn [check bind]. unfold word_step. rewrite (proj2 (Z.ltb_ge x q) L). reflexivity.
Qed.

(** * subtraction in place *)
Lemma in_prod_seq i j a la b lb : In (i, j) (list_prod (seq a la) (seq b lb)) <-> (a <= i < a + la)%nat /\ (b <= j < b + lb)%nat.
Proof. rewrite in_prod_iff, !in_seq. reflexivity. Qed.
Lemma nodup_prod_seq a la b lb : NoDup (list_prod (seq a la) (seq b lb)).
Proof. apply list_prod_nodup; apply seq_NoDup. Qed.

(** the loop of differences on a rectangle; c may be a or b or both *)
Lemma sub_cells q m c a b r k l : NoDup l -> (forall p, In p l -> (fst p < r)%nat /\ (snd p < k)%nat) -> room m a r k -> room m b r k -> room m c r k ->
  exists m', foldM (fun m ij => x <- rd m a (fst ij) (snd ij) ;; y <- rd m b (fst ij) (snd ij) ;; wr m c (fst ij) (snd ij) ((x - y) mod q)) l m = OK m' /\
    shapes m m' /\ only c m m' /\
    (forall i j, In (i, j) l -> o_cell (m' c) i j = (o_cell (m a) i j - o_cell (m b) i j) mod q) /\
    (forall i j, ~ In (i, j) l -> o_cell (m' c) i j = o_cell (m c) i j).
Proof.
  intros ND B (A1 & A2) (B1 & B2) (C1 & C2).
  destruct (writes c (fun m ij => x <- rd m a (fst ij) (snd ij) ;; y <- rd m b (fst ij) (snd ij) ;; OK ((x - y) mod q))
    (fun ij => (o_cell (m a) (fst ij) (snd ij) - o_cell (m b) (fst ij) (snd ij)) mod q) l m ND) as (m' & E & S & O & V & K).
  - intros p I. rewrite C1, C2. now apply B.
  - intros m1 (i & j) I S O K. destruct (B _ I) as (Bi & Bj). cbn [fst snd] in *. destruct (S a) as (S1 & S2), (S b) as (S3 & S4). rewrite !rd_ok by lia. cbn [bind].
    assert (X : forall h, o_cell (m1 h) i j = o_cell (m h) i j).
    { intros h. destruct (Nat.eq_dec h c) as [->|N]; [apply K; now right|now rewrite (O h N)]. }
    now rewrite !X.
  - exists m'. split; [|split; [exact S|split; [exact O|split; [|exact K]]]].
    + rewrite <- E. apply foldM_ext'. intros s p. destruct (rd s a _ _); cbn; auto. destruct (rd s b _ _); reflexivity.
    + intros i j I. apply (V (i, j) I).
Qed.

Lemma holds_room m h r c M : holds m h r c M -> room m h r c.
Proof. intros (A & B & _). split; auto. Qed.

Lemma nmod_mat_sub_ok q m c a b r k A B : holds m a r k A -> holds m b r k B -> room m c r k ->
  exists m', nmod_mat_sub q m c a b = OK m' /\ only c m m' /\ holds m' c r k (nmod_sub q A B).
Proof.
  intros HA HB (C1 & C2). pose proof (holds_room _ _ _ _ _ HA) as RA. pose proof (holds_room _ _ _ _ _ HB) as RB.
  destruct HA as (A1 & A2 & A3 & A4 & A5), HB as (B1 & B2 & B3 & B4 & B5).
  assert (L : length (nmod_sub q A B) = r) by (unfold nmod_sub; rewrite map2_length; congruence).
  assert (Ln : forall i, (i < r)%nat -> length (nth i A []) = k /\ length (nth i B []) = k) by (intros i Hi; split; [apply A4|apply B4]; apply nth_In; lia).
  assert (Nr : forall i, (i < r)%nat -> nth i (nmod_sub q A B) [] = map2 (fun a b => (a - b) mod q) (nth i A []) (nth i B [])).
  { intros i Hi. unfold nmod_sub. now rewrite (nth_map2 _ A B i [] [] []) by (auto; congruence). }
  assert (Lr : forall row, In row (nmod_sub q A B) -> length row = k).
  { intros row I. destruct (In_nth _ _ [] I) as (i & Hi & <-). rewrite L in Hi. destruct (Ln i Hi). rewrite Nr, map2_length; congruence. }
  unfold nmod_mat_sub. rewrite C1, C2. destruct (Nat.eqb_spec k 0) as [->|Nk].
  - exists m. split; [auto|]. split; [intros h _; auto|]. split; [auto|]. split; [auto|]. split; [auto|]. split; [auto|]. intros. lia.
  - destruct (sub_cells q m c a b r k (list_prod (seq 0 r) (seq 0 k)) (nodup_prod_seq _ _ _ _)) as (m' & E & S & O & V & K); [|auto|auto|split; auto|].
    { intros (i & j) I. apply in_prod_seq in I. cbn. lia. }
    exists m'. split; [exact E|]. split; [exact O|]. destruct (S c) as (S1 & S2). split; [congruence|]. split; [congruence|]. split; [auto|]. split; [auto|].
    intros i j Hi Hj. rewrite V by (apply in_prod_seq; lia). rewrite A5, B5, Nr by auto. destruct (Ln i Hi). rewrite (nth_map2 _ (nth i A []) (nth i B []) j 0 0 0); [auto|congruence|apply Zmod_0_l].
Qed.

Lemma nmod_mat_sub_submatrix_ok q m a b r k mr mc A B : holds m a r k A -> holds m b r k B -> (mr <= r)%nat ->
  exists m', nmod_mat_sub_submatrix q m a a b mr mc = OK m' /\ only a m m' /\ holds m' a r k (nmod_subbox q A B mr mc).
Proof.
  intros HA HB Hm. pose proof (holds_room _ _ _ _ _ HA) as RA. pose proof (holds_room _ _ _ _ _ HB) as RB. pose proof HA as (A1 & A2 & A3 & A4 & A5). destruct HB as (B1 & B2 & B3 & B4 & B5).
  assert (L : length (nmod_subbox q A B mr mc) = r) by (unfold nmod_subbox; rewrite map_length, seq_length; auto).
  assert (Nr : forall i, (i < r)%nat -> nth i (nmod_subbox q A B mr mc) [] = map (fun j => if Nat.ltb i mr && Nat.leb mc j then (mget A i j - mget B i j) mod q else mget A i j) (seq 0 k)).
  { intros i Hi. unfold nmod_subbox. rewrite nth_map_seq by lia. rewrite (A4 (nth i A [])) by (apply nth_In; lia). reflexivity. }
  assert (Lr : forall row, In row (nmod_subbox q A B mr mc) -> length row = k).
  { intros row I. destruct (In_nth _ _ [] I) as (i & Hi & <-). rewrite L in Hi. rewrite Nr, map_length, seq_length; auto. }
  unfold nmod_mat_sub_submatrix. rewrite A2, B2. destruct (Nat.eqb_spec k 0) as [->|Nk].
  - exists m. split; [auto|]. split; [intros h _; auto|]. split; [auto|]. split; [auto|]. split; [auto|]. split; [auto|]. intros. lia.
  - destruct (sub_cells q m a a b r k (list_prod (seq 0 mr) (seq mc (k - mc))) (nodup_prod_seq _ _ _ _)) as (m' & E & S & O & V & K); auto.
    { intros (i & j) I. apply in_prod_seq in I. cbn. lia. }
    exists m'. split; [exact E|]. split; [exact O|]. destruct (S a) as (S1 & S2). split; [congruence|]. split; [congruence|]. split; [auto|]. split; [auto|].
    intros i j Hi Hj. rewrite Nr, nth_map_seq by auto. destruct (Nat.ltb_spec i mr) as [U1|U1], (Nat.leb_spec mc j) as [U2|U2]; cbn [andb].
    + rewrite V by (apply in_prod_seq; lia). unfold mget. rewrite A5, B5 by auto. reflexivity.
    + rewrite K by (rewrite in_prod_seq; lia). apply A5; auto.
    + rewrite K by (rewrite in_prod_seq; lia). apply A5; auto.
    + rewrite K by (rewrite in_prod_seq; lia). apply A5; auto.
Qed.

(** * the table of differences *)
Section Table.
  Variables (q : Z) (d len : nat) (A : nat -> nat).
  Hypothesis Ainj : forall i j, (i < len)%nat -> (j < len)%nat -> A i = A j -> i = j.

  Definition tab (m : mem) (T : list mat) : Prop := length T = len /\ forall j, (j < len)%nat -> holds m (A j) d d (nth j T []).
  (** nothing outside the table has changed *)
  Definition outside (m m' : mem) : Prop := forall h, (forall j, (j < len)%nat -> h <> A j) -> m' h = m h.
  Lemma outside_refl m : outside m m.
  Proof. intros h _. auto. Qed.
  Lemma outside_trans m1 m2 m3 : outside m1 m2 -> outside m2 m3 -> outside m1 m3.
  Proof. intros X Y h N. now rewrite (Y h N), (X h N). Qed.

  Lemma tab_upd m m' T j M : tab m T -> (j < len)%nat -> only (A j) m m' -> holds m' (A j) d d M -> tab m' (upd T j M) /\ outside m m'.
  Proof.
    intros (L & H) Hj O HM. split.
    - split; [now rewrite upd_length|]. intros i Hi. destruct (Nat.eq_dec i j) as [->|N].
      + rewrite nth_upd_eq by lia. exact HM.
      + rewrite nth_upd_neq by auto. apply (holds_only m m' (A j)); auto.
    - intros h N. apply O, N. exact Hj.
  Qed.

  Lemma foldM_tab {B} (f : mem -> B -> res mem) (g : list mat -> B -> list mat) (l : list B) :
    (forall m T b, In b l -> tab m T -> exists m', f m b = OK m' /\ tab m' (g T b) /\ outside m m') ->
    forall m T, tab m T -> exists m', foldM f l m = OK m' /\ tab m' (fold_left g l T) /\ outside m m'.
  Proof.
    induction l as [|b l IH]; intros H m T HT; cbn [foldM fold_left]; [exists m; split; [auto|]; split; [auto|apply outside_refl]|].
    destruct (H m T b (or_introl eq_refl) HT) as (m1 & E & T1 & O1). rewrite E. cbn [bind].
    destruct (IH ltac:(intros; apply H; [now right|auto]) m1 _ T1) as (m2 & E2 & T2 & O2). exists m2. split; [exact E2|]. split; [exact T2|]. eapply outside_trans; eauto.
  Qed.

  Lemma fd_table_ok m T : tab m T -> exists m', fd_table_mem q A len m = OK m' /\ tab m' (fd_table q len T) /\ outside m m'.
  Proof.
    unfold fd_table_mem, fd_table. apply foldM_tab. clear m T. intros m T l Hl. apply in_seq in Hl. apply foldM_tab. clear m T. intros m T j Hj HT. apply in_rev, in_seq in Hj.
    destruct HT as (L & H). destruct (nmod_mat_sub_ok q m (A j) (A j) (A (j - 1)%nat) d d _ _ (H j ltac:(lia)) (H (j - 1)%nat ltac:(lia)) (holds_room _ _ _ _ _ (H j ltac:(lia)))) as (m' & E & O & HM).
    exists m'. split; [exact E|]. apply tab_upd; auto; [split; auto|lia].
  Qed.

  Variable boxes : list (nat * nat).
  Hypothesis Hbox : forall j, (fst (nth j boxes (0%nat, 0%nat)) <= d)%nat.
  Lemma fd_update_ok m T : tab m T -> exists m', fd_update_mem q A len boxes m = OK m' /\ tab m' (fd_update q len boxes T) /\ outside m m'.
  Proof.
    unfold fd_update_mem, fd_update. apply foldM_tab. clear m T. intros m T j Hj HT. apply in_rev, in_seq in Hj. destruct HT as (L & H).
    destruct (nmod_mat_sub_submatrix_ok q m (A j) (A (S j)) d d (fst (nth (S j) boxes (0%nat, 0%nat))) (snd (nth (S j) boxes (0%nat, 0%nat))) _ _ (H j ltac:(lia)) (H (S j) ltac:(lia)) (Hbox _)) as (m' & E & O & HM).
    exists m'. split; [exact E|]. apply tab_upd; auto; [split; auto|lia].
  Qed.

  (** table and the two buffers *)
  Definition fd_inv (st : mem * (nat * nat)) (T : list mat) (H : list Z) : Prop :=
    fst (snd st) <> snd (snd st) /\ (forall j, (j < len)%nat -> fst (snd st) <> A j /\ snd (snd st) <> A j) /\
    tab (fst st) T /\ holdsv (fst st) (fst (snd st)) H /\ length H = d /\ room (fst st) (snd (snd st)) d 1.

  Lemma fd_mul_ok st T H j : fd_inv st T H -> (j < len)%nat -> exists st' H', fd_mul q st (A j) = OK st' /\ mat_vec q (nth j T []) H = OK H' /\ fd_inv st' T H'.
  Proof.
    destruct st as (m & h & ho). unfold fd_inv, fd_mul. cbn [fst snd]. intros (N & NA & (LT & HT) & HH & LH & R) Hj. destruct (NA j Hj) as (N1 & N2).
    destruct (nmod_mul_ok q m ho (A j) h d d _ H ltac:(auto) ltac:(auto) (HT j Hj) HH LH R) as (m' & W & E & S & O & E2 & LW & HW). rewrite E, E2. cbn [bind].
    eexists (m', (ho, h)), W. split; [reflexivity|]. split; [reflexivity|]. cbn [fst snd]. split; [auto|]. split; [intros i Hi; split; now apply NA|]. split; [|split; [|split]].
    - split; auto. intros i Hi. apply (holds_only m m' ho); auto. apply not_eq_sym, NA. exact Hi.
    - exact HW.
    - exact LW.
    - apply (room_shapes m m'); auto. rewrite <- LH. now apply holdsv_room.
  Qed.

  Lemma fd_inv_table st T H m' T' : fd_inv st T H -> tab m' T' -> outside (fst st) m' -> fd_inv (m', snd st) T' H.
  Proof.
    destruct st as (m & h & ho). unfold fd_inv. cbn [fst snd]. intros (N & NA & HT & HH & LH & R) HT' O. split; [auto|]. split; [auto|]. split; [auto|].
    assert (X : m' h = m h) by (apply O; intros j Hj; now apply NA). assert (Y : m' ho = m ho) by (apply O; intros j Hj; now apply NA).
    unfold holdsv, room. rewrite X, Y. auto.
  Qed.

  Lemma fd_loop_ok k : (1 <= len)%nat -> forall st T H, fd_inv st T H -> exists st' T' H', fd_loop_mem q A len boxes k st = OK st' /\ fd_loop q len boxes k (T, H) = OK (T', H') /\ fd_inv st' T' H'.
  Proof.
    intros Hl. induction k as [|k IH]; intros st T H I; cbn [fd_loop_mem fd_loop]; [eauto 6|].
    destruct (fd_update_ok (fst st) T) as (m1 & E1 & T1 & O1); [apply I|]. rewrite E1. cbn [bind fst snd].
    destruct (fd_mul_ok _ _ _ 0%nat (fd_inv_table _ _ _ _ _ I T1 O1) Hl) as (st2 & H2 & E2 & E3 & I2). rewrite E2, E3. cbn [bind]. apply IH. exact I2.
  Qed.

  Lemma fd_first_ok l : (forall i, In i l -> (i < len)%nat) -> forall st T H, fd_inv st T H -> exists st' H',
    foldM (fun st l => fd_mul q st (A (len - 1 - l)%nat)) l st = OK st' /\ foldM (fun H l => mat_vec q (nth (len - 1 - l) T []) H) l H = OK H' /\ fd_inv st' T H'.
  Proof.
    induction l as [|i l IH]; intros Hl st T H I; cbn [foldM]; [eauto|].
    destruct (fd_mul_ok st T H (len - 1 - i)%nat I) as (st1 & H1 & E1 & E2 & I1); [specialize (Hl i (or_introl eq_refl)); lia|]. rewrite E1, E2. cbn [bind].
    apply IH; auto. intros j Hj. apply Hl. now right.
  Qed.

  Lemma fd_run_ok k st T G : (1 <= len)%nat -> fd_inv st T G -> exists st' H T' H', fd_run_mem q A len boxes k st = OK st' /\
    foldM (fun H l => mat_vec q (nth (len - 1 - l) T []) H) (seq 0 len) G = OK H /\ fd_loop q len boxes k (fd_table q len T, H) = OK (T', H') /\ fd_inv st' T' H'.
  Proof.
    intros Hl I. unfold fd_run_mem. destruct (fd_first_ok (seq 0 len) ltac:(intros i Hi; apply in_seq in Hi; lia) st T G I) as (st1 & H & E1 & E2 & I1). rewrite E1. cbn [bind].
    destruct (fd_table_ok (fst st1) T) as (m2 & E3 & T2 & O2); [apply I1|]. rewrite E3. cbn [bind].
    destruct (fd_loop_ok k Hl _ _ _ (fd_inv_table _ _ _ _ _ I1 T2 O2)) as (st3 & T3 & H3 & E4 & E5 & I3). exists st3, H, T3, H3. auto.
  Qed.
End Table.
