(** Proofs about the finite-difference evaluation. *)
From Coq Require Import ZArith List Bool Lia.
From Verif Require Import Base VecModel VecProofs MatModel MatProofs FrobTop FdModel FdSpec.
Import ListNotations.
Open Scope Z_scope.

(** * Differences of functions *)
Definition dl (F : Z -> Z) (x : Z) : Z := F (x + 1) - F x.
Fixpoint dln (j : nat) (F : Z -> Z) : Z -> Z :=
  match j with O => F | S j => dl (dln j F) end.

Lemma dln_ext j : forall F G, (forall x, F x = G x) -> forall x, dln j F x = dln j G x.
Proof. induction j as [|j IH]; intros F G H x; cbn [dln]; auto. unfold dl. now rewrite !(IH F G). Qed.

Lemma dln_plus j : forall F G x, dln j (fun x => F x + G x) x = dln j F x + dln j G x.
Proof. induction j as [|j IH]; intros F G x; cbn [dln]; auto. unfold dl. rewrite !IH. lia. Qed.

Lemma dln_scal j : forall c F x, dln j (fun x => F x * c) x = dln j F x * c.
Proof. induction j as [|j IH]; intros c F x; cbn [dln]; auto. unfold dl. rewrite !IH. lia. Qed.

Lemma dln_zero j : forall x, dln j (fun _ => 0) x = 0.
Proof. induction j as [|j IH]; intros x; cbn [dln]; auto. unfold dl. rewrite !IH. lia. Qed.

Lemma dln_sum {A} j (f : A -> Z -> Z) l : forall x, dln j (fun x => sumf (fun e => f e x) l) x = sumf (fun e => dln j (f e) x) l.
Proof.
  induction l as [|e l IH]; intros x.
  - rewrite sumf_nil. rewrite <- (dln_zero j x). now apply dln_ext.
  - rewrite sumf_cons, <- IH, <- dln_plus. apply dln_ext. intros. now rewrite sumf_cons.
Qed.

Lemma dln_comm j : forall F x, dln (S j) F x = dln j (dl F) x.
Proof.
  induction j as [|j IH]; intros F x; [reflexivity|].
  change (dln (S j) F (x + 1) - dln (S j) F x = dln j (dl F) (x + 1) - dln j (dl F) x). now rewrite !IH.
Qed.

Lemma dln_shift j : forall F x, dln j (fun x => F (x + 1)) x = dln j F (x + 1).
Proof. induction j as [|j IH]; intros F x; cbn [dln]; auto. unfold dl. now rewrite !IH. Qed.

(** a function killed by the j-th difference; times x it is killed by the next *)
Lemma dln_times_x j : forall F, (forall x, dln j F x = 0) -> forall x, dln (S j) (fun x => x * F x) x = 0.
Proof.
  induction j as [|j IH]; intros F H x.
  - cbn [dln] in *. unfold dl. rewrite !H. lia.
  - rewrite dln_comm.
    rewrite (dln_ext (S j) _ (fun x => x * dl F x + F (x + 1))) by (intros y; unfold dl; ring).
    rewrite dln_plus, dln_shift, H.
    rewrite IH; [lia|]. intros y. now rewrite <- dln_comm.
Qed.

Lemma dln_pow e : forall x, dln (S e) (fun x => x ^ Z.of_nat e) x = 0.
Proof.
  induction e as [|e IH]; intros x.
  - cbn [dln]. unfold dl. rewrite !Z.pow_0_r. lia.
  - rewrite (dln_ext _ _ (fun x => x * x ^ Z.of_nat e)).
    2:{ intros y. rewrite Nat2Z.inj_succ, Z.pow_succ_r by lia. reflexivity. }
    now apply dln_times_x.
Qed.

Lemma dln_pow_lt e j : (e < j)%nat -> forall x, dln j (fun x => x ^ Z.of_nat e) x = 0.
Proof.
  induction j as [|j IH]; intros H x; [lia|].
  destruct (Nat.eq_dec e j) as [->|N]; [apply dln_pow|].
  cbn [dln]. unfold dl. rewrite !IH by lia. lia.
Qed.

(** * The bounding boxes *)
Lemma fd_box_fold M (f : nat * nat -> nat * nat -> nat * nat) :
  (forall b i j, (fst b <= fst (f b (i, j)))%nat /\ (snd (f b (i, j)) <= snd b)%nat /\
     (mget M i j <> 0 -> (i < fst (f b (i, j)))%nat /\ (snd (f b (i, j)) <= j)%nat)) ->
  forall l b, (fst b <= fst (fold_left f l b))%nat /\ (snd (fold_left f l b) <= snd b)%nat /\
  forall i j, In (i, j) l -> mget M i j <> 0 -> (i < fst (fold_left f l b))%nat /\ (snd (fold_left f l b) <= j)%nat.
Proof.
  intros Hf. induction l as [|[i j] l IH]; intros b; cbn [fold_left].
  - split; [lia|]. split; [lia|]. intros ? ? [].
  - destruct (Hf b i j) as (H1 & H2 & H3). destruct (IH (f b (i, j))) as (I1 & I2 & I3).
    split; [lia|]. split; [lia|].
    intros i' j' [E|I] N; [injection E as -> ->; destruct (H3 N); lia|now apply I3].
Qed.

Lemma mget_out M r c i j : shape M r c -> mget M i j <> 0 -> (i < r)%nat /\ (j < c)%nat.
Proof.
  intros Sh N. destruct (Nat.lt_ge_cases i r) as [Hi|Hi].
  - split; auto. destruct (Nat.lt_ge_cases j c) as [Hj|Hj]; auto. exfalso. apply N.
    unfold mget. apply nth_overflow. rewrite (shape_row M r c); auto.
  - exfalso. apply N. unfold mget. rewrite (nth_overflow M) by (destruct Sh; lia). destruct j; reflexivity.
Qed.

Lemma fd_box_supp d M : shape M d d -> supported (fst (fd_box d M)) (snd (fd_box d M)) M.
Proof.
  intros Sh i j N. fold (mget M i j) in N. destruct (mget_out M d d i j Sh N).
  unfold fd_box. apply (fd_box_fold M); auto.
  - intros b i' j'. cbn [fst snd]. destruct (Z.eqb_spec (mget M i' j') 0); [split; [lia|split; [lia|contradiction]]|]. cbn [fst snd].
    destruct (Nat.leb_spec (fst b) i'); destruct (Nat.ltb_spec j' (snd b)); repeat split; intros; lia.
  - apply in_prod; apply in_seq; lia.
Qed.

(** * Trimming *)
Lemma fd_trim_ok d (M : list mat) : (forall e, (e < length M)%nat -> shape (nth e M []) d d) ->
  forall i, (i <= length M)%nat -> (exists e r c, (e < i)%nat /\ mget (nth e M []) r c <> 0) ->
  exists len, fd_trim d (map (fd_box d) M) i = OK len /\ (1 <= len <= i)%nat /\
    forall e r c, (len <= e < i)%nat -> mget (nth e M []) r c = 0.
Proof.
  intros Sh. induction i as [|i IH]; intros Hi (e & r & c & He & N); [lia|]. cbn [fd_trim]; cbv zeta.
  rewrite (nth_map_lt (fd_box d) M i (0%nat, d) []) by (unfold mat in *; lia).
  destruct (Nat.eqb (fst (fd_box d (nth i M []))) 0 && Nat.eqb (snd (fd_box d (nth i M []))) d) eqn:B.
  - apply andb_prop in B. destruct B as [B1 B2]. apply Nat.eqb_eq in B1.
    assert (Z0 : forall r c, mget (nth i M []) r c = 0).
    { intros r' c'. destruct (Z.eq_dec (mget (nth i M []) r' c') 0) as [|N']; auto.
      exfalso. destruct (fd_box_supp d (nth i M []) (Sh i ltac:(lia)) r' c' N'). lia. }
    destruct (Nat.eq_dec e i) as [->|Ne]; [now rewrite Z0 in N|].
    destruct (IH ltac:(lia)) as (len & E & L & Z1). { exists e, r, c. split; [lia|auto]. }
    exists len. split; [exact E|]. split; [lia|]. intros e' r' c' He'.
    destruct (Nat.eq_dec e' i) as [->|Ne']; [apply Z0|apply Z1; lia].
  - exists (S i). split; [reflexivity|]. split; [lia|]. intros; lia.
Qed.

(** * Values and tables *)
Section TABLE.
Variables (q : Z) (d len : nat) (M : list mat).
Hypothesis Hq : 0 < q.
Hypothesis Sh : forall e, (e < length M)%nat -> shape (nth e M []) d d.
Hypothesis Hlen : (1 <= len <= length M)%nat.
Hypothesis Hz : forall e r c, (len <= e < length M)%nat -> mget (nth e M []) r c = 0.

Definition P (r c : nat) (x : Z) : Z := sumf (fun e => x ^ Z.of_nat e * mget (nth e M []) r c) (seq 0 len).

Lemma P_entry x r c : mp_entry M x r c = P r c x.
Proof.
  unfold mp_entry, P. change (@length (list (list Z)) M) with (@length mat M). replace (length M) with (len + (length M - len))%nat by lia.
  rewrite seq_app, sumf_app. rewrite (sumf_zero _ (seq (0 + len) _)).
  - rewrite Z.add_0_r. reflexivity.
  - intros e He. apply in_seq in He. pose proof (Hz e r c ltac:(lia)) as Z0. unfold mget in Z0. etransitivity; [apply f_equal; exact Z0|lia].
Qed.

Lemma fd_value_ok x : 0 <= x < q -> exists V, fd_value q d len M x = OK V /\ shape V d d /\
  forall r c, (r < d)%nat -> (c < d)%nat -> mget V r c = (P r c x) mod q.
Proof.
  intros Hx. unfold fd_value, P.
  assert (I : forall k, (k <= len)%nat -> exists V,
    foldM (fun acc i => c <- nmod_pow q x i ;; mat_add q acc (mat_scal q c (nth i M []))) (seq 0 k) (mzero d d) = OK V /\
    shape V d d /\ forall r c, (r < d)%nat -> (c < d)%nat ->
      mget V r c = (sumf (fun e => x ^ Z.of_nat e * mget (nth e M []) r c) (seq 0 k)) mod q).
  2:{ apply I. lia. }
  induction k as [|k IH]; intros Hk.
  - exists (mzero d d). split; [reflexivity|]. split; [apply shape_mzero|].
    intros. rewrite mget_mzero. cbn [seq]. rewrite sumf_nil. now rewrite Zmod_0_l.
  - destruct (IH ltac:(lia)) as (V & E & SV & GV). rewrite seq_S, foldM_app, E. cbn [bind foldM].
    unfold nmod_pow. replace ((0 <=? x) && (x <? q)) with true by (symmetry; apply andb_true_intro; split; [apply Z.leb_le|apply Z.ltb_lt]; lia).
    cbn [bind check]. rewrite Nat.add_0_l.
    destruct (mat_add_ok q V (mat_scal q ((x ^ Z.of_nat k) mod q) (nth k M [])) d d SV) as (W & EW & SW & GW).
    { apply mat_scal_shape, Sh. lia. }
    rewrite EW. cbn [bind]. exists W. split; [reflexivity|]. split; [exact SW|].
    intros r c Hr Hc. rewrite GW, GV, (mat_scal_get q _ _ d d) by (auto; apply Sh; lia).
    rewrite sumf_app, sumf_cons, sumf_nil, Z.add_0_r.
    apply cong_iff_mod; [lia|]. rewrite !cong_mod. reflexivity.
Qed.

(** a table of [len] matrices with the entries F j r c modulo q *)
Definition tabl (F : nat -> nat -> nat -> Z) (T : list mat) : Prop :=
  length T = len /\ forall j, (j < len)%nat -> shape (nth j T []) d d /\
    forall r c, (r < d)%nat -> (c < d)%nat -> mget (nth j T []) r c = (F j r c) mod q.

Lemma tabl_ext F G T : (forall j r c, (j < len)%nat -> (r < d)%nat -> (c < d)%nat -> F j r c = G j r c) -> tabl F T -> tabl G T.
Proof.
  intros H [H1 H2]. split; auto. intros j Hj. destruct (H2 j Hj) as [S1 S2]. split; auto.
  intros. rewrite <- H; auto.
Qed.

Lemma nmod_sub_ok A B : shape A d d -> shape B d d ->
  shape (nmod_sub q A B) d d /\ forall r c, (r < d)%nat -> (c < d)%nat ->
    mget (nmod_sub q A B) r c = (mget A r c - mget B r c) mod q.
Proof.
  intros SA SB. unfold nmod_sub. split.
  - split; [rewrite map2_length; destruct SA, SB; congruence|].
    apply Forall_forall. intros x Hx. destruct (In_nth _ _ [] Hx) as (i & Hi & E).
    rewrite map2_length in Hi by (destruct SA, SB; congruence).
    rewrite (nth_map2 (map2 (fun a b => (a - b) mod q)) A B i [] [] []) in E by (auto; destruct SA, SB; congruence).
    rewrite <- E. assert (i < d)%nat by (destruct SA; lia).
    rewrite map2_length; rewrite !(shape_row _ d d); auto.
  - intros r c Hr Hc. unfold mget.
    rewrite (nth_map2 (map2 (fun a b => (a - b) mod q)) A B r [] [] []) by (auto; destruct SA, SB; congruence).
    apply (nth_map2 (fun a b => (a - b) mod q)); [|now rewrite Zmod_0_l].
    rewrite !(shape_row _ d d); auto.
Qed.

Lemma nmod_subbox_ok A B mr mc : shape A d d ->
  shape (nmod_subbox q A B mr mc) d d /\ forall r c, (r < d)%nat -> (c < d)%nat ->
    mget (nmod_subbox q A B mr mc) r c =
      if Nat.ltb r mr && Nat.leb mc c then (mget A r c - mget B r c) mod q else mget A r c.
Proof.
  intros SA. unfold nmod_subbox. split.
  - split; [rewrite map_length, seq_length; now destruct SA|].
    apply Forall_forall. intros x Hx. apply in_map_iff in Hx. destruct Hx as (i & <- & Hi).
    rewrite map_length, seq_length. apply in_seq in Hi. apply (shape_row _ d d); auto. destruct SA; lia.
  - intros r c Hr Hc. unfold mget at 1. rewrite (nth_map_lt _ _ _ _ 0%nat) by (rewrite seq_length; destruct SA; lia).
    rewrite seq_nth by (destruct SA; lia). rewrite Nat.add_0_l.
    rewrite (nth_map_lt _ _ _ _ 0%nat) by (rewrite seq_length, (shape_row _ d d); auto).
    rewrite seq_nth by (rewrite (shape_row _ d d); auto). reflexivity.
Qed.

(** replacing entry j of a table *)
Lemma tabl_upd F T j A f : tabl F T -> (j < len)%nat -> shape A d d ->
  (forall r c, (r < d)%nat -> (c < d)%nat -> mget A r c = (f r c) mod q) ->
  tabl (fun j' => if Nat.eqb j j' then f else F j') (upd T j A).
Proof.
  intros [L H] Hj SA HA. split; [now rewrite upd_length|]. intros j' Hj'.
  destruct (Nat.eqb_spec j j') as [->|N].
  - rewrite nth_upd_eq by lia. split; auto.
  - rewrite nth_upd_neq by auto. now apply H.
Qed.

(** one pass of dr_nd.cc 1952-1954 *)
Lemma fd_pass l (F : nat -> nat -> nat -> Z) : (1 <= l)%nat -> forall m T, (l + m = len)%nat -> tabl F T ->
  tabl (fun j r c => if Nat.leb l j then F j r c - F (j - 1)%nat r c else F j r c)
    (fold_left (fun (T : list mat) j => upd T j (nmod_sub q (nth j T []) (nth (j - 1) T []))) (rev (seq l m)) T).
Proof.
  intros Hl m T Hm HT.
  assert (I : forall k G T, (l + k <= len)%nat -> tabl G T ->
    (forall j, (j < l + k)%nat -> G j = F j) ->
    tabl (fun j r c => if Nat.leb l j && Nat.ltb j (l + k) then F j r c - F (j - 1)%nat r c else G j r c)
    (fold_left (fun (T : list mat) j => upd T j (nmod_sub q (nth j T []) (nth (j - 1) T []))) (rev (seq l k)) T)).
  { induction k as [|k IH]; intros G T0 Hk HG HF.
    - cbn [seq rev fold_left]. eapply tabl_ext; [|exact HG]. intros j r c Hj _ _.
      cbv beta. destruct (Nat.leb_spec l j); destruct (Nat.ltb_spec j (l + 0)); cbn [andb]; auto; lia.
    - rewrite seq_S, rev_app_distr. cbn [rev app fold_left].
      set (T1 := upd T0 (l + k)%nat (nmod_sub q (nth (l + k) T0 []) (nth (l + k - 1) T0 []))).
      assert (HT1 : tabl (fun j' => if Nat.eqb (l + k) j' then (fun r c => F (l + k)%nat r c - F (l + k - 1)%nat r c) else G j') T1).
      { unfold T1. destruct HG as [L0 H0].
        destruct (H0 (l + k)%nat ltac:(lia)) as [S1 V1]. destruct (H0 (l + k - 1)%nat ltac:(lia)) as [S2 V2].
        destruct (nmod_sub_ok _ _ S1 S2) as [S3 V3]. apply tabl_upd; auto; [split; auto|lia|].
        intros r c Hr Hc. rewrite V3, V1, V2 by auto. rewrite !HF by lia.
        apply cong_iff_mod; [lia|]. rewrite !cong_mod. reflexivity. }
      eapply tabl_ext; [|apply (IH (fun j' => if Nat.eqb (l + k) j' then (fun r c => F (l + k)%nat r c - F (l + k - 1)%nat r c) else G j') T1); [lia|exact HT1|]].
      + intros j r c Hj Hr Hc. cbv beta. destruct (Nat.leb_spec l j); cbn [andb].
        * destruct (Nat.ltb_spec j (l + k)); destruct (Nat.ltb_spec j (l + S k)); destruct (Nat.eqb_spec (l + k) j); auto; try lia.
          subst j. reflexivity.
        * destruct (Nat.eqb_spec (l + k) j); auto; lia.
      + intros j Hj. destruct (Nat.eqb_spec (l + k) j); [lia|]. apply HF. lia. }
  eapply tabl_ext; [|apply (I m F T); [lia|exact HT|reflexivity]].
  intros j r c Hj _ _. cbv beta. destruct (Nat.leb_spec l j); cbn [andb]; auto.
  destruct (Nat.ltb_spec j (l + m)); auto; lia.
Qed.

(** dr_nd.cc 1952-1954: the table of differences at a *)
Lemma fd_table_ok a T : tabl (fun j r c => P r c (a + Z.of_nat j)) T ->
  tabl (fun j r c => dln j (P r c) a) (fd_table q len T).
Proof.
  intros HT. unfold fd_table.
  assert (I : forall k, (k <= len - 1)%nat ->
    tabl (fun j r c => dln (Nat.min j k) (P r c) (a + Z.of_nat (j - k)))
     (fold_left (fun (T : list mat) l => fold_left (fun (T : list mat) j => upd T j (nmod_sub q (nth j T []) (nth (j - 1) T []))) (rev (seq l (len - l))) T) (seq 1 k) T)).
  { induction k as [|k IH]; intros Hk.
    - cbn [seq fold_left]. eapply tabl_ext; [|exact HT]. intros j r c _ _ _. cbv beta.
      rewrite Nat.min_0_r, Nat.sub_0_r. reflexivity.
    - rewrite seq_S, fold_left_app. cbn [fold_left].
      eapply tabl_ext; [|apply (fd_pass (1 + k) _ ltac:(lia) (len - (1 + k)) _ ltac:(lia) (IH ltac:(lia)))].
      intros j r c Hj _ _. cbv beta. destruct (Nat.leb_spec (1 + k) j).
      + rewrite !Nat.min_r by lia. replace (Nat.min j (S k)) with (S k) by lia. cbn [dln]. unfold dl.
        replace (a + Z.of_nat (j - S k) + 1) with (a + Z.of_nat (j - k)) by lia.
        replace (j - 1 - k)%nat with (j - S k)%nat by lia. reflexivity.
      + rewrite !Nat.min_l by lia. replace (j - k)%nat with (j - S k)%nat by lia. reflexivity. }
  eapply tabl_ext; [|apply (I (len - 1)%nat ltac:(lia))].
  intros j r c Hj _ _. cbv beta. rewrite Nat.min_l by lia. replace (j - (len - 1))%nat with 0%nat by lia.
  now rewrite Z.add_0_r.
Qed.

Lemma dln_P j r c x : dln j (P r c) x = sumf (fun e => dln j (fun x => x ^ Z.of_nat e) x * mget (nth e M []) r c) (seq 0 len).
Proof. unfold P. rewrite dln_sum. apply sumf_ext. intros e _. now rewrite dln_scal. Qed.

Lemma dln_P_high r c x : dln len (P r c) x = 0.
Proof. rewrite dln_P. apply sumf_zero. intros e He. apply in_seq in He. rewrite dln_pow_lt by lia. lia. Qed.

(** outside the box given for coefficient j+1 its differences vanish *)
Variable boxes : list (nat * nat).
Hypothesis Hbox : forall j r c x, (S j < len)%nat -> (r < d)%nat -> (c < d)%nat ->
  let b := nth (S j) boxes (0%nat, 0%nat) in
  Nat.ltb r (fst b) && Nat.leb (snd b) c = false -> dln (S j) (P r c) x = 0.

(** dr_nd.cc 1965-1971: the table at a - 1 *)
Lemma fd_update_ok a T : tabl (fun j r c => dln j (P r c) a) T ->
  tabl (fun j r c => dln j (P r c) (a - 1)) (fd_update q len boxes T).
Proof.
  intros HT. unfold fd_update.
  assert (Step : forall j r c, dln (S j) (P r c) (a - 1) = dln j (P r c) a - dln j (P r c) (a - 1)).
  { intros. cbn [dln]. unfold dl. now replace (a - 1 + 1) with a by lia. }
  assert (I : forall k T, (k <= len - 1)%nat ->
    tabl (fun j r c => dln j (P r c) (if Nat.ltb j k then a else a - 1)) T ->
    tabl (fun j r c => dln j (P r c) (a - 1))
     (fold_left (fun (T : list mat) j => upd T j (nmod_subbox q (nth j T []) (nth (S j) T [])
        (fst (nth (S j) boxes (0%nat, 0%nat))) (snd (nth (S j) boxes (0%nat, 0%nat))))) (rev (seq 0 k)) T)).
  { induction k as [|k IH]; intros T0 Hk HG.
    - cbn [seq rev fold_left]. eapply tabl_ext; [|exact HG]. intros j r c _ _ _. reflexivity.
    - rewrite seq_S, rev_app_distr. cbn [rev app fold_left]. rewrite Nat.add_0_l.
      apply IH; [lia|]. destruct HG as [L0 H0].
      destruct (H0 k ltac:(lia)) as [S1 V1]. destruct (H0 (S k) ltac:(lia)) as [S2 V2].
      destruct (nmod_subbox_ok (nth k T0 []) (nth (S k) T0 []) (fst (nth (S k) boxes (0%nat, 0%nat))) (snd (nth (S k) boxes (0%nat, 0%nat))) S1) as [S3 V3].
      eapply tabl_ext; [|apply (tabl_upd (fun j r c => dln j (P r c) (if Nat.ltb j (S k) then a else a - 1)) T0 k _
         (fun r c => dln k (P r c) (a - 1)) ltac:(split; auto) ltac:(lia) S3)].
      + intros j r c Hj _ _. cbv beta. destruct (Nat.eqb_spec k j) as [->|N].
        * now rewrite Nat.ltb_irrefl.
        * destruct (Nat.ltb_spec j (S k)); destruct (Nat.ltb_spec j k); auto; lia.
      + intros r c Hr Hc. rewrite V3, V1, V2 by auto.
        replace (Nat.ltb k (S k)) with true by (symmetry; apply Nat.ltb_lt; lia).
        rewrite Nat.ltb_irrefl. rewrite Step.
        destruct (Nat.ltb r _ && Nat.leb _ c) eqn:B.
        * apply cong_iff_mod; [lia|]. rewrite !cong_mod. apply cong_of_eq. ring.
        * pose proof (Hbox k r c (a - 1) ltac:(lia) Hr Hc B) as Z0. rewrite Step in Z0. f_equal. lia. }
  apply I; [lia|]. eapply tabl_ext; [|exact HT]. intros j r c Hj _ _. cbv beta.
  destruct (Nat.ltb_spec j (len - 1)); auto.
  replace j with (len - 1)%nat by lia.
  pose proof (dln_P_high r c (a - 1)) as Z0. replace len with (S (len - 1)) in Z0 by lia. rewrite Step in Z0. lia.
Qed.

Definition red (v : list Z) : list Z := map (fun x => x mod q) v.

Lemma mp_apply_length x v : length (mp_apply d M x v) = d.
Proof. unfold mp_apply. now rewrite map_length, seq_length. Qed.

(** multiplying by a matrix with the entries of M(x) *)
Lemma apply_ok A x v : shape A d d -> length v = d ->
  (forall r c, (r < d)%nat -> (c < d)%nat -> mget A r c = (P r c x) mod q) ->
  mat_vec q A (red v) = OK (red (mp_apply d M x v)).
Proof.
  intros SA Lv VA. unfold red.
  destruct (mat_vec_ok q A (map (fun x => x mod q) v) d) as (w & E & Lw & Vw).
  { now rewrite map_length, Lv. }
  rewrite E. f_equal. apply (nth_ext _ _ 0 0); [now rewrite map_length, mp_apply_length|].
  intros i Hi. rewrite Lw in Hi. rewrite Vw by auto. rewrite map_length, Lv.
  rewrite (nth_map_lt _ _ _ _ 0) by (rewrite mp_apply_length; auto).
  unfold mp_apply. rewrite (nth_map_lt _ _ _ _ 0%nat) by now rewrite seq_length.
  rewrite seq_nth by auto. rewrite Nat.add_0_l.
  apply cong_iff_mod; [lia|]. apply cong_sumf. intros j Hj. apply in_seq in Hj.
  rewrite (nth_map_lt _ _ _ _ 0) by lia. rewrite VA, P_entry by lia. rewrite !cong_mod. reflexivity.
Qed.

Lemma fd_loop_ok k : forall T v, length v = d -> tabl (fun j r c => dln j (P r c) (Z.of_nat k)) T ->
  exists T', fd_loop q len boxes k (T, red v) = OK (T', red (mp_product d M k v)) /\
    tabl (fun j r c => dln j (P r c) 0) T'.
Proof.
  induction k as [|k IH]; intros T v Lv HT.
  - exists T. split; [reflexivity|]. exact HT.
  - cbn [fd_loop fst snd mp_product].
    assert (HU := fd_update_ok _ _ HT). replace (Z.of_nat (S k) - 1) with (Z.of_nat k) in HU by lia.
    destruct HU as [LU VU]. destruct (VU 0%nat ltac:(lia)) as [SA VA]. cbn [dln] in VA.
    rewrite (apply_ok _ (Z.of_nat k) v SA Lv VA). cbn [bind].
    apply IH; [apply mp_apply_length|]. split; auto.
Qed.

Hypothesis Hred : forall r c, 0 <= mget (nth 0 M []) r c < q.

Lemma finitediff_core k v : Z.of_nat len <= k <= q -> length v = d -> forall T, tabl (fun j r c => P r c (k - Z.of_nat len + Z.of_nat j)) T ->
  exists T', (H <- foldM (fun H l => mat_vec q (nth (len - 1 - l) T []) H) (seq 0 len) (red v) ;;
    fd_loop q len boxes (Z.to_nat (k - Z.of_nat len)) (fd_table q len T, H))
   = OK (T', red (mp_product d M (Z.to_nat k) v)) /\ nth 0 T' [] = nth 0 M [].
Proof.
  intros Hk Lv T HT.
  assert (I : forall t, (t <= len)%nat -> exists w, length w = d /\
     foldM (fun H l => mat_vec q (nth (len - 1 - l) T []) H) (seq 0 t) (red v) = OK (red w) /\
     mp_product d M (Z.to_nat k) v = mp_product d M (Z.to_nat k - t) w).
  { induction t as [|t IH]; intros Ht.
    - exists v. split; [auto|]. split; [reflexivity|]. now rewrite Nat.sub_0_r.
    - destruct (IH ltac:(lia)) as (w & Lw & E & EP). rewrite seq_S, foldM_app, E. cbn [bind foldM]. rewrite Nat.add_0_l.
      destruct HT as [LT VT]. destruct (VT (len - 1 - t)%nat ltac:(lia)) as [SA VA].
      rewrite (apply_ok _ (Z.of_nat (Z.to_nat k - S t)) w SA Lw).
      2:{ intros r c Hr Hc. rewrite VA by auto. f_equal. f_equal. lia. }
      cbn [bind]. eexists. split; [apply mp_apply_length|]. split; [reflexivity|].
      rewrite EP. replace (Z.to_nat k - t)%nat with (S (Z.to_nat k - S t)) by lia. reflexivity. }
  destruct (I len ltac:(lia)) as (w & Lw & E & EP). rewrite E. cbn [bind].
  pose proof (fd_table_ok _ _ HT) as HD.
  rewrite <- (Z2Nat.id (k - Z.of_nat len)) in HD by lia.
  destruct (fd_loop_ok (Z.to_nat (k - Z.of_nat len)) _ w Lw HD) as (T' & E' & HT').
  exists T'. split.
  - rewrite E', EP. replace (Z.to_nat k - len)%nat with (Z.to_nat (k - Z.of_nat len)) by lia. reflexivity.
  - destruct HT' as [L' V']. destruct (V' 0%nat ltac:(lia)) as [S' V0]. cbn [dln] in V0.
    apply (mat_ext _ _ d d); auto; [apply Sh; lia|]. intros r c Hr Hc. rewrite V0 by auto.
    unfold P. rewrite <- (Z.mod_small (mget (nth 0 M []) r c) q) by apply Hred. f_equal.
    replace len with (S (len - 1)) by lia. cbn [seq]. rewrite sumf_cons. rewrite Z.pow_0_r.
    rewrite sumf_zero; [lia|]. intros e He. apply in_seq in He. rewrite Z.pow_0_l by lia. lia.
Qed.

End TABLE.

Lemma mp_shape q d (M : list mat) : mp_ok q d M -> forall e, (e < length M)%nat -> shape (nth e M []) d d.
Proof.
  intros H e He. destruct (H (nth e M []) (nth_In _ _ He)) as [L1 L2]. split; auto.
  apply Forall_forall. intros r Hr. now apply L2.
Qed.

Lemma mp_red q d (M : list mat) : 0 < q -> mp_ok q d M -> forall e, (e < length M)%nat -> forall r c, 0 <= mget (nth e M []) r c < q.
Proof.
  intros Hq H e He r c. destruct (H (nth e M []) (nth_In _ _ He)) as [L1 L2]. unfold mget.
  destruct (Nat.lt_ge_cases r (length (nth e M []))) as [Hr|Hr].
  - destruct (L2 _ (nth_In _ [] Hr)) as [L3 L4]. destruct (Nat.lt_ge_cases c d) as [Hc|Hc].
    + apply L4, nth_In. lia.
    + rewrite nth_overflow by lia. lia.
  - rewrite (nth_overflow _ _ Hr). destruct c; cbn; lia.
Qed.

(** for any boxes which contain, for each j >= 1, the non-zero entries of M_j
    and of all later coefficients *)
Definition covers (boxes : list (nat * nat)) (M : list mat) : Prop := forall j e,
  (1 <= j <= e)%nat -> (e < length M)%nat ->
  supported (fst (nth j boxes (0%nat, 0%nat))) (snd (nth j boxes (0%nat, 0%nat))) (nth e M []).

Theorem finitediff_with_ok q d boxes (M : list mat) k v : 2 <= q -> mp_ok q d M -> covers boxes M ->
  (exists e i j, nth j (nth i (nth e M []) []) 0 <> 0) ->
  zlen M - 1 < k <= q -> length v = d -> (forall x, In x v -> 0 <= x < q) ->
  finitediff_with q boxes M k v = OK (map (fun x => x mod q) (mp_product d M (Z.to_nat k) v)).
Proof.
  intros Hq HM HN (e & r & c & Hne) Hk Lv Hv. fold (mget (nth e M []) r c) in Hne.
  pose proof (mp_shape q d M HM) as Sh.
  assert (He : (e < length M)%nat).
  { destruct (Nat.lt_ge_cases e (length M)) as [|L]; auto. exfalso. apply Hne. rewrite (nth_overflow M) by auto.
    unfold mget. destruct r; destruct c; reflexivity. }
  unfold finitediff_with. replace (length (nth 0 M [])) with d by (symmetry; apply (Sh 0%nat); lia).
  replace (zlen M - 1 <? k) with true by (symmetry; apply Z.ltb_lt; lia). cbn [check bind].
  destruct (fd_trim_ok d M Sh (length M) ltac:(lia)) as (len & E & Hl & Hz). { exists e, r, c. auto. }
  rewrite E. cbn [bind].
  assert (HT : exists T, mapM (fun l => fd_value q d len M (k - Z.of_nat len + Z.of_nat l)) (seq 0 len) = OK T /\
     tabl q d len (fun j r c => P len M r c (k - Z.of_nat len + Z.of_nat j)) T).
  { unfold zlen in Hk.
    assert (I : forall m s, (s + m <= len)%nat -> exists T, mapM (fun l => fd_value q d len M (k - Z.of_nat len + Z.of_nat l)) (seq s m) = OK T /\
      length T = m /\ forall j, (j < m)%nat -> shape (nth j T []) d d /\ forall r c, (r < d)%nat -> (c < d)%nat ->
        mget (nth j T []) r c = (P len M r c (k - Z.of_nat len + Z.of_nat (s + j))) mod q).
    { induction m as [|m IH]; intros s Hs.
      - exists []. split; [reflexivity|]. split; [reflexivity|]. intros; lia.
      - cbn [seq mapM]. destruct (fd_value_ok q d len M ltac:(lia) Sh Hl (k - Z.of_nat len + Z.of_nat s) ltac:(lia)) as (V & EV & SV & VV).
        rewrite EV. cbn [bind]. destruct (IH (S s) ltac:(lia)) as (T & ET & LT & VT). rewrite ET. cbn [bind].
        exists (V :: T). split; [reflexivity|]. split; [cbn [length]; lia|].
        intros [|j] Hj; cbn [nth].
        + split; auto. intros. rewrite VV by auto. now rewrite Nat.add_0_r.
        + destruct (VT j ltac:(lia)) as [S1 V1]. split; auto. intros. rewrite V1 by auto. now rewrite <- plus_n_Sm. }
    destruct (I len 0%nat ltac:(lia)) as (T & ET & LT & VT). exists T. split; auto. split; auto. }
  destruct HT as (T & ET & HT). rewrite ET. cbn [bind].
  assert (Hlk : Z.of_nat len <= k <= q) by (unfold zlen in Hk; lia).
  assert (HB : forall j r c x, (S j < len)%nat -> (r < d)%nat -> (c < d)%nat ->
    let b := nth (S j) boxes (0%nat, 0%nat) in
    Nat.ltb r (fst b) && Nat.leb (snd b) c = false -> dln (S j) (P len M r c) x = 0).
  { intros j r' c' x Hj _ _ b Hb. rewrite dln_P. apply sumf_zero. intros e' He'. apply in_seq in He'.
    destruct (Nat.lt_ge_cases e' (S j)) as [L|L]; [rewrite dln_pow_lt by lia; lia|].
    assert (Z0 : mget (nth e' M []) r' c' = 0); [|rewrite Z0; lia].
    destruct (Z.eq_dec (mget (nth e' M []) r' c') 0) as [|Nz]; auto. exfalso.
    destruct (HN (S j) e' ltac:(lia) ltac:(change (e' < @length mat M)%nat; lia) r' c' Nz) as [B1 B2].
    apply andb_false_iff in Hb as [Hb|Hb].
    - apply Nat.ltb_ge in Hb. unfold b in Hb. lia.
    - apply Nat.leb_gt in Hb. unfold b in Hb. lia. }
  destruct (finitediff_core q d len M ltac:(lia) Sh Hl Hz boxes HB (mp_red q d M ltac:(lia) HM 0%nat ltac:(lia)) k v Hlk Lv T HT) as (T' & EC & E0).
  assert (Ev : red q v = v).
  { unfold red. rewrite <- (map_id v) at 2. apply map_ext_in. intros x Hx. apply Z.mod_small. now apply Hv. }
  rewrite Ev in EC.
  destruct (foldM _ (seq 0 len) v) as [H|]; [|discriminate EC]. cbn [bind] in EC |- *.
  rewrite EC. cbn [bind fst snd]. rewrite E0. unfold mat_eqb.
  destruct (list_eq_dec _ (nth 0 M []) (nth 0 M [])); [reflexivity|congruence].
Qed.

Theorem finitediff_ok q d (M : list mat) k v : 2 <= q -> mp_ok q d M -> nested M ->
  (exists e i j, nth j (nth i (nth e M []) []) 0 <> 0) ->
  zlen M - 1 < k <= q -> length v = d -> (forall x, In x v -> 0 <= x < q) ->
  finitediff q M k v = OK (map (fun x => x mod q) (mp_product d M (Z.to_nat k) v)).
Proof.
  intros Hq HM HN Hne. pose proof (mp_shape q d M HM) as Sh.
  change (finitediff q M k v) with (finitediff_with q (map (fd_box (length (nth 0 M []))) M) M k v).
  apply finitediff_with_ok; auto. intros j e Hj He.
  rewrite (nth_map_lt (fd_box _) M j (0%nat, 0%nat) []) by lia.
  replace (length (nth 0 M [])) with d by (symmetry; apply (Sh 0%nat); lia).
  apply (HN j e); auto. apply fd_box_supp, Sh. unfold mat in *. lia.
Qed.

(** dr_nd.cc 1963: the subtraction of whole matrices *)
Theorem finitediff_full_ok q d (M : list mat) k v : 2 <= q -> mp_ok q d M ->
  (exists e i j, nth j (nth i (nth e M []) []) 0 <> 0) ->
  zlen M - 1 < k <= q -> length v = d -> (forall x, In x v -> 0 <= x < q) ->
  finitediff_full q M k v = OK (map (fun x => x mod q) (mp_product d M (Z.to_nat k) v)).
Proof.
  intros Hq HM Hne. pose proof (mp_shape q d M HM) as Sh.
  unfold finitediff_full. apply finitediff_with_ok; auto. intros j e Hj He.
  rewrite (nth_indep _ _ (length (nth 0 M []), 0%nat)) by (rewrite repeat_length; lia).
  rewrite nth_repeat. replace (length (nth 0 M [])) with d by (symmetry; apply (Sh 0%nat); lia).
  cbn [fst snd]. intros r c N. split; [|lia].
  destruct (Nat.lt_ge_cases r d) as [|L]; auto. exfalso. apply N.
  destruct (Sh e ltac:(unfold mat in *; lia)) as [L1 _]. rewrite (nth_overflow (nth e M [])) by lia. destruct c; reflexivity.
Qed.

(** the boxes joined from the right *)
Lemma join_boxes_app d l j : (j < length l)%nat ->
  forall e, (j <= e < length l)%nat ->
  (fst (nth e l (0%nat, 0%nat)) <= fst (nth j (join_boxes d l) (0%nat, 0%nat)))%nat /\
  (snd (nth j (join_boxes d l) (0%nat, 0%nat)) <= snd (nth e l (0%nat, 0%nat)))%nat.
Proof.
  revert j. induction l as [|b l IH]; intros j Hj e He; cbn [length] in *; [lia|].
  cbn [join_boxes]. destruct j as [|j], e as [|e]; cbn [nth fst snd]; try lia.
  - destruct l as [|b' l']; [cbn [length] in *; lia|].
    destruct (IH 0%nat ltac:(cbn [length] in *; lia) e ltac:(lia)) as [A B].
    destruct (join_boxes d (b' :: l')) as [|c0 cs] eqn:EJ; [discriminate EJ|]. cbn [nth hd] in A, B |- *. lia.
  - apply IH; lia.
Qed.

Theorem finitediff_joined_ok q d (M : list mat) k v : 2 <= q -> mp_ok q d M ->
  (exists e i j, nth j (nth i (nth e M []) []) 0 <> 0) ->
  zlen M - 1 < k <= q -> length v = d -> (forall x, In x v -> 0 <= x < q) ->
  finitediff_joined q M k v = OK (map (fun x => x mod q) (mp_product d M (Z.to_nat k) v)).
Proof.
  intros Hq HM Hne. pose proof (mp_shape q d M HM) as Sh.
  unfold finitediff_joined. apply finitediff_with_ok; auto. intros j e Hj He.
  replace (length (nth 0 M [])) with d by (symmetry; apply (Sh 0%nat); lia).
  destruct (join_boxes_app d (map (fd_box d) M) j ltac:(rewrite map_length; lia) e ltac:(rewrite map_length; lia)) as [A B].
  rewrite (nth_map_lt (fd_box _) M e (0%nat, 0%nat) []) in A, B by lia.
  intros r c N. destruct (fd_box_supp d (nth e M []) (Sh e He) r c N) as [C D]. cbn [fst snd]. lia.
Qed.
