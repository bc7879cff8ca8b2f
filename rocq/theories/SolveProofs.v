(** Proofs about the linear solver. *)
From Coq Require Import ZArith List Bool Lia Znumtheory Permutation.
From Verif Require Import Base VecModel ToolsModel MatModel MatProofs DRModel DRSpec DRRed MpzSpec MpzProofs LinAlg SolveModel SolveSpec FrobTop.
From Verif Require SaveProofs.
Import ListNotations.
Open Scope Z_scope.

(** first column after the pivot of row i-1 *)
Definition start (c : list nat) (i : nat) : nat := match i with O => O | S i' => S (nth i' c O) end.
(** what the scans rely on *)
Definition scannable (m n r : nat) (c : list nat) (M : mat) : Prop :=
  shape M m n /\ (r <= m)%nat /\ length c = r /\
  (forall i j, (i < j < r)%nat -> (nth i c O < nth j c O)%nat) /\ (forall i, (i < r)%nat -> (nth i c O < n)%nat) /\
  (forall i, (i < r)%nat -> mget M i (nth i c O) <> 0) /\
  (forall i j, (i < r)%nat -> (start c i <= j < nth i c O)%nat -> mget M i j = 0) /\
  (forall i j, (r <= i < m)%nat -> (start c r <= j < n)%nat -> mget M i j = 0).

Lemma incr_ge c r : (forall i j, (i < j < r)%nat -> (nth i c O < nth j c O)%nat) -> forall i, (i < r)%nat -> (i <= nth i c O)%nat.
Proof.
  intros H i. induction i as [|i IH]; intros L; [lia|]. specialize (IH ltac:(lia)). specialize (H i (S i) ltac:(lia)). lia.
Qed.
Lemma start_ge c r : (forall i j, (i < j < r)%nat -> (nth i c O < nth j c O)%nat) -> forall i, (i <= r)%nat -> (i <= start c i)%nat.
Proof. intros H [|i] L; cbn [start]; [lia|]. pose proof (incr_ge c r H i ltac:(lia)). lia. Qed.
Lemma start_le c r : (forall i j, (i < j < r)%nat -> (nth i c O < nth j c O)%nat) -> forall i, (i < r)%nat -> (start c i <= nth i c O)%nat.
Proof. intros H [|i] L; cbn [start]; [lia|]. specialize (H i (S i) ltac:(lia)). lia. Qed.

Lemma start_pos c i : i <> O -> start c i = S (nth (pred i) c O).
Proof. destruct i; [congruence|reflexivity]. Qed.

(** * the oracles give a rank factorisation and a scannable matrix *)
Lemma lu_factor p m n A r M : prime p -> lu_result p m n A r M ->
  exists c U, rfact p m n (mget A) r U /\ echelon p r n c U /\ scannable m n r c M.
Proof.
  intros Pp (HS & HR & Hr & P & c & HP & HE & HZ & HA). cbv zeta in HE, HA.
  set (L := fun i j => if Nat.ltb j i then mget M i j else if Nat.eqb j i then 1 else 0) in *.
  set (U := fun i j => if Nat.leb i j then mget M i j else 0) in *.
  exists c, U. split; [|split]; auto.
  - (* L has a left inverse *)
    destruct (tri_inv p r (trm L)) as (V & V1 & V2).
    { intros i j Hij. unfold trm, L. destruct (Nat.ltb_spec i j); [lia|]. destruct (Nat.eqb_spec i j); [lia|]. apply cong_refl. }
    { intros i Hi. exists 1. unfold trm, L. rewrite Nat.ltb_irrefl, Nat.eqb_refl. apply cong_refl. }
    assert (LP : length P = m) by (rewrite (Permutation_length HP); apply seq_length).
    assert (ND : NoDup P) by (eapply Permutation_NoDup; [symmetry; exact HP|apply seq_NoDup]).
    assert (IN : forall x, (x < m)%nat -> exists i, (i < m)%nat /\ nth i P O = x).
    { intros x Hx. assert (In x P) by (eapply Permutation_in; [symmetry; exact HP|]; apply in_seq; lia).
      destruct (In_nth _ _ O H) as (i & Li & E). exists i. split; auto. lia. }
    set (idx := fun x => match find (fun i => Nat.eqb (nth i P O) x) (seq 0 m) with Some i => i | None => O end).
    assert (IX : forall i, (i < m)%nat -> idx (nth i P O) = i).
    { intros i Hi. unfold idx. destruct (find _ _) as [k|] eqn:F.
      - apply find_some in F. destruct F as [F1 F2]. apply in_seq in F1. apply Nat.eqb_eq in F2.
        apply (proj1 (NoDup_nth P O) ND); auto; lia.
      - exfalso. eapply find_none in F; [|apply in_seq; split; [apply Nat.le_0_l|exact Hi]]. now rewrite Nat.eqb_refl in F. }
    exists (fun x a => L (idx x) a), (fun a x => if Nat.ltb (idx x) r then V (idx x) a else 0). split.
    + intros x j Hx Hj. destruct (IN x Hx) as (i & Hi & E). subst x.
      eapply cong_trans; [apply HA; auto|]. unfold mm. cbn beta. rewrite IX by auto. apply cong_refl.
    + intros a b Ha Hb. 
      apply cong_trans with (mm m (fun a i => if Nat.ltb i r then V i a else 0) L a b).
      { apply cong_of_eq. unfold mm.
        assert (PE : forall g : nat -> Z, sumf g (seq 0 m) = sumf g P).
        { intros g. unfold sumf. clear - HP. induction HP; cbn; lia. }
        rewrite PE. rewrite (sumf_nth _ P O), LP. apply sumf_ext. intros i Hi. apply in_seq in Hi. now rewrite IX by lia. }
      apply cong_trans with (mm r (trm V) L a b).
      { apply cong_of_eq. unfold mm. replace m with (r + (m - r))%nat by lia. rewrite seq_app, sumf_app, Nat.add_0_l.
        rewrite (sumf_zero _ (seq r (m - r))).
        - rewrite Z.add_0_r. apply sumf_ext. intros i Hi. apply in_seq in Hi. destruct (Nat.ltb_spec i r); [reflexivity|lia].
        - intros i Hi. apply in_seq in Hi. destruct (Nat.ltb_spec i r); [lia|]. ring. }
      specialize (V1 b a Hb Ha). eapply cong_trans; [|unfold delta; rewrite Nat.eqb_sym; exact V1].
      apply cong_of_eq. apply sumf_ext. intros i _. unfold trm. ring.
  - destruct HE as (E1 & E2 & E3 & E4 & E5). split; [exact HS|]. do 5 (split; auto).
    + intros i Hi Hz. apply (E4 i Hi). unfold U. pose proof (incr_ge c r E2 i Hi).
      destruct (Nat.leb_spec i (nth i c O)); [|lia]. rewrite Hz. apply cong_refl.
    + split.
      * intros i j Hi Hj. specialize (E5 i j Hi ltac:(lia)). unfold U in E5.
        pose proof (start_ge c r E2 i ltac:(lia)). destruct (Nat.leb_spec i j); [auto|lia].
      * intros i j Hi Hj. apply HZ; auto. pose proof (start_ge c r E2 r ltac:(lia)). lia.
Qed.

Lemma gauss_factor p m n A r M : prime p -> gauss_result p m n A r M ->
  exists c U, rfact p m n (mget A) r U /\ echelon p r n c U /\ scannable m n r c M.
Proof.
  intros Pp (HS & HR & Hr & G & G' & c & H1 & H2 & H3 & HE & HZ).
  exists c, (mget M). split; [|split]; auto.
  - exists G', G. split.
    + intros i j Hi Hj. apply cong_sym.
      apply cong_trans with (mm m G' (mget M) i j).
      { apply cong_of_eq. unfold mm. replace m with (r + (m - r))%nat by lia. rewrite seq_app, sumf_app, Nat.add_0_l.
        rewrite (sumf_zero _ (seq r (m - r))); [ring|]. intros a Ha. apply in_seq in Ha. rewrite HZ by lia. ring. }
      apply cong_trans with (mm m G' (mm m G (mget A)) i j).
      { apply mm_cong; [intros; apply cong_refl|]. intros a Ha. apply H3; auto. }
      rewrite mm_assoc. apply cong_trans with (mm m delta (mget A) i j).
      { apply mm_cong; [|intros; apply cong_refl]. intros a Ha. apply H2; auto. }
      rewrite mm_delta_l by auto. apply cong_refl.
    + intros a b Ha Hb. apply H1; lia.
  - destruct HE as (E1 & E2 & E3 & E4 & E5). split; [exact HS|]. do 5 (split; auto).
    + intros i Hi Hz. apply (E4 i Hi). rewrite Hz. apply cong_refl.
    + split; [intros; apply E5; lia|]. intros i j Hi Hj. apply HZ; lia.
Qed.

Lemma ech_factor p ech m n A : prime p -> ech_spec p ech -> shape A m n -> mreduced p A ->
  let r := fst (ech p m n A) in let M := snd (ech p m n A) in
  exists c U, rfact p m n (mget A) r U /\ echelon p r n c U /\ scannable m n r c M.
Proof.
  intros Pp [H|H] HS HR; cbv zeta; [eapply lu_factor|eapply gauss_factor]; eauto.
Qed.

(** * the scans *)
Section Scan.
  Variables (m n r : nat) (c : list nat) (M : mat).
  Hypothesis H : scannable m n r c M.

  Lemma sc_shape : shape M m n. Proof. apply H. Qed.
  Lemma sc_len : length c = r. Proof. apply H. Qed.
  Lemma sc_incr i j : (i < j < r)%nat -> (nth i c O < nth j c O)%nat. Proof. apply H. Qed.
  Lemma sc_lt i : (i < r)%nat -> (nth i c O < n)%nat. Proof. apply H. Qed.
  Lemma sc_rm : (r <= m)%nat. Proof. apply H. Qed.
  Lemma sc_nz i : (i < r)%nat -> mget M i (nth i c O) <> 0.
  Proof. destruct H as (_ & _ & _ & _ & _ & X & _). auto. Qed.
  Lemma sc_z i j : (i < r)%nat -> (start c i <= j < nth i c O)%nat -> mget M i j = 0.
  Proof. destruct H as (_ & _ & _ & _ & _ & _ & X & _). auto. Qed.
  Lemma sc_end i j : (r <= i < m)%nat -> (start c r <= j < n)%nat -> mget M i j = 0.
  Proof. destruct H as (_ & _ & _ & _ & _ & _ & _ & X). auto. Qed.

  Lemma row_at i : (i < m)%nat -> get_at M (Z.of_nat i) = OK (nth i M []) /\ length (nth i M []) = n.
  Proof.
    intros Hi. destruct sc_shape as [L F]. split.
    - apply get_at_ok. split; [lia|]. rewrite Nat2Z.id. apply nth_error_nth'. lia.
    - apply (shape_row M m n); auto using sc_shape.
  Qed.
  Lemma entry_at i j : (i < m)%nat -> (j < n)%nat -> nth_error (nth i M []) j = Some (mget M i j).
  Proof. intros Hi Hj. apply nth_error_nth'. rewrite (proj2 (row_at i Hi)). auto. Qed.

  Lemma scan_pivot_ok i : (i < r)%nat -> forall k j fuel, (start c i <= j)%nat -> (nth i c O - j = k)%nat -> (j <= nth i c O)%nat ->
    (k < fuel)%nat -> scan_pivot fuel (nth i M []) n j = OK (nth i c O).
  Proof.
    intros Hi. pose proof (sc_lt i Hi) as Hn. pose proof sc_rm as Hrm.
    induction k as [|k IH]; intros j fuel Hj Hk Hle Hf; (destruct fuel as [|fuel]; [lia|]); cbn [scan_pivot];
      rewrite entry_at by lia.
    - assert (j = nth i c O) by lia. subst j. destruct (Z.eqb_spec (mget M i (nth i c O)) 0) as [E|E]; [|reflexivity].
      exfalso. revert E. apply sc_nz. auto.
    - replace (mget M i j) with 0 by (symmetry; apply sc_z; [auto|lia]). cbn [Z.eqb andb].
      destruct (Nat.ltb_spec j n); [|lia]. apply IH; lia.
  Qed.

  Lemma pivot_scan_ok : pivot_scan M n r = OK c.
  Proof.
    unfold pivot_scan. set (step := fun st i => _).
    assert (G : forall k, (k <= r)%nat -> foldM step (seq 0 k) (O, []) = OK (start c k, firstn k c)).
    { induction k as [|k IH]; intros Hk; [reflexivity|]. rewrite seq_S, foldM_app, IH, Nat.add_0_l by lia. cbn [bind foldM].
      unfold step at 1. cbn [fst snd]. pose proof sc_rm. rewrite (proj1 (row_at k ltac:(lia))). cbn [bind].
      pose proof (sc_lt k ltac:(lia)). pose proof (start_le c r sc_incr k ltac:(lia)).
      rewrite (scan_pivot_ok k ltac:(lia) (nth k c O - start c k)) by lia. cbn [bind start]. do 2 f_equal.
      assert (Lc := sc_len). clear - Hk Lc. revert k r Hk Lc. induction c as [|x l IH]; intros k r Hk L; [cbn in L; lia|].
      destruct k as [|k]; [reflexivity|]. cbn [firstn nth app]. f_equal. apply (IH k (pred r)); cbn in L; lia. }
    rewrite G by lia. cbn [bind snd]. rewrite <- sc_len, firstn_all. reflexivity.
  Qed.

  (** indices below j that are not pivots *)
  Definition nonpiv (j : nat) : list nat := filter (fun x => negb (existsb (Nat.eqb x) c)) (seq 0 j).
  Lemma is_piv x : existsb (Nat.eqb x) c = true <-> In x c.
  Proof.
    rewrite existsb_exists. split.
    - intros (y & Hy & E). apply Nat.eqb_eq in E. now subst.
    - intros Hx. exists x. split; auto. apply Nat.eqb_refl.
  Qed.
  Lemma nonpiv_In j x : In x (nonpiv j) <-> (x < j)%nat /\ ~ In x c.
  Proof.
    unfold nonpiv. rewrite filter_In, in_seq. destruct (existsb (Nat.eqb x) c) eqn:E; cbn [negb].
    - apply is_piv in E. intuition congruence.
    - assert (~ In x c) by (rewrite <- is_piv; congruence). intuition lia.
  Qed.
  Lemma nonpiv_S_out j : ~ In j c -> nonpiv (S j) = nonpiv j ++ [j].
  Proof.
    intros Hj. unfold nonpiv. rewrite seq_S, filter_app. cbn [filter Nat.add].
    destruct (existsb (Nat.eqb j) c) eqn:E; [apply is_piv in E; contradiction|]. reflexivity.
  Qed.
  Lemma nonpiv_S_in j : In j c -> nonpiv (S j) = nonpiv j.
  Proof.
    intros Hj. unfold nonpiv. rewrite seq_S, filter_app. cbn [filter Nat.add].
    rewrite (proj2 (is_piv j) Hj). cbn [negb]. apply app_nil_r.
  Qed.
  Lemma nonpiv_mono j k : (j <= k)%nat -> (length (nonpiv j) <= length (nonpiv k))%nat.
  Proof.
    intros L. induction L as [|k L IH]; auto. destruct (in_dec Nat.eq_dec k c) as [I|I].
    - now rewrite nonpiv_S_in.
    - rewrite nonpiv_S_out by auto. rewrite app_length. lia.
  Qed.
  Lemma c_NoDup : NoDup c.
  Proof.
    apply (NoDup_nth c O). rewrite sc_len. intros i j Hi Hj E. destruct (Nat.lt_trichotomy i j) as [L|[L|L]]; auto.
    - pose proof (sc_incr i j ltac:(lia)). lia.
    - pose proof (sc_incr j i ltac:(lia)). lia.
  Qed.
  Lemma c_lt x : In x c -> (x < n)%nat.
  Proof. intros Hx. destruct (In_nth _ _ O Hx) as (i & Li & <-). apply sc_lt. rewrite <- sc_len. auto. Qed.
  Lemma nonpiv_perm : Permutation (seq 0 n) (c ++ nonpiv n).
  Proof.
    apply NoDup_Permutation; [apply seq_NoDup| |].
    - apply DRProofs.NoDup_app_intro; [apply c_NoDup|apply NoDup_filter, seq_NoDup|].
      intros x H1 H2. apply nonpiv_In in H2. tauto.
    - intros x. rewrite in_seq, in_app_iff, nonpiv_In. split.
      + intros Hx. destruct (in_dec Nat.eq_dec x c); [auto|right; split; auto; lia].
      + intros [Hx|Hx]; [apply c_lt in Hx|]; lia.
  Qed.
  Lemma nonpiv_length : length (nonpiv n) = (n - r)%nat.
  Proof.
    pose proof nonpiv_perm as P. apply Permutation_length in P. rewrite app_length, seq_length, sc_len in P. lia.
  Qed.
  Lemma push_ok j : (j < n)%nat -> ~ In j c -> push_B (n - r) (nonpiv j) j = OK (nonpiv (S j)).
  Proof.
    intros Hj Hc. unfold push_B. rewrite nonpiv_S_out by auto.
    pose proof (nonpiv_mono (S j) n ltac:(lia)) as L. rewrite nonpiv_S_out, app_length, nonpiv_length in L by auto. cbn [length] in L.
    destruct (Nat.ltb_spec (length (nonpiv j)) (n - r)); [reflexivity|lia].
  Qed.

  (** columns strictly between consecutive pivots are not pivots *)
  Lemma between i j : (i <= r)%nat -> (start c i <= j)%nat -> (i < r -> (j < nth i c O))%nat -> ~ In j c.
  Proof.
    intros Hi H1 H2 Hin. destruct (In_nth _ _ O Hin) as (k & Lk & E). rewrite sc_len in Lk.
    destruct (Nat.lt_ge_cases k i) as [L|L].
    - destruct i as [|i]; [lia|]. cbn [start] in H1. destruct (Nat.eq_dec k i) as [->|]; [lia|].
      pose proof (sc_incr k i ltac:(lia)). lia.
    - specialize (H2 ltac:(lia)). destruct (Nat.eq_dec k i) as [->|]; [lia|]. pose proof (sc_incr i k ltac:(lia)). lia.
  Qed.

  Lemma scan_zero_piv i : (i < r)%nat -> forall k j fuel, (start c i <= j)%nat -> (nth i c O - j = k)%nat -> (j <= nth i c O)%nat ->
    (k < fuel)%nat -> scan_zero fuel (nth i M []) n (n - r) (nonpiv j) j = OK (nth i c O, nonpiv (nth i c O)).
  Proof.
    intros Hi. pose proof (sc_lt i Hi) as Hn. pose proof sc_rm as Hrm.
    induction k as [|k IH]; intros j fuel Hj Hk Hle Hf; (destruct fuel as [|fuel]; [lia|]); cbn [scan_zero];
      (destruct (Nat.ltb_spec j n); [|lia]); rewrite entry_at by lia.
    - assert (j = nth i c O) by lia. subst j. destruct (Z.eqb_spec (mget M i (nth i c O)) 0) as [E|E]; [|reflexivity].
      exfalso. revert E. apply sc_nz. auto.
    - replace (mget M i j) with 0 by (symmetry; apply sc_z; [auto|lia]). cbn [Z.eqb].
      rewrite push_ok; [|lia|apply (between i); lia]. cbn [bind]. apply IH; lia.
  Qed.
  Lemma scan_zero_end i : (r <= i < m)%nat -> forall k j fuel, (start c r <= j)%nat -> (n - j = k)%nat -> (j <= n)%nat ->
    (k < fuel)%nat -> scan_zero fuel (nth i M []) n (n - r) (nonpiv j) j = OK (n, nonpiv n).
  Proof.
    intros Hi. induction k as [|k IH]; intros j fuel Hj Hk Hle Hf; (destruct fuel as [|fuel]; [lia|]); cbn [scan_zero].
    - assert (j = n) by lia. subst j. rewrite Nat.ltb_irrefl. reflexivity.
    - destruct (Nat.ltb_spec j n); [|lia]. rewrite entry_at by lia.
      replace (mget M i j) with 0 by (symmetry; apply sc_end; lia). cbn [Z.eqb].
      rewrite push_ok; [|lia|apply (between r); lia]. cbn [bind]. apply IH; lia.
  Qed.

  Lemma B_scan_ok : B_scan M n m r = OK (nonpiv n).
  Proof.
    unfold B_scan. set (step := fun st i => _). pose proof sc_rm as Hrm.
    assert (G : forall k, (k <= r)%nat -> foldM step (seq 0 k) (O, []) = OK (start c k, nonpiv (start c k))).
    { induction k as [|k IH]; intros Hk; [reflexivity|]. rewrite seq_S, foldM_app, IH, Nat.add_0_l by lia. cbn [bind foldM].
      unfold step at 1. cbn [fst snd]. rewrite (proj1 (row_at k ltac:(lia))). cbn [bind].
      pose proof (sc_lt k ltac:(lia)). pose proof (start_le c r sc_incr k ltac:(lia)).
      rewrite (scan_zero_piv k ltac:(lia) (nth k c O - start c k)) by lia. cbn [bind start fst snd]. do 2 f_equal.
      symmetry. apply nonpiv_S_in. apply nth_In. rewrite sc_len. lia. }
    assert (Sn : (start c r <= n)%nat).
    { destruct (Nat.eq_dec r 0) as [E|E]; [rewrite E; cbn [start]; lia|]. rewrite start_pos by auto.
      pose proof (sc_lt (pred r) ltac:(lia)). lia. }
    destruct (Nat.eq_dec r m) as [E|N].
    - rewrite <- E, G by lia. cbn [bind fst snd].
      assert (F : forall k j, (n - j = k)%nat -> (start c r <= j <= n)%nat -> foldM (push_B (n - r)) (seq j k) (nonpiv j) = OK (nonpiv n)).
      { induction k as [|k IH]; intros j Hk Hj; cbn [seq foldM]; [replace j with n by lia; reflexivity|].
        rewrite push_ok; [|lia|apply (between r); lia]. cbn [bind]. apply IH; lia. }
      rewrite F by lia. cbn [bind]. rewrite nonpiv_length, Nat.sub_diag. cbn [repeat]. now rewrite app_nil_r.
    - assert (G2 : forall k, (r < k <= m)%nat -> exists j, (n < j)%nat /\ foldM step (seq 0 k) (O, []) = OK (j, nonpiv n)).
      { induction k as [|k IH]; intros Hk; [lia|]. rewrite seq_S, foldM_app, Nat.add_0_l.
        destruct (Nat.eq_dec k r) as [->|Nk].
        - rewrite G by lia. cbn [bind foldM]. unfold step at 1. cbn [fst snd]. rewrite (proj1 (row_at r ltac:(lia))). cbn [bind].
          rewrite (scan_zero_end r ltac:(lia) (n - start c r)) by lia. cbn [bind fst snd]. exists (S n). split; [lia|reflexivity].
        - destruct IH as (j & Hj & E); [lia|]. rewrite E. cbn [bind foldM]. unfold step at 1. cbn [fst snd].
          rewrite (proj1 (row_at k ltac:(lia))). cbn [bind]. rewrite Nat.add_1_r. cbn [scan_zero].
          destruct (Nat.ltb_spec j n); [lia|]. cbn [bind fst snd]. exists (S j). split; [lia|reflexivity]. }
      destruct (G2 m ltac:(lia)) as (j & Hj & E). rewrite E. cbn [bind fst snd]. replace (n - j)%nat with 0%nat by lia. cbn [seq foldM bind].
      rewrite nonpiv_length, Nat.sub_diag. cbn [repeat]. now rewrite app_nil_r.
  Qed.
End Scan.

(** the list of non-pivots is increasing *)
Lemma filter_seq_sorted (g : nat -> bool) n : forall a i j, (i < j < length (filter g (seq a n)))%nat ->
  (nth i (filter g (seq a n)) O < nth j (filter g (seq a n)) O)%nat.
Proof.
  induction n as [|n IH]; intros a i j Hij; cbn [seq filter] in *; [cbn in Hij; lia|].
  destruct (g a); [|apply IH; auto]. cbn [length] in Hij. destruct j as [|j]; [lia|]. destruct i as [|i]; cbn [nth].
  - assert (In (nth j (filter g (seq (S a) n)) O) (filter g (seq (S a) n))) as I by (apply nth_In; lia).
    apply filter_In in I. destruct I as [I _]. apply in_seq in I. lia.
  - apply IH. lia.
Qed.

Lemma map_nth_seq (l : list nat) : map (fun i => nth i l O) (seq 0 (length l)) = l.
Proof.
  induction l as [|x l IH]; [reflexivity|]. cbn [length seq map nth]. f_equal. rewrite <- seq_shift, map_map. exact IH.
Qed.
Lemma seq_off a k : seq a k = map (fun i => a + i)%nat (seq 0 k).
Proof.
  revert a. induction k as [|k IH]; intros a; [reflexivity|]. cbn [seq map]. f_equal; [lia|].
  rewrite (IH (S a)), (IH 1%nat), map_map. apply map_ext. intros; lia.
Qed.

Lemma put_rows (pos : nat -> nat) (rows : nat -> list Z) l : forall U0, (forall i, In i l -> (pos i < length U0)%nat) -> NoDup (map pos l) ->
  exists U, foldM (fun U i => put_row U (pos i) (rows i)) l U0 = OK U /\ length U = length U0 /\
    (forall i, In i l -> nth (pos i) U [] = rows i) /\ (forall a, ~ In a (map pos l) -> nth a U [] = nth a U0 []).
Proof.
  induction l as [|i l IH]; intros U0 HL ND; [exists U0; cbn; repeat split; auto; contradiction|].
  cbn [foldM]. cbv beta. unfold put_row at 1. destruct (Nat.ltb_spec (pos i) (length U0)) as [L|L]; [|specialize (HL i (or_introl eq_refl)); lia].
  cbn [bind]. cbn [map] in ND. inversion ND as [|? ? N1 N2]; subst.
  destruct (IH (upd U0 (pos i) (rows i))) as (U & E & L1 & E1 & E2); auto.
  { intros k Hk. rewrite upd_length. apply HL. now right. }
  exists U. rewrite upd_length in L1. split; [exact E|]. split; [exact L1|]. split.
  - intros k [<-|Hk]; auto. rewrite E2 by auto. now apply nth_upd_eq.
  - intros a Ha. cbn [map] in Ha. rewrite E2 by (intros X; apply Ha; now right). apply nth_upd_neq. intros X. apply Ha. now left.
Qed.

Lemma mreduced_get p A m n i j : shape A m n -> mreduced p A -> (i < m)%nat -> (j < n)%nat -> 0 <= mget A i j < p.
Proof.
  intros HS HR Hi Hj. pose proof (shape_row A m n i HS Hi) as LR. destruct HS as [L F]. unfold mget.
  unfold mreduced in HR. rewrite Forall_forall in HR. specialize (HR (nth i A []) ltac:(apply nth_In; lia)).
  rewrite Forall_forall in HR. apply HR. apply nth_In. lia.
Qed.
Lemma mreduced_tab p m n F : (forall i j, (i < m)%nat -> (j < n)%nat -> 0 <= F i j < p) -> mreduced p (tab m n F).
Proof.
  intros H. apply Forall_forall. intros row Hr. unfold tab in Hr. apply in_map_iff in Hr. destruct Hr as (i & <- & Hi).
  apply in_seq in Hi. apply Forall_forall. intros x Hx. apply in_map_iff in Hx. destruct Hx as (j & <- & Hj).
  apply in_seq in Hj. apply H; lia.
Qed.
Lemma mreduced_transpose p m n A : shape A m n -> mreduced p A -> mreduced p (transpose m n A).
Proof.
  intros HS HR. apply (mreduced_tab p n m (fun j i => mget A i j)). intros i j Hi Hj. eapply mreduced_get; eauto.
Qed.
Lemma reduce_mat_shape q T m n : shape T m n -> shape (reduce_mat q T) m n.
Proof.
  intros [L F]. split; [unfold reduce_mat; now rewrite map_length|]. unfold reduce_mat. apply Forall_forall. intros x Hx.
  apply in_map_iff in Hx. destruct Hx as (r & <- & Hr). rewrite map_length. rewrite Forall_forall in F. auto.
Qed.
Lemma reduce_mat_get q T i j : mget (reduce_mat q T) i j = mget T i j mod q.
Proof.
  unfold mget, reduce_mat. change (@nil Z) with (map (fun x => x mod q) []) at 1. rewrite map_nth.
  transitivity (nth j (map (fun x => x mod q) (nth i T [])) (0 mod q)); [now rewrite Zmod_0_l|]. apply (map_nth (fun x => x mod q)).
Qed.
Lemma reduce_mat_reduced q T : 0 < q -> mreduced q (reduce_mat q T).
Proof.
  intros Hq. unfold reduce_mat. apply Forall_forall. intros x Hx. apply in_map_iff in Hx. destruct Hx as (r & <- & Hr).
  apply Forall_forall. intros y Hy. apply in_map_iff in Hy. destruct Hy as (z & <- & _). apply Z.mod_pos_bound. auto.
Qed.

(** * the solver over F_p *)
Section Fp.
  Variables (p : Z) (ech : ech_fun) (inv : inv_fun) (rc : bool) (T : mat) (m n : nat).
  Hypothesis Pp : prime p.
  Hypothesis HE : ech_spec p ech.
  Hypothesis HI : inv_spec p inv.
  Hypothesis HS : shape T m n.
  Hypothesis HR : mreduced p T.

  Lemma solve_zz_p_ok : exists B U, solve_zz_p ech inv rc p n T = OK (B, U) /\
    solves p m n (mget T) B (mget U) /\ shape U (n + length B) m /\ mreduced p U /\ independent p m n (mget T) B.
  Proof.
    assert (P2 : 2 <= p) by (apply prime_ge_2; auto).
    assert (Lm : length T = m) by apply HS.
    unfold solve_zz_p. rewrite Lm. destruct (Nat.eqb_spec n 0) as [->|Nn].
    { eexists. eexists. split; [reflexivity|]. rewrite seq_length, Nat.add_0_l. split; [|split; [apply tab_shape|split]].
      - split; [|split].
        + intros i j. rewrite seq_length. intros Hij. rewrite !seq_nth by lia. lia.
        + intros b Hb. apply in_seq in Hb. lia.
        + intros i j Hi Hj. cbn [seq]. rewrite sumf_nil, seq_length. rewrite (sumf_seq_single _ 0 m i); [|lia|].
          * rewrite seq_nth by auto. rewrite Nat.eqb_refl, Nat.add_0_l, tab_get by auto. apply cong_refl.
          * intros k Hk Nk. rewrite seq_nth by lia. rewrite Nat.add_0_l. destruct (Nat.eqb_spec k i); [lia|auto].
      - apply mreduced_tab. intros i j _ _. destruct (Nat.eqb i j); lia.
      - intros x b HX k Hk. rewrite seq_length in Hk, HX. specialize (HX k Hk). cbn [seq] in HX. rewrite sumf_nil in HX.
        apply cong_sym. eapply cong_trans; [exact HX|]. apply cong_of_eq. rewrite (sumf_seq_single _ 0 m k); [|lia|].
        + rewrite seq_nth by lia. now rewrite Nat.add_0_l, Nat.eqb_refl.
        + intros k' Hk' N. rewrite seq_nth by lia. rewrite Nat.add_0_l. destruct (Nat.eqb_spec k' k); [lia|auto]. }
    pose proof (ech_factor p ech m n T Pp HE HS HR) as F1.
    pose proof (ech_factor p ech n m (transpose m n T) Pp HE (transpose_shape m n T) (mreduced_transpose p m n T HS HR)) as F2.
    destruct (ech p m n T) as [r M]. destruct (ech p n m (transpose m n T)) as [r' M']. cbv zeta in F1, F2. cbn [fst snd] in F1, F2.
    destruct F1 as (c & V & R1 & E1 & S1). destruct F2 as (R & V' & R2 & E2 & S2).
    assert (R2' : rfact p n m (trm (mget T)) r' V').
    { destruct R2 as (L & K & A1 & A2). exists L, K. split; auto. intros i j Hi Hj. unfold trm.
      rewrite <- (transpose_get m n) by auto. auto. }
    pose proof (cross_rank p Pp m n (mget T) r V c r' V' R R1 E1 R2' E2) as Er. subst r'.
    rewrite (pivot_scan_ok _ _ _ _ _ S1). cbn [bind].
    assert (Lc : length c = r) by apply S1. rewrite Lc, Nat.eqb_refl, implb_true_r. cbn [check bind].
    rewrite (B_scan_ok _ _ _ _ _ S2). cbn [bind].
    set (B := nonpiv R m).
    assert (LB : length B = (m - r)%nat) by (eapply nonpiv_length; eauto).
    assert (Hrm : (r <= m)%nat) by apply S1. assert (Hrn : (r <= n)%nat) by apply S2.
    assert (HcN : forall i, (i < r)%nat -> (nth i c O < n)%nat) by apply E1.
    assert (NB : NoDup B) by (apply NoDup_filter, seq_NoDup).
    destruct (cross p Pp m n (mget T) r V c r V' R R1 E1 R2' E2) as (W & HW).
    destruct (complete p m (mget T) r c R B W) as (Z0 & HZ0); auto; try apply E2.
    { intros i Hi. destruct (in_dec Nat.eq_dec i R); auto. left. apply nonpiv_In. auto. }
    { intros i Hi. apply nonpiv_In in Hi. tauto. }
    set (Yf := fun j i => if Nat.leb r i && Nat.eqb (nth (i - r) B O) j then 1 else if Nat.ltb i r then mget T j (nth i c O) else 0).
    assert (HYf : forall j i, Yf j i = if Nat.ltb i r then mget T j (nth i c O) else if Nat.eqb (nth (i - r) B O) j then 1 else 0).
    { intros j i. unfold Yf. destruct (Nat.leb_spec r i), (Nat.ltb_spec i r); try lia; cbn [andb]; auto. }
    set (Y := tab m m Yf).
    destruct (HI m Y) as (Z1 & Z2 & Z3).
    { apply tab_shape. }
    { apply mreduced_tab. intros j i Hj Hi. rewrite HYf. destruct (Nat.ltb_spec i r).
      - eapply mreduced_get; eauto.
      - destruct (Nat.eqb _ j); lia. }
    { exists Z0. intros i j Hi Hj. eapply cong_trans; [|apply HZ0; auto]. apply cong_of_eq. apply sumf_ext. intros a Ha.
      apply in_seq in Ha. unfold Y. rewrite tab_get by lia. now rewrite HYf. }
    set (Zm := inv p m Y) in *.
    assert (Cinj : NoDup c) by (eapply c_NoDup; eauto).
    destruct (put_rows (fun i => nth i c O) (fun i => nth i Zm []) (seq 0 r) (mzero (n + m - r) m)) as (U1 & Q1 & Q2 & Q3 & Q4).
    { intros i Hi. apply in_seq in Hi. specialize (HcN i ltac:(lia)). rewrite (proj1 (shape_mzero _ _)). lia. }
    { rewrite <- Lc. rewrite map_nth_seq. auto. }
    rewrite Q1. cbn [bind]. rewrite (proj1 (shape_mzero _ _)) in Q2.
    destruct (put_rows (fun i => n - r + i)%nat (fun i => nth i Zm []) (seq r (m - r)) U1) as (U & Q1' & Q2' & Q3' & Q4').
    { intros i Hi. apply in_seq in Hi. lia. }
    { apply FinFun.Injective_map_NoDup; [|apply seq_NoDup]. intros a b. lia. }
    rewrite Q1'. cbn [bind]. rewrite Q2 in Q2'.
    exists B, U. split; [reflexivity|].
    (* rows of U *)
    assert (RU : forall a, (a < n + m - r)%nat ->
      (exists t, (t < r)%nat /\ a = nth t c O /\ nth a U [] = nth t Zm []) \/
      (exists k, (k < m - r)%nat /\ a = (n + k)%nat /\ nth a U [] = nth (r + k) Zm []) \/
      ((a < n)%nat /\ ~ In a c /\ nth a U [] = repeat 0 m)).
    { intros a Ha. destruct (Nat.lt_ge_cases a n) as [La|La].
      - assert (N : ~ In a (map (fun i => n - r + i)%nat (seq r (m - r)))).
        { intros X. apply in_map_iff in X. destruct X as (i & X & Hi). apply in_seq in Hi. lia. }
        destruct (in_dec Nat.eq_dec a c) as [Ic|Ic].
        + left. destruct (In_nth _ _ O Ic) as (t & Lt & <-). exists t. split; [lia|]. split; auto.
          rewrite Q4' by auto. apply Q3. apply in_seq. lia.
        + right. right. split; auto. split; auto. rewrite Q4' by auto. rewrite Q4.
          * unfold mzero. rewrite nth_repeat_any. destruct (Nat.ltb_spec a (n + m - r)); [auto|lia].
          * rewrite <- Lc, map_nth_seq. auto.
      - right. left. exists (a - n)%nat. split; [lia|]. split; [lia|].
        replace a with (n - r + (r + (a - n)))%nat at 1 by lia. apply Q3'. apply in_seq. lia. }
    assert (UT : forall t j, (t < r)%nat -> mget U (nth t c O) j = mget Zm t j).
    { intros t j Ht. unfold mget. rewrite Q4'.
      - rewrite Q3; auto. apply in_seq. lia.
      - intros X. apply in_map_iff in X. destruct X as (i & X & Hi). apply in_seq in Hi. specialize (HcN t Ht). lia. }
    assert (UB : forall k j, (k < m - r)%nat -> mget U (n + k) j = mget Zm (r + k) j).
    { intros k j Hk. unfold mget. replace (n + k)%nat with (n - r + (r + k))%nat by lia. rewrite Q3'; auto. apply in_seq. lia. }
    assert (UN : forall a j, (a < n)%nat -> ~ In a c -> mget U a j = 0).
    { intros a j Ha Nc. destruct (RU a ltac:(lia)) as [(t & Ht & -> & _)|[(k & Hk & -> & _)|(_ & _ & X)]]; [|lia|].
      - exfalso. apply Nc. apply nth_In. lia.
      - unfold mget. rewrite X, nth_repeat_any. now destruct (Nat.ltb j m). }
    split; [|split; [|split]].
    - split; [|split].
      + intros i j Hij. apply filter_seq_sorted. auto.
      + intros b Hb. apply nonpiv_In in Hb. tauto.
      + intros i j Hi Hj. specialize (Z3 i j Hi Hj). eapply cong_trans; [|exact Z3]. apply cong_of_eq. symmetry.
        unfold mm. replace m with (r + (m - r))%nat at 1 by lia. rewrite seq_app, sumf_app, Nat.add_0_l. f_equal.
        * assert (PS : forall g : nat -> Z, sumf g (seq 0 n) = sumf g c + sumf g (nonpiv c n)).
          { intros g. rewrite <- sumf_app. assert (PP := nonpiv_perm _ _ _ _ _ S1). clear - PP. unfold sumf. induction PP; cbn; lia. }
          rewrite PS. rewrite (sumf_zero _ (nonpiv c n)).
          2:{ intros a Ha. apply nonpiv_In in Ha. rewrite UN by tauto. ring. }
          rewrite Z.add_0_r, (sumf_nth _ c O), Lc. apply sumf_ext. intros t Ht. apply in_seq in Ht.
          rewrite UT by lia. unfold Y. rewrite tab_get by lia. rewrite HYf. destruct (Nat.ltb_spec t r); [auto|lia].
        * rewrite LB. assert (G : forall (g h : nat -> Z) k0, (forall k, (k < k0)%nat -> g (r + k)%nat = h k) -> sumf g (seq r k0) = sumf h (seq 0 k0)).
          { intros g h k0 G. rewrite seq_off, sumf_map. apply sumf_ext. intros a Ha. apply in_seq in Ha. apply G. lia. }
          apply G. intros k Hk. rewrite UB by auto. unfold Y. rewrite tab_get by lia. rewrite HYf.
          destruct (Nat.ltb_spec (r + k) r); [lia|]. replace (r + k - r)%nat with k by lia. destruct (Nat.eqb _ i); ring.
    - rewrite LB. split; [lia|]. apply Forall_forall. intros row Hrow. destruct (In_nth _ _ [] Hrow) as (a & La & <-).
      destruct (RU a ltac:(lia)) as [(t & Ht & _ & ->)|[(k & Hk & _ & ->)|(_ & _ & ->)]].
      + apply (shape_row Zm m m); auto. lia.
      + apply (shape_row Zm m m); auto. lia.
      + apply repeat_length.
    - apply Forall_forall. intros row Hrow. destruct (In_nth _ _ [] Hrow) as (a & La & <-). unfold mreduced in Z2.
      rewrite Forall_forall in Z2. destruct (RU a ltac:(lia)) as [(t & Ht & _ & ->)|[(k & Hk & _ & ->)|(_ & _ & ->)]].
      + apply Z2, nth_In. destruct Z1. lia.
      + apply Z2, nth_In. destruct Z1. lia.
      + apply Forall_forall. intros x Hx. apply repeat_spec in Hx. lia.
    - intros x b HX. eapply (indep_rows p Pp); eauto. intros i Hi. now apply nonpiv_In in Hi.
  Qed.
End Fp.

(** * lifting *)
Lemma ext_solves q m n T B U : mmeq q m m (mm (n + length B) (mget (extended m n T B)) U) delta <->
  (forall i j, (i < m)%nat -> (j < m)%nat ->
    cong q (sumf (fun k => mget T i k * U k j) (seq 0 n) +
            sumf (fun k => if Nat.eqb (nth k B O) i then U (n + k)%nat j else 0) (seq 0 (length B)))
           (if Nat.eqb i j then 1 else 0)).
Proof.
  assert (G : forall i j, (i < m)%nat -> mm (n + length B) (mget (extended m n T B)) U i j =
    sumf (fun k => mget T i k * U k j) (seq 0 n) +
    sumf (fun k => if Nat.eqb (nth k B O) i then U (n + k)%nat j else 0) (seq 0 (length B))).
  { intros i j Hi. unfold mm. rewrite seq_app, sumf_app, Nat.add_0_l. f_equal.
    - apply sumf_ext. intros a Ha. apply in_seq in Ha. unfold extended. rewrite tab_get by lia.
      destruct (Nat.ltb_spec a n); [auto|lia].
    - rewrite seq_off, sumf_map. apply sumf_ext. intros k Hk. apply in_seq in Hk. unfold extended. rewrite tab_get by lia.
      destruct (Nat.ltb_spec (n + k) n); [lia|]. replace (n + k - n)%nat with k by lia. destruct (Nat.eqb _ i); ring. }
  unfold mmeq, delta. split; intros H i j Hi Hj; specialize (H i j Hi Hj); [rewrite <- G by auto|rewrite G by auto]; exact H.
Qed.

Lemma cong_mod_any q a : cong q (a mod q) a.
Proof.
  destruct (Z.eq_dec q 0) as [->|N]; [rewrite Zmod_0_r; apply cong_refl|].
  exists (- (a / q)). pose proof (Z.div_mod a q N). lia.
Qed.
Lemma cong_div D q a b : (D | q) -> cong q a b -> cong D a b.
Proof. intros H1 H2. eapply Z.divide_trans; eauto. Qed.

Lemma newton_entry q m k X U i j : (i < k)%nat -> (j < m)%nat ->
  cong q (mget (newton q m k X U) i j) (2 * mget U i j - mm m (mget U) (mm k (mget X) (mget U)) i j).
Proof.
  intros Hi Hj. unfold newton. rewrite tab_get by auto. eapply cong_trans; [apply cong_mod_any|]. rewrite !tab_get by auto.
  apply cong_sub.
  - eapply cong_trans; [apply cong_mod_any|]. apply cong_of_eq. ring.
  - eapply cong_trans; [apply cong_mod_any|]. apply cong_eq_sumf. intros a Ha. apply in_seq in Ha.
    rewrite tab_get by lia. apply cong_mul; [apply cong_refl|]. apply cong_mod_any.
Qed.
Lemma newton_ok q D P m k X U : (D | q) -> (D | P * P) -> mmeq P m m (mm k (mget X) (mget U)) delta ->
  mmeq D m m (mm k (mget X) (mget (newton q m k X U))) delta.
Proof.
  intros H1 H2 H i j Hi Hj.
  apply cong_trans with (mm k (mget X) (fun i j => 2 * mget U i j - mm m (mget U) (mm k (mget X) (mget U)) i j) i j).
  - apply mm_cong; [intros; apply cong_refl|]. intros a Ha. apply cong_div with q; auto. now apply newton_entry.
  - apply cong_div with (P * P); auto. now apply newton_step.
Qed.

Lemma pow_div p a b : 0 <= a <= b -> (p ^ a | p ^ b).
Proof. intros H. exists (p ^ (b - a)). rewrite <- Z.pow_add_r by lia. f_equal. lia. Qed.

Section Lift.
  Variables (p prec : Z) (m k : nat) (X : mat).
  Hypothesis P2 : 2 <= p.
  Hypothesis HP : 1 <= prec.
  Let q := p ^ prec.


  Lemma lift_loop_ok fuel : forall j U, 1 <= j -> prec - j <= Z.of_nat fuel ->
    mmeq (p ^ Z.min j prec) m m (mm k (mget X) (mget U)) delta ->
    exists U', lift_loop fuel q m k X prec j U = OK U' /\ mmeq q m m (mm k (mget X) (mget U')) delta.
  Proof.
    induction fuel as [|fuel IH]; intros j U Hj Hf HU; cbn [lift_loop]; destruct (Z.ltb_spec j prec) as [L|L]; try lia.
    - exists U. split; auto. unfold q. replace prec with (Z.min j prec) by lia. auto.
    - apply IH; [lia|lia|]. apply newton_ok with (P := p ^ Z.min j prec); auto.
      + apply pow_div. lia.
      + rewrite <- Z.pow_add_r by lia. apply pow_div. lia.
    - exists U. split; auto. unfold q. replace prec with (Z.min j prec) by lia. auto.
  Qed.

  Lemma lift_loop_Z_ok fuel : forall j U, 1 <= j -> prec - j <= Z.of_nat fuel ->
    mmeq (p ^ j) m m (mm k (mget X) (mget U)) delta ->
    exists U', lift_loop_Z fuel m k X prec j (p ^ j) U = OK U' /\ mmeq q m m (mm k (mget X) (mget U')) delta.
  Proof.
    assert (Done : forall j U, prec <= j -> mmeq (p ^ j) m m (mm k (mget X) (mget U)) delta -> mmeq q m m (mm k (mget X) (mget U)) delta).
    { intros j U Hj HU a b Ha Hb. apply cong_div with (p ^ j); [apply pow_div; lia|]. auto. }
    induction fuel as [|fuel IH]; intros j U Hj Hf HU; cbn [lift_loop_Z]; destruct (Z.ltb_spec j prec) as [L|L]; try lia.
    - exists U. split; auto. apply (Done j); auto.
    - assert (Q : p ^ j * p ^ j = p ^ (j * 2)) by (rewrite <- Z.pow_add_r by lia; f_equal; lia).
      assert (HN : mmeq (p ^ (j * 2)) m m (mm k (mget X) (mget (newton 0 m k X U))) delta).
      { apply newton_ok with (P := p ^ j); auto. apply Z.divide_0_r. rewrite Q. apply Z.divide_refl. }
      destruct (Z.ltb_spec (j * 2) prec) as [L2|L2].
      + rewrite Q. apply IH; [lia|lia|]. intros a b Ha Hb. eapply cong_trans; [|apply HN; auto]. apply mm_cong; [intros; apply cong_refl|].
        intros c Hc. rewrite reduce_mat_get. apply cong_mod_any.
      + exists (newton 0 m k X U). split; [|apply (Done (j * 2)); auto].
        destruct fuel; cbn [lift_loop_Z]; destruct (Z.ltb_spec (j * 2) prec); auto; lia.
    - exists U. split; auto. apply (Done j); auto.
  Qed.
End Lift.

Section Padic.
  Variables (p prec : Z) (lu : ech_fun) (inv : inv_fun).
  Let q := p ^ prec.
  Hypothesis Pp : prime p.
  Hypothesis Hprec : 1 <= prec.
  Hypothesis HE : ech_spec p lu.
  Hypothesis HI : inv_spec p inv.

  Lemma q2 : 2 <= q.
  Proof.
    apply prime_ge_2 in Pp. unfold q. replace prec with (1 + (prec - 1)) by lia. rewrite Z.pow_add_r, Z.pow_1_r by lia.
    assert (0 < p ^ (prec - 1)) by (apply Z.pow_pos_nonneg; lia). nia.
  Qed.

  Lemma conv_mat_mm k m X U : mmeq q m m (mm k X (mget U)) delta -> mmeq q m m (mm k X (mget (conv_mat q k m U))) delta.
  Proof.
    intros H i j Hi Hj. eapply cong_trans; [|apply H; auto]. apply mm_cong; [intros; apply cong_refl|]. intros a Ha.
    unfold conv_mat. rewrite tab_get by auto. apply cong_mod_any.
  Qed.
  Lemma conv_mat_reduced k m U : mreduced q (conv_mat q k m U).
  Proof. apply mreduced_tab. intros. apply Z.mod_pos_bound. pose proof q2. lia. Qed.

  Lemma newton_shape m k X U : shape (newton q m k X U) k m /\ mreduced q (newton q m k X U).
  Proof.
    split; [apply tab_shape|]. apply mreduced_tab. intros. apply Z.mod_pos_bound. pose proof q2. lia.
  Qed.
  Lemma lift_loop_shape m k X fuel : forall j U U', shape U k m -> mreduced q U -> lift_loop fuel q m k X prec j U = OK U' ->
    shape U' k m /\ mreduced q U'.
  Proof.
    induction fuel as [|fuel IH]; intros j U U' H1 H2; cbn [lift_loop]; destruct (j <? prec); try discriminate;
      try (intros [= <-]; auto). apply IH; apply newton_shape.
  Qed.

  Lemma solve_padic_ok flint U0 m n T : shape T m n -> (n = O -> U0 = []) ->
    exists B U, solve_padic lu inv p q prec flint U0 n T = OK (B, U) /\
      (exists U', solve_zz_p lu inv true p n (reduce_mat p T) = OK (B, U')) /\
      solves q m n (mget T) B (mget U) /\ shape U (n + length B) m /\ mreduced q U.
  Proof.
    intros HS HU0. pose proof (prime_ge_2 p Pp) as P2. pose proof q2 as Q2. assert (Lm : length T = m) by apply HS.
    destruct (solve_zz_p_ok p lu inv true (reduce_mat p T) m n Pp HE HI (reduce_mat_shape p T m n HS) (reduce_mat_reduced p T ltac:(lia)))
      as (B & U & E & (S1 & S2 & S3) & SU & RU & _).
    destruct (Nat.eq_dec n 0) as [->|Nn].
    { exists (seq 0 m), (tab m m (fun i j => if Nat.eqb i j then 1 else 0)). 
      split; [|split].
      - unfold solve_padic, solve_padic_flint, solve_padic_NTL. cbn [Nat.eqb]. rewrite Lm. rewrite HU0 by auto. unfold set_dims_diag.
        assert (X : tab m m (fun i j => if Nat.eqb i j then 1 else if Nat.eqb (length (nth 0 (@nil (list Z)) [])) m then mget [] i j else 0)
          = tab m m (fun i j => if Nat.eqb i j then 1 else 0)).
        { unfold tab. apply map_ext. intros i. apply map_ext. intros j. destruct (Nat.eqb i j); auto. destruct (Nat.eqb _ m); auto.
          unfold mget. destruct i; destruct j; reflexivity. }
        destruct flint; rewrite X; reflexivity.
      - unfold solve_zz_p. cbn [Nat.eqb]. unfold reduce_mat. rewrite map_length, Lm. eexists. reflexivity.
      - rewrite seq_length, Nat.add_0_l. split; [|split; [apply tab_shape|]].
        + split; [|split].
          * intros i j. rewrite seq_length. intros Hij. rewrite !seq_nth by lia. lia.
          * intros b Hb. apply in_seq in Hb. lia.
          * intros i j Hi Hj. cbn [seq]. rewrite sumf_nil, seq_length. rewrite (sumf_seq_single _ 0 m i); [|lia|].
            -- rewrite seq_nth by auto. rewrite Nat.eqb_refl, Nat.add_0_l, tab_get by auto. apply cong_refl.
            -- intros k Hk Nk. rewrite seq_nth by lia. rewrite Nat.add_0_l. destruct (Nat.eqb_spec k i); [lia|auto].
        + apply mreduced_tab. intros i j _ _. destruct (Nat.eqb i j); lia. }
    (* the solution modulo p *)
    assert (HM : mmeq p m m (mm (n + length B) (mget (extended m n T B)) (mget U)) delta).
    { apply ext_solves. intros i j Hi Hj. eapply cong_trans; [|apply S3; auto]. apply cong_add; [|apply cong_refl].
      apply cong_eq_sumf. intros a Ha. apply cong_mul; [|apply cong_refl]. rewrite reduce_mat_get. apply cong_sym, cong_mod_any. }
    assert (Out : forall U', mmeq q m m (mm (n + length B) (mget (extended m n T B)) (mget U')) delta ->
      solves q m n (mget T) B (mget U')).
    { intros U' H. split; [exact S1|]. split; [exact S2|]. apply ext_solves. exact H. }
    set (k := (n + length B)%nat) in *. set (X := extended m n T B) in *.
    assert (p1 : mmeq (p ^ Z.min 1 prec) m m (mm k (mget X) (mget U)) delta).
    { replace (Z.min 1 prec) with 1 by lia. rewrite Z.pow_1_r. exact HM. }
    destruct flint; unfold solve_padic, solve_padic_flint, solve_padic_NTL; rewrite Lm, E;
      (destruct (Nat.eqb_spec n 0) as [|_]; [lia|]); cbn [bind fst snd]; fold k; fold X.
    - destruct (q mod 2 ^ 64 =? q).
      + destruct (lift_loop_ok p prec m k X P2 Hprec (Z.to_nat prec) 1 U) as (U' & EL & HL); [lia|lia|exact p1|]. fold q in EL, HL.
        rewrite EL. cbn [bind]. exists B, (conv_mat q k m U'). split; [reflexivity|]. split; [eauto|].
        split; [apply Out; now apply conv_mat_mm|]. split; [apply tab_shape|apply conv_mat_reduced].
      + destruct (lift_loop_Z_ok p prec m k X P2 Hprec (Z.to_nat prec) 1 U) as (U' & EL & HL); [lia|lia|rewrite Z.pow_1_r; exact HM|].
        fold q in HL. rewrite Z.pow_1_r in EL.
        rewrite EL. cbn [bind]. exists B, (conv_mat q k m U'). split; [reflexivity|]. split; [eauto|].
        split; [apply Out; now apply conv_mat_mm|]. split; [apply tab_shape|apply conv_mat_reduced].
    - assert (p1' : mmeq (p ^ Z.min 1 prec) m m (mm k (mget X) (mget (conv_mat q k m U))) delta).
      { intros i j Hi Hj. eapply cong_trans; [|apply p1; auto]. apply mm_cong; [intros; apply cong_refl|]. intros a Ha.
        unfold conv_mat. rewrite tab_get by auto. apply cong_div with q; [|apply cong_mod_any]. apply pow_div; lia. }
      destruct (lift_loop_ok p prec m k X P2 Hprec (Z.to_nat prec) 1 (conv_mat q k m U)) as (U' & EL & HL); [lia|lia|exact p1'|]. fold q in EL, HL.
      rewrite EL. cbn [bind]. exists B, U'. split; [reflexivity|]. split; [eauto|]. split; [now apply Out|].
      eapply lift_loop_shape; [| |exact EL]; [apply tab_shape|apply conv_mat_reduced].
  Qed.

  Lemma padic_solver_ok : solver_ok q (padic_solver lu inv p q prec).
  Proof.
    intros r nc T B U HS H. destruct (solve_padic_ok true [] r nc T HS ltac:(auto)) as (B' & U' & E & _ & H1 & H2 & _).
    unfold padic_solver in H. rewrite E in H. injection H as <- <-. auto.
  Qed.
  Lemma padic_solver_reduced : SaveProofs.solver_reduced q (padic_solver lu inv p q prec).
  Proof.
    pose proof q2 as Q2. assert (RR : forall k m U, Forall (Forall (fun x => x mod q = x)) (conv_mat q k m U) /\ exists l, Forall (fun r => length r = l) (conv_mat q k m U)).
    { intros k m U. split.
      - eapply Forall_impl; [|apply conv_mat_reduced]. intros row Hr. eapply Forall_impl; [|exact Hr]. intros x Hx. now apply Z.mod_small.
      - exists m. apply tab_shape. }
    intros nc T B U. unfold padic_solver, solve_padic, solve_padic_flint. destruct (Nat.eqb nc 0).
    - intros [= <- <-]. unfold set_dims_diag. split; [|exists (length T); apply tab_shape].
      set (F := fun i j => _). assert (mreduced q (tab (length T) (length T) F)) as RF.
      { apply mreduced_tab. intros i j _ _. unfold F. destruct (Nat.eqb i j); [lia|]. destruct (Nat.eqb _ _); [|lia].
        unfold mget. destruct i; destruct j; cbn; lia. }
      eapply Forall_impl; [|exact RF]. intros row Hr. eapply Forall_impl; [|exact Hr]. intros x Hx. now apply Z.mod_small.
    - intros H. apply bind_ok in H. destruct H as ([B' U'] & _ & H). cbn [fst snd] in H. destruct (q mod 2 ^ 64 =? q);
        apply bind_ok in H; destruct H as (U2 & _ & [= <- <-]); apply RR.
  Qed.
End Padic.
