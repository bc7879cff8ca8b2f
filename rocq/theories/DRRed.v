(** Proofs: reduction steps preserve the class (C20, C21). *)
From Coq Require Import ZArith List Lia Bool.
From Verif Require Import Base VecModel VecSpec VecProofs ToolsModel ToolsSpec ToolsProofs PolyProofs
  MatModel MatProofs DRModel DRSpec DRProofs.
Import ListNotations.
Open Scope Z_scope.

(** the contract of the linear solver, established for the modelled solver in
    SolveProofs.v *)
Definition solver_ok (q : Z) (slv : solver) : Prop :=
  forall r nc T B U, shape T r nc -> slv nc T = OK (B, U) ->
    solves q r nc (mget T) B (mget U) /\ shape U (nc + length B) r.

(** * applying updates to a vector of matrices *)
Definition ups3_ok (K g h : nat) (ups : list (nat * (nat * nat * Z))) : Prop :=
  forall k r c x, In (k, (r, c, x)) ups -> (k < K)%nat /\ (r < g)%nat /\ (c < h)%nat.

Definition wsum3 (Ms : list mat) (K g h : nat) (w : nat -> nat -> nat -> Z) : Z :=
  sumf (fun k => wsum (nth k Ms []) g h (w k)) (seq 0 K).

Definition shape3 (Ms : list mat) (K g h : nat) : Prop :=
  length Ms = K /\ forall k, (k < K)%nat -> shape (nth k Ms []) g h.

Lemma apply_ups_ok q ups K g h : forall Ms, shape3 Ms K g h -> ups3_ok K g h ups ->
  shape3 (apply_ups q ups Ms) K g h /\
  forall w, cong q (wsum3 (apply_ups q ups Ms) K g h w)
    (wsum3 Ms K g h w + sumf (fun u => w (fst u) (fst (fst (snd u))) (snd (fst (snd u))) * snd (snd u)) ups).
Proof.
  induction ups as [|[k [[r c] x]] ups IH]; intros Ms HM Hu.
  - simpl. split; auto. intros w. rewrite sumf_nil. apply cong_of_eq. lia.
  - destruct (Hu k r c x) as (Hk & Hr & Hc); [now left|].
    assert (Hu' : ups3_ok K g h ups) by (intros k' r' c' x' H; apply (Hu k' r' c' x'); now right).
    assert (HM' : shape3 (upd Ms k (madd_at q (nth k Ms []) r c x)) K g h).
    { destruct HM as [L S]. split; [now rewrite upd_length|]. intros k' Hk'.
      rewrite nth_upd. destruct (Nat.eqb_spec k k') as [->|]; auto.
      destruct (Nat.ltb_spec k' (length Ms)); [|lia]. apply shape_mset; auto. }
    cbn [apply_ups fold_left]. change (fold_left _ ups ?X) with (apply_ups q ups X).
    destruct (IH _ HM' Hu') as [I1 I2]. split; auto. intros w. rewrite I2. rewrite sumf_cons. cbn [fst snd].
    destruct HM as [L S].
    assert (E : cong q (wsum3 (upd Ms k (madd_at q (nth k Ms []) r c x)) K g h w) (wsum3 Ms K g h w + w k r c * x)).
    { unfold wsum3.
      rewrite (sumf_seq_change _ (fun k => wsum (nth k Ms []) g h (w k)) 0 K k); [|lia|].
      - rewrite nth_upd_eq by lia. unfold madd_at. rewrite (wsum_mset (nth k Ms []) g h) by auto.
        assert (E : cong q ((mget (nth k Ms []) r c + x) mod q - mget (nth k Ms []) r c) x).
        { rewrite cong_mod. apply cong_of_eq. lia. }
        rewrite E. apply cong_of_eq. lia.
      - intros k' _ Hk'. rewrite nth_upd_neq by auto. reflexivity. }
    rewrite E. apply cong_of_eq. lia.
Qed.

Lemma shape3_zero K g h : shape3 (repeat (mzero g h) K) K g h.
Proof.
  split; [apply repeat_length|]. intros k Hk. rewrite nth_repeat_any.
  apply Nat.ltb_lt in Hk. rewrite Hk. apply shape_mzero.
Qed.

Lemma wsum3_zero K g h w : wsum3 (repeat (mzero g h) K) K g h w = 0.
Proof.
  unfold wsum3. apply sumf_zero. intros k Hk. apply in_seq in Hk. rewrite nth_repeat_any.
  destruct (Nat.ltb_spec k K); [|lia]. apply wsum_mzero.
Qed.

Lemma red_range_ok n g ups : red_range n g ups = true <-> ups3_ok (S (S n)) g g ups.
Proof.
  unfold red_range, ups3_ok. rewrite forallb_forall. split.
  - intros H k r c x Hin. specialize (H _ Hin). cbn [fst snd] in H.
    rewrite !andb_true_iff, !Nat.ltb_lt in H. tauto.
  - intros H [k [[r c] x]] Hin. cbn [fst snd]. rewrite !andb_true_iff, !Nat.ltb_lt.
    specialize (H k r c x Hin). tauto.
Qed.

Lemma sumf_concat {A} (f : A -> Z) l : sumf f (concat l) = sumf (fun x => sumf f x) l.
Proof. induction l; simpl; auto. rewrite sumf_app, sumf_cons. lia. Qed.

Lemma one_minus_length n i : length (one_minus n i) = S n.
Proof. unfold one_minus. now rewrite upd_length, repeat_length. Qed.
Lemma one_minus_nth n i j : (i <= n)%nat -> (j <= n)%nat ->
  nth j (one_minus n i) 0 = if Nat.eqb i j then 0 else 1.
Proof.
  intros Hi Hj. unfold one_minus. rewrite nth_upd, repeat_length, nth_repeat_any.
  destruct (Nat.eqb_spec i j) as [->|Hne].
  - destruct (Nat.ltb_spec j (S n)); [auto|lia].
  - destruct (Nat.ltb_spec j (S n)); [auto|lia].
Qed.

Lemma zsum_repeat1 k : zsum (repeat 1 k) = Z.of_nat k.
Proof. induction k; cbn [repeat zsum]; lia. Qed.

Lemma one_minus_tuple n i : (i <= n)%nat -> is_tuple (S n) (Z.of_nat n) (one_minus n i).
Proof.
  intros Hi. split; [apply one_minus_length|]. split.
  - apply nonneg_iff. rewrite one_minus_length. intros j Hj. rewrite one_minus_nth by lia.
    destruct (Nat.eqb i j); lia.
  - unfold one_minus. rewrite zsum_upd by (rewrite repeat_length; lia).
    rewrite nth_repeat_any. destruct (Nat.ltb_spec i (S n)); [|lia].
    rewrite zsum_repeat1. lia.
Qed.

Lemma tuple_vadd N d d' a b : is_tuple N d a -> is_tuple N d' b -> is_tuple N (d + d') (vadd a b).
Proof.
  intros (A1 & A2 & A3) (B1 & B2 & B3). split; [now apply vadd_length|]. split.
  - now apply nonneg_vadd.
  - rewrite zsum_vadd by congruence. lia.
Qed.

Lemma combine_seq_In {A} (l : list A) c x : In (c, x) (combine (seq 0 (length l)) l) <->
  nth_error l c = Some x.
Proof.
  enough (G : forall k, In (c, x) (combine (seq k (length l)) l) <-> (k <= c)%nat /\ nth_error l (c - k) = Some x).
  { rewrite G, Nat.sub_0_r. split; [tauto|]. intros; split; auto; lia. }
  induction l as [|y l IH]; intros k; cbn [length seq combine].
  - split; [intros []|]. intros [_ H]. destruct (c - k)%nat; discriminate.
  - simpl In. rewrite IH. split.
    + intros [H|[H1 H2]].
      * injection H as -> ->. split; auto. now rewrite Nat.sub_diag.
      * split; [lia|]. replace (c - k)%nat with (S (c - S k)) by lia. auto.
    + intros [H1 H2]. destruct (Nat.eq_dec k c) as [->|Hne].
      * left. rewrite Nat.sub_diag in H2. injection H2 as ->. auto.
      * right. split; [lia|]. replace (c - k)%nat with (S (c - S k)) in H2 by lia. auto.
Qed.

Lemma sumf_combine_seq {A} (F : nat * A -> Z) (l : list A) d :
  sumf F (combine (seq 0 (length l)) l) = sumf (fun c => F (c, nth c l d)) (seq 0 (length l)).
Proof.
  enough (G : forall k, sumf F (combine (seq k (length l)) l) = sumf (fun c => F (c, nth (c - k) l d)) (seq k (length l))).
  { rewrite G. apply sumf_ext. intros c _. now rewrite Nat.sub_0_r. }
  induction l as [|y l IH]; intros k; cbn [length seq combine]; auto.
  rewrite !sumf_cons, IH, Nat.sub_diag. cbn [nth]. f_equal. apply sumf_ext. intros c Hc.
  apply in_seq in Hc. now replace (c - k)%nat with (S (c - S k)) by lia.
Qed.

Lemma sumf_prod_seq (F : nat -> Z) N L :
  sumf F (seq 0 (N * L)) = sumf (fun ik => F (fst ik * L + snd ik)%nat) (list_prod (seq 0 N) (seq 0 L)).
Proof.
  symmetry. induction N as [|N IH]; [reflexivity|].
  rewrite seq_S. cbn [Nat.add].
  assert (LP : forall (l1 l2 : list nat) (l : list nat), list_prod (l1 ++ l2) l = list_prod l1 l ++ list_prod l2 l).
  { induction l1; intros; simpl; auto. now rewrite IHl1, app_assoc. }
  rewrite LP, sumf_app, IH. replace (S N * L)%nat with (N * L + L)%nat by lia.
  rewrite seq_app, sumf_app. f_equal. cbn [list_prod]. rewrite app_nil_r, sumf_map. cbn [fst snd].
  cbn [Nat.add]. generalize (N * L)%nat as b. clear. intros b.
  enough (G : forall k, sumf (fun x => F (b + x)%nat) (seq k L) = sumf F (seq (b + k) L)) by (rewrite G; f_equal; f_equal; lia).
  induction L as [|L IH]; intros k; [reflexivity|]. cbn [seq]. rewrite !sumf_cons, IH. f_equal. f_equal. f_equal. lia.
Qed.

Section RED.
  Variables (slv : solver) (D : dR).
  Hypothesis inv : dr_inv slv D.
  Let n := r_n D.
  Let d := r_d D.
  Let q := r_q D.
  Let f := r_f D.
  Hypothesis Hslv : solver_ok q slv.
  Notation E l := (enum (S n) (Z.to_nat l)).

  Let zn := Z.of_nat n.
  Let LG := E (degG D).
  Let LF := E (degG D - zn).
  Let LT := E (deg_top D).
  Let g := length LG.

  Lemma degs : 0 <= degG D - zn /\ 0 <= degG D /\ 0 <= deg_top D /\
    degG D <= (zn + 1) * d /\ deg_top D <= (zn + 1) * d /\ d - 1 <= deg_top D /\
    degG D + d - (zn + 1) = deg_top D /\ deg_top D - (d - 1) = degG D - zn /\ 0 < d /\ zn < d.
  Proof.
    pose proof (inv_nd _ _ inv) as H. fold n d zn in H. unfold degG, deg_top. fold n d zn.
    assert (0 <= zn) by (unfold zn; lia). nia.
  Qed.

  Lemma deg_top_eq : deg_top D = d * zn - 2 * zn + d - 1.
  Proof. unfold deg_top. fold n d zn. lia. Qed.

  (** the top solve pair *)
  Lemma top_solve : exists T U, matrix_J D (deg_top D) = OK ((S n * length LF)%nat, T) /\
    shape T (length LT) (S n * length LF) /\
    get_solve_J slv D (deg_top D) = OK ([], U) /\ shape U (S n * length LF) (length LT) /\
    (forall i j, (i < length LT)%nat -> (j < length LT)%nat ->
       cong q (sumf (fun k => mget T i k * mget U k j) (seq 0 (S n * length LF))) (if Nat.eqb i j then 1 else 0)) /\
    forall (X : vec -> Z) i j, (i <= n)%nat -> (j < length LF)%nat ->
      sumf (fun r => mget T r (i * length LF + j) * X (nth r LT [])) (seq 0 (length LT)) =
      sumf (fun t => if 0 <? nth i (fst t) 0
                     then ((nth i (fst t) 0 * snd t) mod q) * X (eminus (eplus (nth j LF []) (fst t)) i) else 0) f.
  Proof.
    destruct degs as (H1 & H2 & H3 & H4 & H5 & H6 & H7 & H8 & H9 & H10).
    destruct (matrix_J_weighted slv D inv (deg_top D)) as (T & M1 & M2 & M3).
    { fold n d zn. lia. }
    fold n d in M1, M2, M3. rewrite H8 in M1, M2, M3. fold LF LT in M1, M2, M3.
    destruct (inv_top _ _ inv) as (U & HU).
    exists T, U. split; auto. split; auto. split; auto.
    unfold get_solve_J in HU. rewrite M1 in HU. cbn [bind fst snd] in HU.
    destruct (Hslv _ _ _ _ _ M2 HU) as [(_ & _ & S3) S4].
    cbn [length] in S3, S4. rewrite Nat.add_0_r in S4.
    split; auto. split.
    - intros i j Hi Hj. rewrite <- (S3 i j Hi Hj). cbn [seq]. rewrite sumf_nil, Z.add_0_r. reflexivity.
    - exact M3.
  Qed.

  Variable v : vec.
  Hypothesis Hv : length v = S n.
  Hypothesis Hvs : zsum v = d.

  (** sum over all pairs (i, k) of F entries *)
  Definition prs := list_prod (seq 0 (S n)) (seq 0 (length LF)).

  Lemma prs_In i k : In (i, k) prs <-> (i <= n)%nat /\ (k < length LF)%nat.
  Proof. unfold prs. rewrite in_prod_iff, !in_seq. lia. Qed.

  Lemma LF_tuple k : (k < length LF)%nat -> is_tuple (S n) (degG D - zn) (nth k LF []).
  Proof. intros H. destruct degs as (H1 & _). apply enum_tuple; auto. now apply nth_In. Qed.
  Lemma LG_tuple k : (k < g)%nat -> is_tuple (S n) (degG D) (nth k LG []).
  Proof. intros H. destruct degs as (_ & H1 & _). apply enum_tuple; auto. now apply nth_In. Qed.

  Definition col_ups (U : mat) (c : nat) (gm : vec) : list (nat * (nat * nat * Z)) :=
    if positive (vadd gm v) then
      let cw := pos n (Z.to_nat (deg_top D)) (epred (vadd gm v)) in
      concat (map (fun ik =>
        let i := fst ik in let k := snd ik in
        let row := pos n (Z.to_nat (degG D)) (vadd (nth k LF []) (one_minus n i)) in
        let x := mget U (i * length LF + k) cw in
        [(0%nat, (row, c, (nth i (nth k LF []) 0 * x) mod q)); (S i, (row, c, x))]) prs)
    else [].

  Lemma w_tuple gm : is_tuple (S n) (degG D) gm -> positive (vadd gm v) = true ->
    is_tuple (S n) (Z.of_nat (Z.to_nat (deg_top D))) (epred (vadd gm v)).
  Proof.
    intros (G1 & G2 & G3) P. destruct degs as (H1 & H2 & H3 & H4 & H5 & H6 & H7 & H8 & H9).
    rewrite Z2Nat.id by lia.
    assert (L : length (vadd gm v) = S n) by now apply vadd_length.
    split; [now rewrite epred_length|]. split.
    - apply nonneg_iff. rewrite epred_length. intros i Hi. rewrite epred_nth by auto.
      pose proof (proj1 (positive_iff _) P i Hi). lia.
    - rewrite epred_sum, L, zsum_vadd by congruence. unfold zn in *. lia.
  Qed.

  Lemma row_tuple i k : In (i, k) prs ->
    is_tuple (S n) (Z.of_nat (Z.to_nat (degG D))) (vadd (nth k LF []) (one_minus n i)).
  Proof.
    intros H. apply prs_In in H. destruct H as [Hi Hk]. destruct degs as (H1 & H2 & _).
    rewrite Z2Nat.id by lia. replace (degG D) with (degG D - zn + zn) by lia.
    apply tuple_vadd; [now apply LF_tuple|now apply one_minus_tuple].
  Qed.

  Lemma red_column_eq U c gm : shape U (S n * length LF) (length LT) -> is_tuple (S n) (degG D) gm ->
    red_column D v LF (tuple_index LG) (tuple_index LT) U c gm = OK (col_ups U c gm).
  Proof.
    intros HU Hg. unfold red_column. rewrite vec_add_ok by (rewrite (proj1 Hg); congruence). cbn [bind].
    rewrite dec_all_spec. unfold col_ups. destruct (positive (vadd gm v)) eqn:P; auto.
    pose proof (w_tuple gm Hg P) as W.
    destruct degs as (H1 & H2 & H3 & H4 & H5 & H6 & H7 & H8 & H9 & H10).
    assert (Hw : zsum (epred (vadd gm v)) = deg_top D) by (rewrite (proj2 (proj2 W)); lia).
    unfold check. fold n d zn. rewrite Hw.
    replace (deg_top D =? d * zn - 2 * zn + d - 1) with true.
    2:{ symmetry. apply Z.eqb_eq. exact deg_top_eq. }
    cbn [bind]. unfold LT. rewrite (proj1 (pos_ok _ _ _ W)). cbn [bind].
    set (cw := pos n _ _) in *.
    rewrite map_length. replace (Nat.leb (S n * length LF) (length U)) with true.
    2:{ symmetry. apply Nat.leb_le. destruct HU as [-> _]. lia. }
    cbn [bind]. fold prs.
    erewrite (mapM_total _ (fun ik => let i := fst ik in let k := snd ik in
        let row := pos n (Z.to_nat (degG D)) (vadd (nth k LF []) (one_minus n i)) in
        let x := mget U (i * length LF + k) cw in
        [(0%nat, (row, c, (nth i (nth k LF []) 0 * x) mod q)); (S i, (row, c, x))])).
    - cbn [bind]. reflexivity.
    - intros [i k] Hik. cbn [fst snd].
      pose proof (row_tuple i k Hik) as R. apply prs_In in Hik. destruct Hik as [Hi Hk].
      rewrite vec_add_ok.
      2:{ rewrite one_minus_length. apply (LF_tuple k Hk). }
      cbn [bind]. unfold LG. rewrite (proj1 (pos_ok _ _ _ R)). cbn [bind].
      rewrite (nth_map_lt _ _ _ _ []).
      2:{ destruct HU as [-> _]. nia. }
      reflexivity.
  Qed.

  Lemma LG_get : get_at (r_tl D) (degG D) = OK LG.
  Proof. destruct degs as (H1 & H2 & H3 & H4 & _). apply (inv_tl _ _ inv). fold n d zn. lia. Qed.

  Lemma red_ups_eq : exists T U, matrix_J D (deg_top D) = OK ((S n * length LF)%nat, T) /\
    shape U (S n * length LF) (length LT) /\
    (forall i j, (i < length LT)%nat -> (j < length LT)%nat ->
       cong q (sumf (fun k => mget T i k * mget U k j) (seq 0 (S n * length LF))) (if Nat.eqb i j then 1 else 0)) /\
    (forall (X : vec -> Z) i j, (i <= n)%nat -> (j < length LF)%nat ->
      sumf (fun r => mget T r (i * length LF + j) * X (nth r LT [])) (seq 0 (length LT)) =
      sumf (fun t => if 0 <? nth i (fst t) 0
                     then ((nth i (fst t) 0 * snd t) mod q) * X (eminus (eplus (nth j LF []) (fst t)) i) else 0) f) /\
    red_ups slv D v = OK (map (fun cg => col_ups U (fst cg) (snd cg)) (combine (seq 0 g) LG)).
  Proof.
    destruct top_solve as (T & U & M1 & M2 & M3 & M4 & M5 & M6).
    exists T, U. split; [auto|]. split; [auto|]. split; [auto|]. split; [auto|].
    destruct degs as (H1 & H2 & H3 & H4 & H5 & H6 & H7 & H8 & H9).
    unfold red_ups. rewrite M3. cbn [bind snd]. rewrite LG_get. cbn [bind].
    rewrite (inv_td _ _ inv) by (fold n d zn; lia). cbn [bind]. fold n zn d. rewrite H7.
    rewrite (inv_td _ _ inv) by (fold n d zn; lia). cbn [bind].
    rewrite (inv_tl _ _ inv) by (fold n d zn; lia). cbn [bind].
    fold n. fold LF LG LT. fold g.
    apply mapM_total. intros [c gm] Hin. cbn [fst snd]. apply red_column_eq; auto.
    apply combine_seq_In in Hin. apply nth_error_In in Hin. apply enum_tuple in Hin; auto.
  Qed.

  (** the matrix evaluated at u, as a function *)
  Definition redm (Ms : list mat) (u : vec) (r c : nat) : Z :=
    mget (nth 0 Ms []) r c + sumf (fun i => nth i u 0 * mget (nth (S i) Ms []) r c) (seq 0 (S n)).

  (** value of one column in terms of a weight on rows *)
  Lemma compute_reduction_ok : exists T U Ms,
    matrix_J D (deg_top D) = OK ((S n * length LF)%nat, T) /\
    shape U (S n * length LF) (length LT) /\
    (forall i j, (i < length LT)%nat -> (j < length LT)%nat ->
       cong q (sumf (fun k => mget T i k * mget U k j) (seq 0 (S n * length LF))) (if Nat.eqb i j then 1 else 0)) /\
    (forall (X : vec -> Z) i j, (i <= n)%nat -> (j < length LF)%nat ->
      sumf (fun r => mget T r (i * length LF + j) * X (nth r LT [])) (seq 0 (length LT)) =
      sumf (fun t => if 0 <? nth i (fst t) 0
                     then ((nth i (fst t) 0 * snd t) mod q) * X (eminus (eplus (nth j LF []) (fst t)) i) else 0) f) /\
    compute_reduction_matrix_J slv D v = OK Ms /\ shape3 Ms (S (S n)) g g /\
    forall u (Y : nat -> Z) c, (c < g)%nat ->
      cong q (sumf (fun r => redm Ms u r c * Y r) (seq 0 g))
        (if positive (vadd (nth c LG []) v) then
           sumf (fun ik => (nth (fst ik) (nth (snd ik) LF []) 0 + nth (fst ik) u 0) *
                 mget U (fst ik * length LF + snd ik) (pos n (Z.to_nat (deg_top D)) (epred (vadd (nth c LG []) v))) *
                 Y (pos n (Z.to_nat (degG D)) (vadd (nth (snd ik) LF []) (one_minus n (fst ik))))) prs
         else 0).
  Proof.
    destruct red_ups_eq as (T & U & R1 & R2 & R3 & R4 & R5).
    set (ups := concat (map (fun cg => col_ups U (fst cg) (snd cg)) (combine (seq 0 g) LG))) in *.
    assert (Hups : ups3_ok (S (S n)) g g ups).
    { intros k r c x Hin. unfold ups in Hin. apply in_concat in Hin. destruct Hin as (l0 & Hl0 & Hin).
      apply in_map_iff in Hl0. destruct Hl0 as ([c0 gm] & <- & Hc). cbn [fst snd] in Hin.
      apply combine_seq_In in Hc. assert (Hc0 : (c0 < g)%nat) by (apply nth_error_Some; rewrite Hc; discriminate).
      unfold col_ups in Hin. destruct (positive _); [|destruct Hin].
      apply in_concat in Hin. destruct Hin as (l1 & Hl1 & Hin). apply in_map_iff in Hl1.
      destruct Hl1 as ([i k0] & <- & Hik). cbn [fst snd] in Hin.
      pose proof (row_tuple i k0 Hik) as RT. destruct (pos_ok _ _ _ RT) as (_ & P & _).
      apply prs_In in Hik.
      destruct Hin as [Hin|[Hin|[]]]; injection Hin as <- <- <- <-; repeat split; auto; lia. }
    set (Z0 := repeat (mzero g g) (S (S n))).
    destruct (apply_ups_ok q ups (S (S n)) g g Z0 (shape3_zero _ _ _) Hups) as [A1 A2].
    exists T, U, (apply_ups q ups Z0). repeat (split; [auto|]); auto.
    { unfold compute_reduction_matrix_J. rewrite LG_get. cbn [bind]. rewrite R5. cbn [bind].
      fold ups n g. rewrite (proj2 (red_range_ok _ _ _) Hups). reflexivity. }
    intros u Y c Hc.
    specialize (A2 (fun k r c' => if Nat.eqb c' c then (match k with O => 1 | S i => nth i u 0 end) * Y r else 0)).
    set (Ms := apply_ups q ups Z0) in *.
    transitivity (wsum3 Ms (S (S n)) g g (fun k r c' => if Nat.eqb c' c then (match k with O => 1 | S i => nth i u 0 end) * Y r else 0)).
    { apply cong_of_eq. unfold wsum3, wsum.
      transitivity (sumf (fun k => sumf (fun r => (match k with O => 1 | S i => nth i u 0 end) * Y r * mget (nth k Ms []) r c) (seq 0 g)) (seq 0 (S (S n)))).
      - rewrite sumf_swap. apply sumf_ext. intros r Hr. unfold redm.
        change (seq 0 (S (S n))) with (0%nat :: seq 1 (S n)). rewrite sumf_cons, sumf_seq_shift.
        rewrite Z.mul_add_distr_r, <- sumf_scal_r.
        f_equal; [lia|]. apply sumf_ext. intros; lia.
      - apply sumf_ext. intros k Hk. apply sumf_ext. intros r Hr.
        rewrite (sumf_seq_single _ 0 g c); [|lia|].
        + rewrite Nat.eqb_refl. lia.
        + intros c' _ Hne. apply Nat.eqb_neq in Hne. rewrite Hne. lia. }
    rewrite A2. unfold Z0. rewrite wsum3_zero, Z.add_0_l.
    unfold ups. rewrite sumf_concat, sumf_map.
    unfold g. rewrite (sumf_combine_seq _ LG []). fold g. cbn [fst snd].
    rewrite (sumf_seq_single _ 0 g c); [|lia|].
    - unfold col_ups. destruct (positive _); [|reflexivity].
      set (cw := pos n _ _). rewrite sumf_concat, sumf_map. apply cong_sumf. intros [i k] Hik. cbn [fst snd].
      rewrite !sumf_cons, sumf_nil. cbn [fst snd]. rewrite Nat.eqb_refl.
      fold q. rewrite cong_mod. apply cong_of_eq. ring.
    - intros c' _ Hne. unfold col_ups. destruct (positive _); [|reflexivity].
      rewrite sumf_concat, sumf_map. apply sumf_zero. intros [i k] Hik. cbn [fst snd].
      rewrite !sumf_cons, sumf_nil. cbn [fst snd]. apply Nat.eqb_neq in Hne. rewrite Hne. lia.
  Qed.

  (** * the class is preserved *)
  Variable phi : Z -> list Z -> Z.
  Hypothesis Hphi : GD q n d f phi.
  Variables (u : vec) (m : Z).
  Hypothesis Hu : is_tuple (S n) (d * m - degG D) u.
  Hypothesis Huv : forall i, (i <= n)%nat -> nth i u 0 = 0 \/ 0 < nth i v 0.

  Lemma positive_uv gm : is_tuple (S n) (degG D) gm ->
    positive (eplus (vadd u v) gm) = positive (vadd gm v).
  Proof.
    intros (G1 & G2 & G3). destruct Hu as (U1 & U2 & U3). rewrite eplus_vadd.
    assert (L1 : length (vadd u v) = S n) by now apply vadd_length.
    assert (L2 : length (vadd gm v) = S n) by now apply vadd_length.
    assert (L3 : length (vadd (vadd u v) gm) = S n) by now apply vadd_length.
    apply eq_true_iff_eq. rewrite !positive_iff, L2, L3. split; intros H i Hi; specialize (H i Hi);
    rewrite !vadd_nth in * by congruence; pose proof (nonneg_nth u i U2); pose proof (nonneg_nth gm i G2);
    destruct (Huv i ltac:(lia)); lia.
  Qed.

  Lemma step_column : forall Ms, compute_reduction_matrix_J slv D v = OK Ms -> forall c, (c < g)%nat ->
      cong q (sumf (fun r => redm Ms u r c * phi_div phi m (eplus u (nth r LG []))) (seq 0 g))
             (phi_div phi (m + 1) (eplus (vadd u v) (nth c LG []))).
  Proof.
    intros Ms HMs c Hc. destruct compute_reduction_ok as (T & U & Ms' & C1 & C2 & C3 & C4 & C5 & C6 & C7).
    rewrite C5 in HMs. injection HMs as ->.
    rewrite C7 by auto. set (gm := nth c LG []). pose proof (LG_tuple c Hc) as Hg. fold gm in Hg.
    unfold phi_div at 2. rewrite positive_uv by auto. destruct (positive (vadd gm v)) eqn:P; [|reflexivity].
    pose proof (w_tuple gm Hg P) as W. destruct (pos_ok _ _ _ W) as (_ & W1 & W2).
    set (cw := pos n _ (epred (vadd gm v))) in *. fold LT in W1, W2.
    destruct degs as (H1 & H2 & H3 & H4 & H5 & H6 & H7 & H8 & H9 & H10).
    destruct Hu as (U1 & U2 & U3).
    (* replace each term with the GD relation *)
    transitivity (sumf (fun ik => mget U (fst ik * length LF + snd ik) cw *
       sumf (fun r => mget T r (fst ik * length LF + snd ik) * phi (m + 1) (vadd u (nth r LT []))) (seq 0 (length LT))) prs).
    { apply cong_sumf. intros [i k] Hik. cbn [fst snd].
      pose proof (row_tuple i k Hik) as RT. destruct (pos_ok _ _ _ RT) as (_ & _ & P3).
      fold LG in P3. rewrite P3. apply prs_In in Hik. destruct Hik as [Hi Hk].
      pose proof (LF_tuple k Hk) as (S1 & S2 & S3). set (s := nth k LF []) in *.
      rewrite (C4 (fun w => phi (m + 1) (vadd u w)) i k Hi Hk). fold s.
      assert (Hh : is_tuple (S n) (d * m - zn) (vadd u s)).
      { replace (d * m - zn) with (d * m - degG D + (degG D - zn)) by lia. apply tuple_vadd; auto.
        split; auto. }
      pose proof (Hphi m i (vadd u s) Hi Hh) as R.
      (* left side *)
      assert (EL : cong q ((nth i s 0 + nth i u 0) * mget U (i * length LF + k) cw * phi_div phi m (eplus u (vadd s (one_minus n i))))
                          (mget U (i * length LF + k) cw * (nth i (vadd u s) 0 * phi m (eminus (vadd u s) i)))).
      { rewrite vadd_nth by congruence. unfold phi_div.
        assert (Lo : length (vadd s (one_minus n i)) = S n) by (apply vadd_length; auto using one_minus_length).
        rewrite eplus_vadd.
        assert (Lp : length (vadd u (vadd s (one_minus n i))) = S n) by now apply vadd_length.
        destruct (Z.eq_dec (nth i u 0 + nth i s 0) 0) as [Ez|Ez].
        - rewrite Ez. replace (nth i s 0 + nth i u 0) with 0 by lia. apply cong_of_eq. ring.
        - assert (Pp : positive (vadd u (vadd s (one_minus n i))) = true).
          { apply positive_iff. rewrite Lp. intros j Hj. rewrite !vadd_nth by (rewrite ?one_minus_length; congruence).
            rewrite one_minus_nth by lia. pose proof (nonneg_nth u j U2). pose proof (nonneg_nth s j S2).
            destruct (Nat.eqb_spec i j); subst; lia. }
          rewrite Pp. replace (epred (vadd u (vadd s (one_minus n i)))) with (eminus (vadd u s) i).
          + apply cong_of_eq. ring.
          + apply vec_ext.
            * rewrite epred_length, eminus_length, Lp. now apply vadd_length.
            * rewrite eminus_length. intros j Hj. rewrite (vadd_length _ _ (S n)) in Hj by auto.
              rewrite eminus_nth by (rewrite (vadd_length _ _ (S n)); auto; lia).
              rewrite epred_nth by (rewrite Lp; lia).
              rewrite !vadd_nth by (rewrite ?one_minus_length; congruence).
              rewrite one_minus_nth by lia. destruct (Nat.eqb i j); lia. }
      rewrite EL, <- R. apply cong_mul; [reflexivity|]. apply cong_sumf. intros [a cc] Ht. cbn [fst snd].
      pose proof (inv_h _ _ inv _ _ Ht) as (T1 & T2 & T3). fold n in T1.
      destruct (Z.ltb_spec 0 (nth i a 0)) as [Ha|Ha].
      - rewrite cong_mod. replace (vadd u (eminus (eplus s a) i)) with (eminus (eplus (vadd u s) a) i); [reflexivity|].
        rewrite !eplus_vadd. apply vec_ext.
        + rewrite eminus_length. rewrite !(vadd_length _ _ (S n)); auto using vadd_length.
          rewrite eminus_length. now apply vadd_length.
        + intros j Hj. rewrite eminus_length, (vadd_length _ _ (S n)) in Hj by auto using vadd_length.
          assert (La : length (vadd s a) = S n) by now apply vadd_length.
          assert (Lu : length (vadd u s) = S n) by now apply vadd_length.
          rewrite eminus_nth by (rewrite (vadd_length _ _ (S n)); auto; lia).
          rewrite !vadd_nth by (rewrite ?eminus_length; congruence).
          rewrite eminus_nth by lia. rewrite vadd_nth by congruence. lia.
      - pose proof (nonneg_nth a i T2). replace (nth i a 0) with 0 by lia. apply cong_of_eq. ring. }
    (* exchange sums: sum over prs is the sum over columns of T *)
    transitivity (sumf (fun r => sumf (fun k => mget T r k * mget U k cw) (seq 0 (S n * length LF)) * phi (m + 1) (vadd u (nth r LT []))) (seq 0 (length LT))).
    { apply cong_of_eq.
      transitivity (sumf (fun r => sumf (fun ik => mget T r (fst ik * length LF + snd ik) * mget U (fst ik * length LF + snd ik) cw) prs * phi (m + 1) (vadd u (nth r LT []))) (seq 0 (length LT))).
      - transitivity (sumf (fun ik => sumf (fun r => mget T r (fst ik * length LF + snd ik) * mget U (fst ik * length LF + snd ik) cw * phi (m + 1) (vadd u (nth r LT []))) (seq 0 (length LT))) prs).
        + apply sumf_ext. intros [i k] _. cbn [fst snd]. rewrite <- sumf_scal. apply sumf_ext. intros. ring.
        + rewrite sumf_swap. apply sumf_ext. intros. now rewrite sumf_scal_r.
      - apply sumf_ext. intros r _. f_equal. unfold prs.
        symmetry. apply (sumf_prod_seq (fun k => mget T r k * mget U k cw)). }
    rewrite (cong_sumf q _ (fun r => (if Nat.eqb r cw then 1 else 0) * phi (m + 1) (vadd u (nth r LT [])))).
    2:{ intros r Hr. apply in_seq in Hr. rewrite C3 by (auto; lia). reflexivity. }
    rewrite (sumf_seq_single _ 0 (length LT) cw); [|lia|].
    - rewrite Nat.eqb_refl, Z.mul_1_l. apply cong_of_eq. f_equal. rewrite eplus_vadd.
      destruct Hg as (G1 & G2 & G3).
      assert (Lg : length (vadd gm v) = S n) by now apply vadd_length.
      assert (Luv : length (vadd u v) = S n) by now apply vadd_length.
      rewrite W2.
      apply vec_ext.
      + rewrite epred_length, !(vadd_length _ _ (S n)); auto. now rewrite epred_length.
      + intros j Hj. rewrite (vadd_length _ _ (S n)) in Hj by (auto; now rewrite epred_length).
        rewrite vadd_nth by (rewrite epred_length; congruence).
        rewrite !epred_nth by (rewrite ?(vadd_length _ _ (S n)); auto).
        rewrite !vadd_nth by congruence. lia.
    - intros r _ Hne. apply Nat.eqb_neq in Hne. rewrite Hne. lia.
  Qed.

  (** any vector congruent to M(u) G represents the same class *)
  Lemma step_class Ms G R : compute_reduction_matrix_J slv D v = OK Ms ->
    length R = g ->
    (forall r, (r < g)%nat -> cong q (nth r R 0) (sumf (fun c => redm Ms u r c * nth c G 0) (seq 0 g))) ->
    cong q (ev phi m u LG R) (ev phi (m + 1) (eplus u v) LG G).
  Proof.
    intros HMs HR HE. unfold ev. fold g.
    transitivity (sumf (fun r => sumf (fun c => redm Ms u r c * nth c G 0) (seq 0 g) * phi_div phi m (eplus u (nth r LG []))) (seq 0 g)).
    { apply cong_sumf. intros r Hr. apply in_seq in Hr. rewrite HE by lia. reflexivity. }
    transitivity (sumf (fun c => nth c G 0 * sumf (fun r => redm Ms u r c * phi_div phi m (eplus u (nth r LG []))) (seq 0 g)) (seq 0 g)).
    { apply cong_of_eq.
      transitivity (sumf (fun r => sumf (fun c => redm Ms u r c * nth c G 0 * phi_div phi m (eplus u (nth r LG []))) (seq 0 g)) (seq 0 g)).
      - apply sumf_ext. intros. now rewrite sumf_scal_r.
      - rewrite sumf_swap. apply sumf_ext. intros c _. rewrite <- sumf_scal. apply sumf_ext. intros. ring. }
    apply cong_sumf. intros c Hc. apply in_seq in Hc. pose proof (step_column Ms HMs c (proj2 Hc)) as SC. rewrite SC.
    rewrite (eplus_vadd u v). reflexivity.
  Qed.
End RED.
