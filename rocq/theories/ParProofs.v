(** Proofs about the parallel loop (ParModel.v). *)
From Coq Require Import ZArith List Bool Lia.
From Verif Require Import Base VecModel VecSpec VecProofs ToolsModel ToolsSpec ToolsProofs PolyProofs MatModel MatProofs
  DRModel DRSpec DRProofs DRRed ParModel.
Import ListNotations.
Open Scope Z_scope.

Notation update := (nat * (nat * nat * Z))%type.

(** the value of one entry after a list of updates *)
Fixpoint cell (q : Z) (ups : list update) (k r c : nat) (a : Z) : Z :=
  match ups with
  | [] => a
  | (k', (r', c', x)) :: ups =>
      cell q ups k r c (if Nat.eqb k' k && Nat.eqb r' r && Nat.eqb c' c then (a + x) mod q else a)
  end.

Lemma cell_app q u1 u2 k r c : forall a, cell q (u1 ++ u2) k r c a = cell q u2 k r c (cell q u1 k r c a).
Proof. induction u1 as [|[k' [[r' c'] x]] u1 IH]; intros a; cbn [cell app]; auto. Qed.

Lemma cell_other q ups k r c a : (forall k' r' c' x, In (k', (r', c', x)) ups -> c' <> c) -> cell q ups k r c a = a.
Proof.
  revert a. induction ups as [|[k' [[r' c'] x]] ups IH]; intros a H; cbn [cell]; auto.
  replace (Nat.eqb c' c) with false. 2:{ symmetry. apply Nat.eqb_neq. eapply H. now left. }
  rewrite andb_false_r. apply IH. intros. eapply H. right. eauto.
Qed.

Lemma get3_set Ms K g h k r c x k' r' c' : shape3 Ms K g h -> (k < K)%nat -> (r < g)%nat -> (c < h)%nat ->
  shape3 (upd Ms k (mset (nth k Ms []) r c x)) K g h /\
  get3 (upd Ms k (mset (nth k Ms []) r c x)) k' r' c' =
    if Nat.eqb k k' && Nat.eqb r r' && Nat.eqb c c' then x else get3 Ms k' r' c'.
Proof.
  intros [L S] Hk Hr Hc. split.
  - split; [now rewrite upd_length|]. intros j Hj. rewrite nth_upd. destruct (Nat.eqb_spec k j) as [->|]; auto.
    destruct (Nat.ltb_spec j (length Ms)); [|lia]. apply shape_mset; auto.
  - unfold get3. rewrite nth_upd. destruct (Nat.eqb_spec k k') as [->|]; [|reflexivity].
    destruct (Nat.ltb_spec k' (length Ms)); [|lia]. rewrite (mget_mset _ g h) by auto. cbn [andb].
    rewrite (Nat.eqb_sym r r'), (Nat.eqb_sym c c'). rewrite ?(Nat.eqb_sym r' r), ?(Nat.eqb_sym c' c).
    destruct (Nat.eqb r r'), (Nat.eqb c c'); reflexivity.
Qed.

Lemma apply_ups_cell q K g h ups : forall Ms, shape3 Ms K g h -> ups3_ok K g h ups ->
  shape3 (apply_ups q ups Ms) K g h /\ forall k r c, get3 (apply_ups q ups Ms) k r c = cell q ups k r c (get3 Ms k r c).
Proof.
  induction ups as [|[k0 [[r0 c0] x]] ups IH]; intros Ms HM Hu; [split; auto|].
  destruct (Hu k0 r0 c0 x) as (Hk & Hr & Hc); [now left|].
  assert (Hu' : ups3_ok K g h ups) by (intros k' r' c' x' H; apply (Hu k' r' c' x'); now right).
  assert (H := fun k r c => get3_set Ms K g h k0 r0 c0 ((get3 Ms k0 r0 c0 + x) mod q) k r c HM Hk Hr Hc).
  cbn [apply_ups fold_left]. change (fold_left _ ups ?X) with (apply_ups q ups X).
  destruct (IH _ (proj1 (H 0 0 0)%nat) Hu') as [I1 I2]. split; [exact I1|].
  intros k r c. cbn [cell]. change (madd_at q (nth k0 Ms []) r0 c0 x) with (mset (nth k0 Ms []) r0 c0 ((get3 Ms k0 r0 c0 + x) mod q)).
  rewrite I2. rewrite (proj2 (H k r c)). destruct (Nat.eqb_spec k0 k) as [->|]; [|reflexivity].
  destruct (Nat.eqb_spec r0 r) as [->|]; [|reflexivity]. destruct (Nat.eqb_spec c0 c) as [->|]; reflexivity.
Qed.

Section PAR.
  Variables (q : Z) (K g : nat) (ups : list (list update)).
  Hypothesis Hlen : length ups = g.
  Hypothesis Hin : forall i l, nth_error ups i = Some l -> ups3_ok K g g l.
  (** iteration i only writes column i *)
  Hypothesis Hcol : forall i l k r c x, nth_error ups i = Some l -> In (k, (r, c, x)) l -> c = i.

  (** thread i has performed the updates [d], and possibly loaded for the next *)
  Definition thr (s : pstate) (i : nat) (l : list update) : Prop :=
    exists d e, l = d ++ e /\
      (forall k r, get3 (ps_M s) k r i = cell q d k r i 0) /\
      exists t, nth_error (ps_todo s) i = Some t /\
      (t = accesses e \/
       exists k r x e', e = (k, (r, i, x)) :: e' /\ t = PStore k r i x :: accesses e' /\
         nth i (ps_reg s) 0 = get3 (ps_M s) k r i).

  Record pinv (s : pstate) : Prop := {
    pi_shape : shape3 (ps_M s) K g g;
    pi_reg : length (ps_reg s) = g;
    pi_todo : length (ps_todo s) = g;
    pi_thr : forall i l, nth_error ups i = Some l -> thr s i l
  }.

  Lemma nth_error_upd {A} (l : list A) i j x : nth_error (upd l i x) j =
    if Nat.eqb i j then (if Nat.ltb i (length l) then Some x else None) else nth_error l j.
  Proof.
    revert i j. induction l as [|a l IH]; intros [|i] [|j]; cbn; auto.
    - destruct (Nat.eqb i j); reflexivity.
    - rewrite IH. destruct (Nat.eqb_spec i j); auto.
  Qed.

  Lemma par_step_inv s i : pinv s -> pinv (par_step q i s).
  Proof.
    intros [P1 P2 P3 P4]. unfold par_step.
    destruct (nth_error (ps_todo s) i) as [t|] eqn:Et; [|constructor; auto].
    assert (Li : (i < g)%nat) by (rewrite <- P3; apply nth_error_Some; congruence).
    destruct (nth_error ups i) as [l|] eqn:El. 2:{ apply nth_error_None in El. lia. }
    destruct (P4 i l El) as (d & e & E1 & E2 & t' & Et' & C). rewrite Et in Et'. injection Et' as <-.
    assert (X : forall k r c x, In (k, (r, c, x)) e -> c = i /\ (k < K)%nat /\ (r < g)%nat).
    { intros k r c x I. assert (I' : In (k, (r, c, x)) l) by (rewrite E1; apply in_or_app; auto).
      split; [eapply Hcol; eauto|]. destruct (Hin i l El k r c x I') as (? & ? & ?). auto. }
    destruct C as [->|(k & r & x & e' & -> & -> & Hreg)].
    - destruct e as [|[k [[r c] x]] e]; cbn [accesses flat_map app]; [constructor; auto|].
      change (flat_map _ e) with (accesses e). destruct (X k r c x) as (-> & Hk & Hr); [now left|].
      constructor; cbn [ps_M ps_reg ps_todo]; auto; try now rewrite upd_length.
      intros j lj Ej. destruct (Nat.eq_dec j i) as [->|Ne].
      + rewrite El in Ej. injection Ej as <-. exists d, ((k, (r, i, x)) :: e). split; auto. split; auto. cbn [ps_todo ps_reg ps_M].
        rewrite nth_error_upd, Nat.eqb_refl. destruct (Nat.ltb_spec i (length (ps_todo s))); [|lia].
        eexists. split; [reflexivity|]. right. exists k, r, x, e. split; auto. split; auto. rewrite nth_upd_eq by lia. reflexivity.
      + destruct (P4 j lj Ej) as (d' & e0 & F1 & F2 & t' & F3 & F4). exists d', e0. split; auto. split; auto. cbn [ps_todo ps_reg ps_M].
        rewrite nth_error_upd. destruct (Nat.eqb_spec i j); [congruence|]. exists t'. split; auto.
        destruct F4 as [->|(k' & r' & x' & e1 & -> & -> & Hr')]; auto. right. exists k', r', x', e1. split; auto. split; auto.
        rewrite nth_upd_neq by auto. exact Hr'.
    - destruct (X k r i x) as (_ & Hk & Hr); [now left|].
      assert (G := fun k' r' c' => get3_set (ps_M s) K g g k r i ((nth i (ps_reg s) 0 + x) mod q) k' r' c' P1 Hk Hr Li).
      constructor; cbn [ps_M ps_reg ps_todo]; auto; try now rewrite upd_length.
      { apply (G 0 0 0)%nat. }
      intros j lj Ej. destruct (Nat.eq_dec j i) as [->|Ne].
      + rewrite El in Ej. injection Ej as <-. exists (d ++ [(k, (r, i, x))]), e'. split; [now rewrite <- app_assoc|]. cbn [ps_todo ps_reg ps_M].
        split.
        * intros k' r'. rewrite (proj2 (G k' r' i)), cell_app. cbn [cell]. rewrite Nat.eqb_refl, !andb_true_r.
          rewrite <- E2. destruct (Nat.eqb_spec k k') as [->|]; [|reflexivity].
          destruct (Nat.eqb_spec r r') as [->|]; [|reflexivity]. cbn [andb]. rewrite Hreg. reflexivity.
        * rewrite nth_error_upd, Nat.eqb_refl. destruct (Nat.ltb_spec i (length (ps_todo s))); [|lia]. eauto.
      + destruct (P4 j lj Ej) as (d' & e0 & F1 & F2 & t' & F3 & F4). exists d', e0. split; auto. cbn [ps_todo ps_reg ps_M].
        assert (Y : forall k' r', get3 (upd (ps_M s) k (mset (nth k (ps_M s) []) r i ((nth i (ps_reg s) 0 + x) mod q))) k' r' j = get3 (ps_M s) k' r' j).
        { intros k' r'. rewrite (proj2 (G k' r' j)). destruct (Nat.eqb_spec i j); [congruence|]. now rewrite andb_false_r. }
        split; [intros; rewrite Y; auto|]. rewrite nth_error_upd. destruct (Nat.eqb_spec i j); [congruence|]. exists t'. split; auto.
        destruct F4 as [->|(k' & r' & x' & e1 & -> & -> & Hr')]; auto. right. exists k', r', x', e1. split; auto. split; auto.
        now rewrite Y.
  Qed.
  Lemma par_run_inv sched : forall s, pinv s -> pinv (par_run q sched s).
  Proof. induction sched as [|i sched IH]; intros s H; cbn; auto. apply IH. now apply par_step_inv. Qed.

  Definition start := mk_pstate (repeat (mzero g g) K) (repeat 0 (length ups)) (map accesses ups).
  Lemma get3_zero k r c : get3 (repeat (mzero g g) K) k r c = 0.
  Proof.
    unfold get3. rewrite nth_repeat_any. destruct (Nat.ltb k K); [apply mget_mzero|]. unfold mget. destruct r, c; reflexivity.
  Qed.
  Lemma start_inv : pinv start.
  Proof.
    constructor; cbn.
    - apply shape3_zero.
    - now rewrite repeat_length.
    - now rewrite map_length.
    - intros i l E. exists [], l. split; auto. split; [intros; apply get3_zero|]. cbn.
      exists (accesses l). split; auto. now apply map_nth_error.
  Qed.

  Lemma cell_concat k r c l : nth_error ups c = Some l -> cell q (concat ups) k r c 0 = cell q l k r c 0.
  Proof.
    intros E. destruct (nth_error_split ups c E) as (a & b & U & La).
    rewrite U, concat_app. cbn [concat]. rewrite !cell_app.
    assert (A : forall y, cell q (concat a) k r c y = y).
    { intros y. apply cell_other. intros k' r' c' x I. apply in_concat in I. destruct I as (la & Ia & I).
      apply In_nth_error in Ia. destruct Ia as (j & Ej). assert ((j < length a)%nat) by (apply nth_error_Some; congruence).
      rewrite (Hcol j la k' r' c' x); auto; [lia|]. rewrite U, nth_error_app1; auto. }
    rewrite A. apply cell_other. intros k' r' c' x I. apply in_concat in I. destruct I as (la & Ia & I).
    apply In_nth_error in Ia. destruct Ia as (j & Ej).
    rewrite (Hcol (length a + S j) la k' r' c' x)%nat; auto; [lia|]. rewrite U, nth_error_app2 by lia.
    replace (_ - _)%nat with (S j) by lia. exact Ej.
  Qed.

  Lemma ups_concat_ok : ups3_ok K g g (concat ups).
  Proof.
    intros k r c x I. apply in_concat in I. destruct I as (l & Il & I). apply In_nth_error in Il. destruct Il as (j & Ej).
    eapply Hin; eauto.
  Qed.

  Lemma done_result s : pinv s -> par_done s -> ps_M s = apply_ups q (concat ups) (repeat (mzero g g) K).
  Proof.
    intros P Dn. destruct (apply_ups_cell q K g g (concat ups) (repeat (mzero g g) K) (shape3_zero _ _ _) ups_concat_ok) as [A1 A2].
    destruct (pi_shape s P) as [L1 S1]. destruct A1 as [L2 S2].
    apply (nth_ext _ _ [] []); [exact (eq_trans L1 (eq_sym L2))|]. intros k Hk. assert (Hk' : (k < K)%nat) by (rewrite <- L1; exact Hk). apply (mat_ext _ _ g g); [apply S1; auto|apply S2; auto|].
    intros r c Hr Hc. change (get3 (ps_M s) k r c = get3 (apply_ups q (concat ups) (repeat (mzero g g) K)) k r c).
    rewrite A2, get3_zero. destruct (nth_error ups c) as [l|] eqn:El. 2:{ apply nth_error_None in El. lia. }
    rewrite (cell_concat k r c l El). destruct (pi_thr s P c l El) as (d & e & -> & E2 & t & Et & C).
    assert (t = []) as ->. { unfold par_done in Dn. rewrite Forall_forall in Dn. apply Dn. eapply nth_error_In; eauto. }
    destruct C as [C|(? & ? & ? & ? & _ & C & _)]; [|discriminate].
    assert (e = []) as ->. { destruct e as [|[? [[? ?] ?]] e]; [auto|discriminate]. }
    rewrite app_nil_r. apply E2.
  Qed.

  (** every execution can be completed *)
  Definition todo_len (s : pstate) : nat := list_sum (map (@length _) (ps_todo s)).
  Lemma sum_upd (l : list (list pev)) i a t : nth_error l i = Some (a :: t) ->
    list_sum (map (@length _) l) = S (list_sum (map (@length _) (upd l i t))).
  Proof.
    revert i. induction l as [|b l IH]; intros [|i] E; try discriminate; cbn in *.
    - injection E as ->. reflexivity.
    - pose proof (IH i E) as X. unfold list_sum in X. lia.
  Qed.
  Lemma par_complete k : forall s, todo_len s = k -> exists more, par_done (par_run q more s).
  Proof.
    induction k as [|k IH]; intros s E.
    - exists []. cbn. unfold par_done, todo_len in *. induction (ps_todo s) as [|a l IH]; constructor; cbn in E.
      + destruct a; auto. discriminate.
      + apply IH. unfold list_sum. lia.
    - assert (X : exists i a t, nth_error (ps_todo s) i = Some (a :: t)).
      { unfold todo_len in E. clear IH. induction (ps_todo s) as [|[|a t] l IH]; cbn in E; [discriminate| |exists 0%nat, a, t; reflexivity].
        destruct (IH E) as (i & a & t & H). exists (S i), a, t. exact H. }
      destruct X as (i & a & t & X). destruct (IH (par_step q i s)) as (more & M).
      + unfold todo_len in *. pose proof (sum_upd _ _ _ _ X) as Y. unfold par_step. rewrite X. destruct a; cbn [ps_todo]; lia.
      + exists (i :: more). exact M.
  Qed.
End PAR.

Lemma combine_seq_fst {A} (l : list A) k i c x : nth_error (combine (seq 0 k) l) i = Some (c, x) -> c = i.
Proof.
  assert (H : forall a i, nth_error (combine (seq a k) l) i = Some (c, x) -> c = (a + i)%nat).
  { revert l. induction k as [|k IH]; intros [|y l] a j E; cbn in E; try (destruct j; discriminate).
    destruct j as [|j]; cbn in E; [injection E as <- _; lia|]. apply IH in E. lia. }
  intros E. now apply H in E.
Qed.

Section REDPAR.
  Variables (slv : solver) (D : dR).
  Hypothesis inv : dr_inv slv D.
  Hypothesis Hslv : solver_ok (r_q D) slv.

  Theorem reduction_parallel v : length v = S (r_n D) -> zsum v = r_d D ->
    exists ups Ms, red_ups slv D v = OK ups /\ compute_reduction_matrix_J slv D v = OK Ms /\
      let g := length (enum (S (r_n D)) (Z.to_nat (degG D))) in
      length ups = g /\
      forall sched, let s := par_run (r_q D) sched (par_start (r_n D) g ups) in
        (par_done s -> ps_M s = Ms) /\ exists more, par_done (par_run (r_q D) more s).
  Proof.
    intros L Hs. destruct (red_ups_eq slv D inv Hslv v L Hs) as (T & U & _ & HU & _ & _ & E).
    destruct (compute_reduction_ok slv D inv Hslv v L Hs) as (T' & U' & Ms & _ & _ & _ & _ & E2 & _).
    exists (map (fun cg => col_ups D v U (fst cg) (snd cg))
      (combine (seq 0 (length (enum (S (r_n D)) (Z.to_nat (degG D))))) (enum (S (r_n D)) (Z.to_nat (degG D))))).
    set (LG := enum (S (r_n D)) (Z.to_nat (degG D))) in *.
    exists Ms. split; [exact E|]. split; [exact E2|]. intros g.
    set (ups := map _ _) in *.
    assert (Len : length ups = g) by (unfold ups; rewrite map_length, combine_length, seq_length; unfold g; lia).
    split; auto.
    unfold compute_reduction_matrix_J in E2.
    assert (LGg : get_at (r_tl D) (degG D) = OK LG) by exact (LG_get slv D inv v L).
    rewrite LGg in E2. cbn [bind] in E2. rewrite E in E2. cbn [bind] in E2. fold g in E2.
    unfold check in E2. destruct (red_range (r_n D) g (concat ups)) eqn:R; [|discriminate]. cbn [bind] in E2. injection E2 as E2.
    assert (NE : forall i l, nth_error ups i = Some l -> exists gm, l = col_ups D v U i gm).
    { intros i l El. unfold ups in El. rewrite nth_error_map in El.
      destruct (nth_error (combine (seq 0 (length LG)) LG) i) as [[c gm]|] eqn:X; [|discriminate]. injection El as <-.
      cbn [fst snd]. exists gm. f_equal.
      eapply combine_seq_fst; exact X. }
    assert (Hin : forall i l, nth_error ups i = Some l -> ups3_ok (S (S (r_n D))) g g l).
    { intros i l El k r c x I. unfold red_range in R. rewrite forallb_forall in R.
      specialize (R (k, (r, c, x))). cbn [fst snd] in R. rewrite !andb_true_iff, !Nat.ltb_lt in R.
      assert (In (k, (r, c, x)) (concat ups)). { apply in_concat. exists l. split; auto. eapply nth_error_In; eauto. }
      specialize (R H). lia. }
    assert (Hcol : forall i l k r c x, nth_error ups i = Some l -> In (k, (r, c, x)) l -> c = i).
    { intros i l k r c x El I. destruct (NE i l El) as (gm & ->). unfold col_ups in I.
      destruct (positive _); [|destruct I]. apply in_concat in I. destruct I as (l2 & I2 & I).
      apply in_map_iff in I2. destruct I2 as ([i' k'] & <- & _). cbn [fst snd] in I. destruct I as [I|[I|[]]]; congruence. }
    intros sched s. split.
    - intros Dn. rewrite <- E2. apply (done_result (r_q D) _ g ups Len Hin Hcol); auto. unfold s, par_start.
      apply (par_run_inv (r_q D) _ g ups Len Hin Hcol). apply (start_inv (r_q D) _ g ups Len).
    - exact (par_complete (r_q D) g ups Len _ s eq_refl).
  Qed.
End REDPAR.
