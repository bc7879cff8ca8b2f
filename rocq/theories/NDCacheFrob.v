(** The programs of NDCacheModel.v compute the functions of NDModel.v and
    FrobNDModel.v; the branch of frob_ND_flint for several threads does the same
    as the one for one thread; which requests the programs make. *)
From Coq Require Import ZArith List Bool Lia.
From Verif Require Import Base VecModel VecSpec VecProofs ToolsModel ToolsSpec ToolsProofs MatModel MatProofs
  DRModel DRSpec DRProofs DRPath FrobModel FrobPath FdModel ProgModel ProgProofs CacheModel CacheProofs CacheCover CachePrep
  NDModel FrobNDModel NDCacheModel NDCacheProofs.
Import ListNotations.
Open Scope Z_scope.

Lemma nth_error_upd_eq {A} (l : list A) i x : (i < length l)%nat -> nth_error (upd l i x) i = Some x.
Proof. revert i. induction l as [|a l IH]; intros [|i]; cbn; intros H; try lia; auto. apply IH. lia. Qed.
Lemma nth_error_upd_neq {A} (l : list A) i j x : i <> j -> nth_error (upd l i x) j = nth_error l j.
Proof. revert i j. induction l as [|a l IH]; intros [|i] [|j]; cbn; intros H; auto; congruence. Qed.
Lemma Forall2_len {A B} (P : A -> B -> Prop) l r : Forall2 P l r -> length l = length r.
Proof. induction 1; cbn; auto. Qed.
Lemma nth_error_ext {A} (l l' : list A) : (forall i, nth_error l i = nth_error l' i) -> l = l'.
Proof.
  revert l'. induction l as [|a l IH]; intros [|b l'] H; auto; try (specialize (H 0%nat); discriminate).
  f_equal; [specialize (H 0%nat); cbn in H; congruence|]. apply IH. intros i. exact (H (S i)).
Qed.

(** * The parallel loop over slices *)
Section SLICES.
  Variables (N : dND) (end_ : Z) (ss : list fnd_slice) (Gs : list (list Z)).
  Hypothesis HG : mapM (slice_reduce N end_) ss = OK Gs.
  (** the slices already treated hold their result *)
  Definition slices_ok (st : list (option (list Z))) : Prop :=
    length st = length ss /\ forall i G, nth_error st i = Some (Some G) -> nth_error Gs i = Some G.
  Lemma slices_run_ok sched : forall st, slices_ok st ->
    exists st', slices_run N end_ ss sched st = OK st' /\ slices_ok st' /\
      forall i, In i sched -> (i < length ss)%nat -> nth_error st' i = option_map Some (nth_error Gs i).
  Proof.
    pose proof (proj1 (mapM_ok _ _ _) HG) as F. pose proof (Forall2_len _ _ _ F) as LG.
    assert (Keep : forall sched st st', slices_ok st -> slices_run N end_ ss sched st = OK st' ->
      forall i G, nth_error st i = Some (Some G) -> nth_error st' i = Some (Some G)).
    { clear sched. intros sched. induction sched as [|j sched IH]; intros st st' K E i G H; cbn [slices_run] in E; [congruence|].
      destruct (nth_error ss j) as [s|] eqn:Es; [|eapply IH; eauto].
      destruct (nth_error st j) as [[G0|]|] eqn:Ej; try (eapply IH; eauto; fail).
      destruct (Forall2_nth_error _ _ _ _ _ F Es) as (G0 & E0 & V). rewrite V in E. cbn [bind] in E.
      assert (Lj : (j < length st)%nat) by (apply nth_error_Some; congruence).
      assert (Ne : i <> j) by (intros ->; congruence).
      eapply IH; [| exact E|].
      - destruct K as [K1 K2]. split; [now rewrite upd_length|]. intros k G' H'. destruct (Nat.eq_dec k j) as [->|Nk].
        + rewrite nth_error_upd_eq in H' by auto. congruence.
        + rewrite nth_error_upd_neq in H' by auto. auto.
      - rewrite nth_error_upd_neq; auto. }
    induction sched as [|j sched IH]; intros st K; cbn [slices_run].
    - exists st. split; auto. split; auto. intros i [].
    - destruct (nth_error ss j) as [s|] eqn:Es.
      2:{ destruct (IH st K) as (st' & E & K' & H). exists st'. split; auto. split; auto. intros i [<-|Hi] Li; auto.
          apply nth_error_None in Es. lia. }
      destruct (Forall2_nth_error _ _ _ _ _ F Es) as (G0 & E0 & V).
      destruct (nth_error st j) as [[G1|]|] eqn:Ej.
      + destruct (IH st K) as (st' & E & K' & H). exists st'. split; auto. split; auto. intros i [<-|Hi] Li; auto.
        rewrite (Keep _ _ _ K E _ _ Ej). now rewrite (proj2 K _ _ Ej).
      + rewrite V. cbn [bind].
        assert (Lj : (j < length st)%nat) by (apply nth_error_Some; congruence).
        assert (K1 : slices_ok (upd st j (Some G0))).
        { destruct K as [K1 K2]. split; [now rewrite upd_length|]. intros k G' H'. destruct (Nat.eq_dec k j) as [->|Nk].
          - rewrite nth_error_upd_eq in H' by auto. congruence.
          - rewrite nth_error_upd_neq in H' by auto. auto. }
        destruct (IH _ K1) as (st' & E & K' & H). exists st'. split; auto. split; auto. intros i [<-|Hi] Li; auto.
        rewrite E0. eapply Keep; [exact K1|exact E|]. apply nth_error_upd_eq. auto.
      + exfalso. apply nth_error_None in Ej. assert (j < length ss)%nat by (apply nth_error_Some; congruence). destruct K. lia.
  Qed.
  (** a schedule in which every iteration occurs gives the results of the loop *)
  Lemma slices_complete sched : (forall i, (i < length ss)%nat -> In i sched) ->
    slices_run N end_ ss sched (repeat None (length ss)) = OK (map Some Gs).
  Proof.
    intros C. pose proof (proj1 (mapM_ok _ _ _) HG) as F. pose proof (Forall2_len _ _ _ F) as LG.
    destruct (slices_run_ok sched (repeat None (length ss))) as (st' & E & [K1 K2] & H).
    { split; [apply repeat_length|]. intros i G X. exfalso. apply nth_error_In in X. apply repeat_spec in X. discriminate. }
    rewrite E. f_equal. apply nth_error_ext. intros i. rewrite nth_error_map. destruct (Nat.lt_ge_cases i (length ss)) as [L|L].
    - apply H; auto.
    - rewrite (proj2 (nth_error_None st' i)) by lia. rewrite (proj2 (nth_error_None Gs i)) by lia. reflexivity.
  Qed.
End SLICES.

Section RUNS.
  Variables (slv : solver) (N : dND) (T : list poly).
  Notation D := (nd_dr N).
  Notation h := (nvalue slv N T).

  Lemma nred_value zz v : h (NRed zz v) = compute_reduction_matrix_ND slv N v.
  Proof. destruct zz; reflexivity. Qed.
  Lemma npoly_value r v : h (NPoly (ring_zz r) v) =
    if r =? 0 then compute_reduction_matrix_ND_poly_ZZ slv N v else compute_reduction_matrix_ND_poly slv N v.
  Proof. unfold ring_zz. destruct (r =? 0); reflexivity. Qed.

  Lemma grm_run r u v : run h (get_reduction_matrix_ND_p N r u v) = get_reduction_matrix_ND slv N r u v.
  Proof.
    unfold get_reduction_matrix_ND_p, get_reduction_matrix_ND. rewrite run_bind, run_lift. destruct (nd_pre D u v); cbn [bind]; auto.
    rewrite run_bind, run_ask, nred_value. cbv zeta. destruct (compute_reduction_matrix_ND slv N v); cbn [bind]; auto. apply run_lift.
  Qed.
  Lemma rv_run u v G : run h (reduce_vector_ND_p N u v G) = reduce_vector_ND slv N u v G.
  Proof.
    unfold reduce_vector_ND_p, reduce_vector_ND. rewrite run_bind, run_lift. destruct (nd_pre D u v); cbn [bind]; auto.
    rewrite run_bind, run_ask, nred_value. cbv zeta. destruct (compute_reduction_matrix_ND slv N v); cbn [bind]; auto. apply run_lift.
  Qed.
  Lemma rvZ_run u v G : run h (reduce_vector_ND_ZZ_p N u v G) = reduce_vector_ND_ZZ slv N u v G.
  Proof.
    unfold reduce_vector_ND_ZZ_p, reduce_vector_ND_ZZ. rewrite run_bind, run_lift. destruct (nd_pre D u v); cbn [bind]; auto.
    rewrite run_bind, run_ask, nred_value. cbv zeta. destruct (compute_reduction_matrix_ND slv N v); cbn [bind]; auto. apply run_lift.
  Qed.
  Lemma gp_run r u v : run h (get_ND_poly_p N r u v) = get_ND_poly slv N r u v.
  Proof.
    unfold get_ND_poly_p, get_ND_poly. rewrite run_bind, run_ask, npoly_value. cbv zeta.
    destruct (if r =? 0 then _ else _); cbn [bind]; auto. apply run_lift.
  Qed.
  Lemma rvp_run r u v k G : run h (reduce_vector_ND_poly_p N r u v k G) = reduce_vector_ND_poly slv N r u v k G.
  Proof.
    unfold reduce_vector_ND_poly_p, reduce_vector_ND_poly. rewrite run_bind, run_lift. destruct (nd_pre D u v); cbn [bind]; auto.
    rewrite run_bind, gp_run. destruct (get_ND_poly slv N r u v); cbn [bind]; auto. apply run_lift.
  Qed.
  Lemma gpf_run u v : run h (get_ND_poly_flint_p N u v) = get_ND_poly_flint slv N u v.
  Proof.
    unfold get_ND_poly_flint_p, get_ND_poly_flint. rewrite run_bind, run_lift. destruct (nd_pre D u v); cbn [bind]; auto. apply gp_run.
  Qed.
  Lemma mtb_loop_run k : forall u G, run h (mtb_ND_loop_p N k u G) = mtb_ND_loop slv N k u G.
  Proof.
    induction k as [|k IH]; intros u G; cbn [mtb_ND_loop_p mtb_ND_loop]; auto.
    rewrite run_bind, run_lift. destruct (nd_dir _ u); cbn [bind]; auto.
    rewrite run_bind, run_lift. destruct (vec_sub u _); cbn [bind]; auto.
    rewrite run_bind, rv_run. destruct (reduce_vector_ND slv N _ _ _); cbn [bind]; auto.
  Qed.
  Lemma mtb_run u : run h (monomial_to_basis_ND_p N u) = monomial_to_basis_ND slv N u.
  Proof.
    unfold monomial_to_basis_ND_p, monomial_to_basis_ND. cbv zeta.
    rewrite run_bind, run_lift; destruct (check (_ =? _)%nat EUB); cbn [bind]; auto.
    rewrite run_bind, run_lift; destruct (check (forallb _ _) _); cbn [bind]; auto.
    rewrite run_bind, run_lift; destruct (check (Z.rem _ _ =? 0) _); cbn [bind]; auto.
    rewrite run_bind, run_lift; destruct (check (Nat.ltb _ _) _); cbn [bind]; auto.
    rewrite run_bind, mtb_loop_run. destruct (mtb_ND_loop slv N _ u _) as [uG|]; cbn [bind]; auto.
    rewrite run_bind, run_lift. destruct (check _ _); cbn [bind]; auto.
    rewrite run_bind, run_ask. cbn [nvalue]. destruct (get_coKernels_ND_to_basis slv N (fst uG)); cbn [bind]; auto. apply run_lift.
  Qed.

  Lemma steps_run step step' v end_ h0 G : (forall a b, run h (step a b) = step' a b) ->
    run h (fnd_steps_p N step v end_ h0 G) = fnd_steps N step' v end_ h0 G.
  Proof.
    intros H. unfold fnd_steps_p, fnd_steps. apply run_foldP. intros st _. rewrite run_bind, run_lift.
    destruct (vec_sub (fst st) v); cbn [bind]; auto. rewrite run_bind, H. destruct (step' _ _); reflexivity.
  Qed.
  Lemma reduce_run k end_ v h0 G : run h (fnd_reduce_p N k end_ v h0 G) = fnd_reduce slv N k end_ v h0 G.
  Proof.
    unfold fnd_reduce_p, fnd_reduce. cbv zeta. destruct k as [[|[|[|l]]]|[|[|l]]|]; try reflexivity.
    - rewrite run_bind, run_lift. destruct (vec_sub _ _); cbn [bind]; auto. rewrite run_bind, rvp_run. destruct (reduce_vector_ND_poly _ _ _ _ _ _ _); reflexivity.
    - apply steps_run. intros a b. rewrite run_bind, rvZ_run. destruct (reduce_vector_ND_ZZ _ _ _ _ _); reflexivity.
    - apply steps_run. intros a b. rewrite run_bind, grm_run. destruct (get_reduction_matrix_ND _ _ _ _ _); cbn [bind]; auto. apply run_lift.
    - rewrite run_bind, run_lift. destruct (vec_sub _ _); cbn [bind]; auto. rewrite run_bind, rvp_run. destruct (reduce_vector_ND_poly _ _ _ _ _ _ _); reflexivity.
    - apply steps_run. intros a b. rewrite run_bind, grm_run. destruct (get_reduction_matrix_ND _ _ _ _ _); cbn [bind]; auto. apply run_lift.
    - rewrite run_bind, run_lift. destruct (vec_sub _ _); cbn [bind]; auto. rewrite run_bind, gpf_run. destruct (get_ND_poly_flint _ _ _ _); cbn [bind]; auto.
      rewrite run_bind, run_lift. destruct (reduce_vector_ND_poly_flint _ _ _ _ _); reflexivity.
  Qed.

  (** the loop body of [fnd_pass] after the reduction *)
  Definition fnd_collect (k : fnd_kind) (e : Z) (st : vmap (list Z) * list Z) (h0 v dest : vec) (G0 : list Z)
    : res (vmap (list Z) * list Z) :=
    let q := r_q D in
    let G := lvec_red q G0 in
    if all_zero q G then OK st
    else if 1 <? e then
      y <- vec_sub h0 v ;;
      _ <- check (veqb (vscale (r_p D) y) dest) EAssert ;;
      match vfind y (fst st) with
      | None => OK (vinsert y G (fst st), snd st)
      | Some G0 => S <- lvec_add q G0 G ;; OK (vinsert y S (fst st), snd st)
      end
    else
      _ <- check (match k with KFlint => true | _ => veqb dest h0 end) EAssert ;;
      M <- get_coKernels_ND_to_basis slv N h0 ;;
      G1 <- mat_vec q M G ;;
      F' <- lvec_add q (snd st) G1 ;;
      OK (fst st, F').
  Lemma collect_run k e st h0 v dest G0 : run h (fnd_collect_p N k e st h0 v dest G0) = fnd_collect k e st h0 v dest G0.
  Proof.
    unfold fnd_collect_p, fnd_collect. cbv zeta. destruct (all_zero _ _); auto. destruct (1 <? e).
    - rewrite run_bind, run_lift. destruct (vec_sub h0 v) as [y|]; cbn [bind]; auto. rewrite run_bind, run_lift. destruct (check _ _); cbn [bind]; auto.
      destruct (vfind y (fst st)); auto. rewrite run_bind, run_lift. destruct (lvec_add _ _ _); reflexivity.
    - rewrite run_bind, run_lift. destruct (check _ _); cbn [bind]; auto. rewrite run_bind, run_ask. cbn [nvalue].
      destruct (get_coKernels_ND_to_basis slv N h0); cbn [bind]; auto. rewrite run_bind, run_lift. destruct (mat_vec _ _ _); cbn [bind]; auto.
      rewrite run_bind, run_lift. destruct (lvec_add _ _ _); reflexivity.
  Qed.
  Lemma fnd_pass_eq k ei m e H F : fnd_pass slv N k ei m e H F =
    foldM (fun st hG =>
      v <- fnd_dir N k ei m e (fst hG) ;;
      dG <- fnd_reduce slv N k (if 1 <? e then r_p D else r_p D - 1) v (fst hG) (snd hG) ;;
      fnd_collect k e st (fst hG) v (fst dG) (snd dG)) H ([], F).
  Proof. reflexivity. Qed.
  Lemma pass_run k ei m e H F : run h (fnd_pass_p N k ei m e H F) = fnd_pass slv N k ei m e H F.
  Proof.
    rewrite fnd_pass_eq. unfold fnd_pass_p. apply run_foldP. intros st hG. rewrite run_bind, run_lift.
    destruct (fnd_dir N k ei m e (fst hG)); cbn [bind]; auto. rewrite run_bind, reduce_run.
    destruct (fnd_reduce slv N k _ _ _ _); cbn [bind]; auto. apply collect_run.
  Qed.

  (** ** several threads in frob_ND_flint *)
  Definition fnd_slice_r (ei : vec) (m e : Z) (end_ : Z) (hG : vec * list Z) : res fnd_slice :=
    v <- fnd_dir N KFlint ei m e (fst hG) ;;
    dest <- vec_sub (vscale (r_p D) (fst hG)) (vscale end_ v) ;;
    Ps <- get_ND_poly_flint slv N dest v ;;
    OK (fst hG, v, dest, Ps, snd hG).
  Lemma slice_run ei m e end_ hG : run h (fnd_slice_p N ei m e end_ hG) = fnd_slice_r ei m e end_ hG.
  Proof.
    unfold fnd_slice_p, fnd_slice_r. rewrite run_bind, run_lift. destruct (fnd_dir _ _ _ _ _ _); cbn [bind]; auto.
    rewrite run_bind, run_lift. destruct (vec_sub _ _); cbn [bind]; auto. rewrite run_bind, gpf_run. destruct (get_ND_poly_flint _ _ _ _); reflexivity.
  Qed.
  Definition fnd_gather (e : Z) (st : vmap (list Z) * list Z) (sG : fnd_slice * list Z) : res (vmap (list Z) * list Z) :=
    let '(h0, v, dest, _, _) := fst sG in fnd_collect KFlint e st h0 v dest (snd sG).
  Lemma mt_run ei m e H F : run h (fnd_pass_mt_p N ei m e H F) =
    (let end_ := if 1 <? e then r_p D else r_p D - 1 in
     ss <- mapM (fnd_slice_r ei m e end_) H ;;
     Gs <- mapM (slice_reduce N end_) ss ;;
     foldM (fnd_gather e) (combine ss Gs) ([], F)).
  Proof.
    unfold fnd_pass_mt_p. cbv zeta. rewrite run_bind, run_mapP, (mapM_ext_in _ _ _ (fun hG _ => slice_run ei m e _ hG)).
    destruct (mapM _ H) as [ss|]; cbn [bind]; auto. rewrite run_bind, run_lift. destruct (mapM _ ss) as [Gs|]; cbn [bind]; auto.
    apply run_foldP. intros st [[[[[h0 v] dest] Ps] G] G']. apply collect_run.
  Qed.
  Lemma mt_pass ei m e H F x : run h (fnd_pass_mt_p N ei m e H F) = OK x <-> fnd_pass slv N KFlint ei m e H F = OK x.
  Proof.
    rewrite mt_run, fnd_pass_eq. cbv zeta. set (end_ := if 1 <? e then _ else _). generalize (([], F) : vmap (list Z) * list Z).
    induction H as [|hG H IH]; intros st; [reflexivity|].
    cbn [mapM foldM]. unfold fnd_slice_r at 1. cbn [fnd_reduce].
    destruct (fnd_dir N KFlint ei m e (fst hG)) as [v|]; cbn [bind]; [|split; discriminate].
    destruct (vec_sub _ (vscale end_ v)) as [dest|]; cbn [bind]; [|split; discriminate].
    destruct (get_ND_poly_flint slv N dest v) as [Ps|]; cbn [bind]; [|split; discriminate].
    destruct (reduce_vector_ND_poly_flint (r_n D) (r_q D) Ps end_ (snd hG)) as [G'|] eqn:EG; cbn [bind fst snd].
    - split.
      + intros E. apply bind_ok in E. destruct E as (ss & E1 & E). apply bind_ok in E. destruct E as (Gs & E2 & E).
        apply bind_ok in E1. destruct E1 as (ss' & E1 & E1'). injection E1' as <-. cbn [mapM] in E2.
        apply bind_ok in E2. destruct E2 as (g & E3 & E2). cbn [slice_reduce] in E3. rewrite EG in E3. injection E3 as <-.
        apply bind_ok in E2. destruct E2 as (gs & E2 & E2'). injection E2' as <-. cbn [combine foldM] in E. unfold fnd_gather at 1 in E.
        cbn [fst snd] in E. apply bind_ok in E. destruct E as (st1 & E4 & E). rewrite E4. cbn [bind]. apply IH. rewrite E1. cbn [bind].
        rewrite E2. cbn [bind]. exact E.
      + intros E. apply bind_ok in E. destruct E as (st1 & E4 & E). apply IH in E. apply bind_ok in E. destruct E as (ss & E1 & E).
        apply bind_ok in E. destruct E as (Gs & E2 & E). rewrite E1. cbn [bind mapM slice_reduce]. rewrite EG. cbn [bind]. rewrite E2. cbn [bind combine foldM].
        unfold fnd_gather at 1. cbn [fst snd]. rewrite E4. cbn [bind]. exact E.
    - split; [|discriminate]. intros E. exfalso. apply bind_ok in E. destruct E as (ss & E1 & E). apply bind_ok in E. destruct E as (Gs & E2 & E).
      apply bind_ok in E1. destruct E1 as (ss' & E1 & E1'). injection E1' as <-. cbn [mapM] in E2.
      apply bind_ok in E2. destruct E2 as (g & E3 & E2). cbn [slice_reduce] in E3. congruence.
  Qed.

  Lemma loop_run mt k dj ei m fpow e x : forall st, run h (fnd_loop_p N mt k dj ei m fpow e st) = OK x <-> fnd_loop slv N k dj ei m fpow e st = OK x.
  Proof.
    induction e as [|e IH]; intros [[H F] fact]; cbn [fnd_loop_p fnd_loop]; [reflexivity|].
    rewrite run_bind, run_lift. apply bind_iff; [tauto|]. intros H1. rewrite run_bind. apply bind_iff; [|intros; apply IH].
    intros HF. destruct k as [l|l|]; [now rewrite pass_run|now rewrite pass_run|]. destruct mt; [apply mt_pass|now rewrite pass_run].
  Qed.
  Lemma kind_run mt k i prec x : run h (frob_ND_kind_p N mt k i prec) = OK x <-> frob_ND_kind slv N k T i prec = OK x.
  Proof.
    unfold frob_ND_kind_p, frob_ND_kind, fnd_sum. cbv zeta. rewrite run_bind, run_lift.
    destruct (get_at (r_basis D) (Z.of_nat i)) as [ei|]; cbn [bind]; [|tauto]. rewrite run_bind, run_lift.
    destruct (check _ EAssert); cbn [bind]; [|tauto]. rewrite run_bind, run_ask. cbn [nvalue NFpow ivalue bvalue value].
    destruct (compute_fpow _ _ _ _) as [fp|]; cbn [bind]; [|tauto]. rewrite run_bind.
    set (lp := fnd_loop slv N _ _ _ _ _ _ _).
    transitivity ((st <- lp ;; run h (lift (fnd_finish k (r_q D) (r_p D) (Z.of_nat (r_n D)) (r_p D * (pole_order D ei + prec - 1)) (snd (fst st))))) = OK x).
    - apply bind_iff; [|tauto]. intros st. apply loop_run.
    - destruct lp as [st|]; cbn [bind fst]; [now rewrite run_lift|tauto].
  Qed.
  Lemma row_run mt prec i x : run h (frob_row_ND_p N mt prec i) = OK x <-> frob_row_ND slv N T prec i = OK x.
  Proof.
    unfold frob_row_ND_p, frob_row_ND. cbv zeta. rewrite run_bind, run_lift. destruct (get_at prec _) as [Nm|]; cbn [bind]; [|tauto].
    destruct (0 <? Nm); [|reflexivity]. apply kind_run.
  Qed.
End RUNS.
