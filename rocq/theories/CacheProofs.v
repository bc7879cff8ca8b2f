(** Proofs about the memo tables (CacheModel.v). *)
From Coq Require Import ZArith List Bool Lia.
From Verif Require Import Base VecModel VecSpec VecProofs ToolsModel ToolsSpec ToolsProofs MatModel MatProofs
  DRModel DRSpec DRProofs DRPath FrobModel FrobPath ProgModel ProgProofs CacheModel.
Import ListNotations.
Open Scope Z_scope.

(** * Tables keyed by degrees *)
Definition zsorted {V} (m : list (Z * V)) : Prop := msorted Z.ltb (fun _ => True) m.
Lemma zt_irr a : (a <? a) = false. Proof. lia. Qed.
Lemma zt_trans (a b c : Z) : True -> True -> True -> (a <? b) = true -> (b <? c) = true -> (a <? c) = true.
Proof. lia. Qed.
Lemma zt_total (a b : Z) : True -> True -> (a <? b) = false -> (b <? a) = false -> a = b.
Proof. lia. Qed.
Lemma zfind_In {V} (m : list (Z * V)) k v : zsorted m -> (mfind Z.ltb k m = Some v <-> In (k, v) m).
Proof. intros. apply (mfind_In Z.ltb (fun _ => True)); auto using zt_irr, zt_total. exact zt_trans. Qed.
Lemma zinsert_In {V} (m : list (Z * V)) k v k' v' : zsorted m ->
  (In (k', v') (minsert Z.ltb k v m) <-> (k' = k /\ v' = v) \/ (k' <> k /\ In (k', v') m)).
Proof. intros. apply (minsert_In Z.ltb (fun _ => True)); auto using zt_irr, zt_total. exact zt_trans. Qed.
Lemma zinsert_sorted {V} (m : list (Z * V)) k v : zsorted m -> zsorted (minsert Z.ltb k v m).
Proof. intros. apply minsert_sorted; auto using zt_irr, zt_total. exact zt_trans. Qed.

Lemma verase_In {V} n (m : vmap V) k k' v' : vsorted n m -> length k = n ->
  (In (k', v') (verase k m) <-> k' <> k /\ In (k', v') m).
Proof. intros. apply (merase_In vltb (fun k => length k = n)); eauto using vltb_irrefl, vltb_trans, vltb_total. Qed.
Lemma verase_sorted {V} n (m : vmap V) k : vsorted n m -> length k = n -> vsorted n (verase k m).
Proof. intros. apply merase_sorted; eauto using vltb_irrefl, vltb_trans, vltb_total. Qed.

Section CACHE.
  Variables (sm : bool) (slv : solver) (D : dR) (T : list poly).
  Notation N := (S (r_n D)).

  (** every stored value is the value computed without tables *)
  Record cache_ok (c : cache) : Prop := {
    ok_solve_s : zsorted (c_solve c);
    ok_solve : forall l x, In (l, x) (c_solve c) -> get_solve_J slv D l = OK x;
    ok_red_s : vsorted N (c_red c);
    ok_red : forall v x, In (v, x) (c_red c) -> compute_reduction_matrix_J slv D v = OK x;
    ok_redZ_s : vsorted N (c_redZ c);
    ok_redZ : forall v x, In (v, x) (c_redZ c) -> compute_reduction_matrix_J slv D v = OK x;
    ok_incl_s : vsorted N (c_incl c);
    ok_incl : forall u x, In (u, x) (c_incl c) -> get_inclusion_matrix_J D u = OK x;
    ok_final : forall i x, nth_error (c_final c) i = Some x -> final_reduction slv D (S i) = OK x;
    ok_fpow : c_fpow c = T
  }.

  Definition wf_req (r : req) : Prop :=
    match r with
    | QSolve _ => True
    | QRed _ v => length v = N
    | QIncl u => length u = N
    | QFinal _ => True
    | QFpow power => power < zlen T
    end.

  Lemma solve_c_ok c l : cache_ok c ->
    (forall x c', solve_c slv D c l = OK (x, c') -> get_solve_J slv D l = OK x /\ cache_ok c') /\
    (forall x, get_solve_J slv D l = OK x -> exists c', solve_c slv D c l = OK (x, c')).
  Proof.
    intros K. unfold solve_c. destruct (mfind Z.ltb l (c_solve c)) as [y|] eqn:F.
    - apply zfind_In in F; [|apply K]. split.
      + intros x c' E. injection E as <- <-. split; auto. now apply K.
      + intros x E. exists c. rewrite (ok_solve c K l y F) in E. injection E as <-. reflexivity.
    - split.
      + intros x c' E. apply bind_ok in E. destruct E as (z & E1 & E). injection E as <- <-. split; auto.
        destruct K. constructor; cbn; auto.
        * now apply zinsert_sorted.
        * intros l' x' I. apply zinsert_In in I; auto. destruct I as [[-> ->]|[_ I]]; auto.
      + intros x E. rewrite E. cbn [bind]. eauto.
  Qed.
  (** the other tables are not touched *)
  Lemma solve_c_rest c l x c' : solve_c slv D c l = OK (x, c') ->
    c_red c' = c_red c /\ c_redZ c' = c_redZ c /\ c_incl c' = c_incl c /\ c_final c' = c_final c /\ c_fpow c' = c_fpow c.
  Proof.
    unfold solve_c. destruct (mfind Z.ltb l (c_solve c)).
    - intros E. injection E as <- <-. auto.
    - intros E. apply bind_ok in E. destruct E as (z & E1 & E). injection E as <- <-. cbn. auto.
  Qed.

  Lemma red_from_eq v x : (BU <- get_solve_J slv D (deg_top D) ;; red_from D v BU) = OK x <->
    compute_reduction_matrix_J slv D v = OK x.
  Proof.
    unfold red_from, compute_reduction_matrix_J, red_ups.
    destruct (get_solve_J slv D (deg_top D)) as [BU|]; cbn [bind];
      destruct (get_at (r_tl D) (degG D)) as [lG|]; cbn [bind]; try tauto; try (split; discriminate).
    destruct (get_at (r_td D) (degG D)) as [dG|]; cbn [bind]; try tauto.
    destruct (get_at (r_td D) (degG D + r_d D - (Z.of_nat (r_n D) + 1))) as [dW|]; cbn [bind]; try tauto.
    destruct (get_at (r_tl D) (degG D - Z.of_nat (r_n D))) as [lF|]; cbn [bind]; try tauto.
  Qed.

  Lemma red_c_ok c v : cache_ok c -> length v = N ->
    (forall x c', red_c slv D c v = OK (x, c') -> compute_reduction_matrix_J slv D v = OK x /\ cache_ok c' /\ In (v, x) (c_red c')) /\
    (forall x, compute_reduction_matrix_J slv D v = OK x -> exists c', red_c slv D c v = OK (x, c')).
  Proof.
    intros K Lv. unfold red_c. destruct (vfind v (c_red c)) as [y|] eqn:F.
    - apply (vfind_In N) in F; auto; [|apply K]. split.
      + intros x c' E. injection E as <- <-. split; auto. now apply K.
      + intros x E. exists c. rewrite (ok_red c K v y F) in E. injection E as <-. reflexivity.
    - destruct (solve_c_ok c (deg_top D) K) as [S1 S2]. split.
      + intros x c' E. apply bind_ok in E. destruct E as ([BU c1] & E1 & E). cbn [fst snd] in E.
        destruct (S1 BU c1 E1) as [G K1]. apply bind_ok in E. destruct E as (z & E2 & E). injection E as <- <-.
        assert (V : compute_reduction_matrix_J slv D v = OK z). { apply red_from_eq. rewrite G. exact E2. }
        split; auto. split.
        * destruct K1. constructor; cbn; auto; [now apply vinsert_sorted|].
          intros v' x' I. apply (vinsert_In N) in I; auto. destruct I as [[-> ->]|[_ I]]; auto.
        * cbn. apply (vinsert_In N); auto. apply K1.
      + intros x E. apply red_from_eq in E. apply bind_ok in E. destruct E as (BU & E1 & E2).
        destruct (S2 BU E1) as (c1 & Ec). rewrite Ec. cbn [bind fst snd]. rewrite E2. cbn [bind]. eauto.
  Qed.

  Lemma redZ_c_ok c v : cache_ok c -> length v = N ->
    (forall x c', redZ_c sm slv D c v = OK (x, c') -> compute_reduction_matrix_J slv D v = OK x /\ cache_ok c') /\
    (forall x, compute_reduction_matrix_J slv D v = OK x -> exists c', redZ_c sm slv D c v = OK (x, c')).
  Proof.
    intros K Lv. unfold redZ_c. destruct (vfind v (c_redZ c)) as [y|] eqn:F.
    - apply (vfind_In N) in F; auto; [|apply K]. split.
      + intros x c' E. injection E as <- <-. split; auto. exact (ok_redZ c K v y F).
      + intros x E. exists c. rewrite (ok_redZ c K v y F) in E. injection E as <-. reflexivity.
    - destruct (vfind v (c_red c)) as [y|] eqn:F'.
      + apply (vfind_In N) in F'; auto; [|apply K]. assert (V := ok_red c K v y F'). split.
        * intros x c' E. injection E as <- <-. split; auto. destruct K. constructor; cbn; auto; [now apply vinsert_sorted|].
          intros v' x' I. apply (vinsert_In N) in I; auto. destruct I as [[-> ->]|[_ I]]; auto.
        * intros x E. rewrite V in E. injection E as <-. eauto.
      + destruct (red_c_ok c v K Lv) as [R1 R2]. split.
        * intros x c' E. apply bind_ok in E. destruct E as ([y c1] & E1 & E). cbn [fst snd] in E.
          destruct (R1 y c1 E1) as (V & K1 & _). injection E as <- <-. split; auto.
          assert (K2 : cache_ok (set_redZ c1 (vinsert v y (c_redZ c1)))).
          { destruct K1. constructor; cbn; auto; [now apply vinsert_sorted|].
            intros v' x' I. apply (vinsert_In N) in I; auto. destruct I as [[-> ->]|[_ I]]; auto. }
          destruct sm; auto. destruct K2. constructor; cbn in *; auto; [now apply verase_sorted|].
          intros v' x' I. apply (verase_In N) in I; auto. destruct I; auto.
        * intros x E. destruct (R2 x E) as (c1 & E1). rewrite E1. cbn [bind fst]. eauto.
  Qed.

  Lemma incl_c_ok c u : cache_ok c -> length u = N ->
    (forall x c', incl_c D c u = OK (x, c') -> get_inclusion_matrix_J D u = OK x /\ cache_ok c') /\
    (forall x, get_inclusion_matrix_J D u = OK x -> exists c', incl_c D c u = OK (x, c')).
  Proof.
    intros K Lu. unfold incl_c. set (b := (_ =? _)).
    assert (HB : forall x, get_inclusion_matrix_J D u = OK x -> b = true).
    { intros x E. unfold get_inclusion_matrix_J in E. fold b in E. now destruct b. }
    destruct (vfind u (c_incl c)) as [y|] eqn:F.
    - apply (vfind_In N) in F; auto; [|apply K]. assert (V := ok_incl c K u y F). split.
      + intros x c' E. destruct b; [|discriminate]. injection E as <- <-. split; auto.
      + intros x E. rewrite (HB x E). cbn [check bind]. rewrite V in E. injection E as <-. eauto.
    - split.
      + intros x c' E. destruct b; [|discriminate]. cbn [check bind] in E.
        apply bind_ok in E. destruct E as (y & E1 & E). injection E as <- <-. split; auto.
        destruct K. constructor; cbn; auto; [now apply vinsert_sorted|].
        intros v' x' I. apply (vinsert_In N) in I; auto. destruct I as [[-> ->]|[_ I]]; auto.
      + intros x E. rewrite (HB x E). cbn [check bind]. rewrite E. cbn [bind]. eauto.
  Qed.

  Lemma final_step_eq k x : (Mlow <- final_reduction slv D (S k) ;;
      BU <- get_solve_J slv D (Z.of_nat (S (S k)) * r_d D - (Z.of_nat (r_n D) + 1)) ;;
      final_step D (S (S k)) Mlow BU) = OK x <-> final_reduction slv D (S (S k)) = OK x.
  Proof.
    change (final_reduction slv D (S (S k))) with
      (let deg := Z.of_nat (S (S k)) * r_d D - (Z.of_nat (r_n D) + 1) in
      listG <- get_at (r_tl D) deg ;;
      Mlow <- final_reduction slv D (S k) ;;
      listF <- get_at (r_tl D) (deg - (r_d D - 1)) ;;
      listH <- get_at (r_tl D) (deg - r_d D) ;;
      dictH <- get_at (r_td D) (deg - r_d D) ;;
      BU <- get_solve_J slv D deg ;;
      cols <- mapM (final_column D (Z.of_nat (S (S k))) Mlow listG listF listH dictH (fst BU) (snd BU))
                    (seq 0 (length listG)) ;;
      OK (transpose (length listG) (length (r_basis D)) cols)).
    unfold final_step. cbv zeta. set (deg := _ * r_d D - _).
    destruct (final_reduction slv D (S k)) as [Ml|]; cbn [bind].
    2:{ destruct (get_at (r_tl D) deg); cbn [bind]; split; discriminate. }
    destruct (get_solve_J slv D deg) as [BU|]; cbn [bind].
    - destruct (get_at (r_tl D) deg); cbn [bind]; try tauto.
    - destruct (get_at (r_tl D) deg); cbn [bind]; try (split; discriminate).
      destruct (get_at (r_tl D) (deg - (r_d D - 1))); cbn [bind]; try (split; discriminate).
      destruct (get_at (r_tl D) (deg - r_d D)); cbn [bind]; try (split; discriminate).
      destruct (get_at (r_td D) (deg - r_d D)); cbn [bind]; try (split; discriminate).
  Qed.

  Lemma final_one_eq x : (listG <- get_at (r_tl D) (r_d D - (Z.of_nat (r_n D) + 1)) ;; OK (final_one D listG)) = OK x <->
    final_reduction slv D 1 = OK x.
  Proof. cbn [final_reduction]. rewrite Z.mul_1_l. tauto. Qed.

  Lemma final_below k : forall x, final_reduction slv D (S k) = OK x ->
    forall i, (i <= k)%nat -> exists y, final_reduction slv D (S i) = OK y.
  Proof.
    induction k as [|k IH]; intros x E i Hi.
    - replace i with 0%nat by lia. eauto.
    - destruct (Nat.eq_dec i (S k)) as [->|]; [eauto|].
      apply final_step_eq in E. apply bind_ok in E. destruct E as (M & E & _). eapply IH; [exact E|lia].
  Qed.

  Lemma nth_error_last {A} (l : list A) d : l <> [] -> nth_error l (length l - 1) = Some (last l d).
  Proof.
    intros H. rewrite (app_removelast_last d H) at 1 2. rewrite app_length. cbn [length].
    rewrite nth_error_app2 by lia. replace (_ - _)%nat with 0%nat by lia. reflexivity.
  Qed.

  Lemma final_loop_ok k : forall c, cache_ok c ->
    (forall c', final_loop slv D k c = OK c' -> cache_ok c' /\ length (c_final c') = (length (c_final c) + k)%nat /\
      (forall i x, nth_error (c_final c) i = Some x -> nth_error (c_final c') i = Some x)) /\
    ((forall i, (i < length (c_final c) + k)%nat -> exists y, final_reduction slv D (S i) = OK y) ->
       exists c', final_loop slv D k c = OK c').
  Proof.
    induction k as [|k IH]; intros c K.
    - cbn [final_loop]. split; [|eauto]. intros c' E. injection E as <-. split; [auto|]. split; [lia|auto].
    - cbn [final_loop]. destruct (length (c_final c)) as [|len] eqn:Len.
      + assert (N0 : c_final c = []) by now apply length_zero_iff_nil.
        assert (Kn : forall listG, get_at (r_tl D) (r_d D - (Z.of_nat (r_n D) + 1)) = OK listG ->
          cache_ok (set_final c [final_one D listG])).
        { intros lG E. destruct K. constructor; cbn; auto. intros [|i] x H.
          - cbn in H. injection H as <-. apply final_one_eq. now rewrite E.
          - destruct i; discriminate. }
        split.
        * intros c' E. apply bind_ok in E. destruct E as (lG & E1 & E).
          destruct (proj1 (IH _ (Kn lG E1)) c' E) as (I1 & I2 & I3). cbn in I2. split; auto. split; [lia|].
          intros i x H. rewrite N0 in H. destruct i; discriminate.
        * intros H. destruct (H 0%nat ltac:(lia)) as [y Hy]. apply final_one_eq in Hy. apply bind_ok in Hy.
          destruct Hy as (lG & E1 & _). rewrite E1. cbn [bind]. apply (proj2 (IH _ (Kn lG E1))). cbn. intros i Hi. apply H. lia.
      + assert (Nn : c_final c <> []) by (intros E; rewrite E in Len; discriminate).
        assert (Lst : final_reduction slv D (S len) = OK (last (c_final c) [])).
        { apply (ok_final c K). transitivity (nth_error (c_final c) (length (c_final c) - 1)); [f_equal; lia|]. now apply nth_error_last. }
        set (deg := Z.of_nat (S (S len)) * r_d D - (Z.of_nat (r_n D) + 1)).
        destruct (solve_c_ok c deg K) as [S1 S2].
        assert (Kn : forall BU c1 M, solve_c slv D c deg = OK (BU, c1) -> final_step D (S (S len)) (last (c_final c) []) BU = OK M ->
          cache_ok (set_final c1 (c_final c1 ++ [M])) /\ c_final c1 = c_final c).
        { intros BU c1 M E1 E2. destruct (S1 _ _ E1) as [G K1]. destruct (solve_c_rest _ _ _ _ E1) as (_ & _ & _ & Ef & _).
          split; auto. destruct K1. constructor; cbn; auto. intros i x H. rewrite Ef in H.
          destruct (Nat.lt_ge_cases i (length (c_final c))) as [Hi|Hi].
          - rewrite nth_error_app1 in H by auto. now apply K.
          - rewrite nth_error_app2 in H by auto. destruct (i - length (c_final c))%nat eqn:Di; cbn in H.
            2:{ destruct n; discriminate. }
            injection H as <-. replace i with (S len) by lia. apply final_step_eq. rewrite Lst. cbn [bind]. fold deg. rewrite G. exact E2. }
        split.
        * intros c' E. apply bind_ok in E. destruct E as ([BU c1] & E1 & E). cbn [fst snd] in E.
          apply bind_ok in E. destruct E as (M & E2 & E). destruct (Kn _ _ _ E1 E2) as [K1 Ef].
          destruct (proj1 (IH _ K1) c' E) as (I1 & I2 & I3). cbn in I2, I3. rewrite app_length, Ef in I2. cbn in I2.
          split; auto. split; [lia|]. intros i x H. apply I3. rewrite Ef, nth_error_app1; auto.
          apply nth_error_Some. congruence.
        * intros H. destruct (H (S len) ltac:(lia)) as [y Hy]. apply final_step_eq in Hy. rewrite Lst in Hy. cbn [bind] in Hy. fold deg in Hy.
          apply bind_ok in Hy. destruct Hy as (BU & G & Hy). destruct (S2 BU G) as (c1 & E1). rewrite E1. cbn [bind fst snd].
          rewrite Hy. cbn [bind]. destruct (Kn _ _ _ E1 Hy) as [K1 Ef]. apply (proj2 (IH _ K1)). cbn. rewrite app_length, Ef. cbn.
          intros i Hi. apply H. lia.
  Qed.

  Lemma final_c_ok c k : cache_ok c ->
    (forall x c', final_c slv D c k = OK (x, c') -> get_final_reduction_matrix_J slv D k = OK x /\ cache_ok c' /\
       (Z.to_nat k <= length (c_final c'))%nat) /\
    (forall x, get_final_reduction_matrix_J slv D k = OK x -> exists c', final_c slv D c k = OK (x, c')).
  Proof.
    intros K. unfold final_c, get_final_reduction_matrix_J.
    destruct (k <=? Z.of_nat (r_n D)) eqn:B1; [|cbn; split; discriminate].
    destruct (Z.ltb_spec 0 k) as [Hk|]; [|cbn; split; discriminate]. cbn [check bind].
    destruct (final_loop_ok (Z.to_nat k - length (c_final c)) c K) as [F1 F2].
    assert (GA : forall c' M, get_at (c_final c') (k - 1) = OK M <-> nth_error (c_final c') (Z.to_nat k - 1) = Some M).
    { intros c' M. unfold get_at. destruct (Z.ltb_spec (k - 1) 0); [lia|]. replace (Z.to_nat (k - 1)) with (Z.to_nat k - 1)%nat by lia.
      destruct (nth_error (c_final c') (Z.to_nat k - 1)); split; congruence. }
    split.
    - intros x c' E. apply bind_ok in E. destruct E as (c1 & E1 & E). apply bind_ok in E. destruct E as (M & E2 & E). injection E as <- <-.
      destruct (F1 _ E1) as (K1 & Ln & _). split; [|split; [auto|lia]]. apply GA in E2. replace (Z.to_nat k) with (S (Z.to_nat k - 1)) by lia.
      now apply K1.
    - intros x E. destruct F2 as (c1 & E1).
      { intros i Hi. destruct (Nat.lt_ge_cases i (length (c_final c))) as [H|H].
        - destruct (nth_error (c_final c) i) as [y|] eqn:Ey; [exists y; now apply K|]. apply nth_error_None in Ey. lia.
        - eapply (final_below (Z.to_nat k - 1)); [|lia]. replace (S (Z.to_nat k - 1)) with (Z.to_nat k) by lia. exact E. }
      rewrite E1. cbn [bind]. destruct (F1 _ E1) as (K1 & Ln & _).
      destruct (nth_error (c_final c1) (Z.to_nat k - 1)) as [y|] eqn:Ey.
      2:{ apply nth_error_None in Ey. lia. }
      rewrite (proj2 (GA c1 y) Ey). cbn [bind]. assert (V := ok_final c1 K1 _ _ Ey).
      replace (S (Z.to_nat k - 1)) with (Z.to_nat k) in V by lia. rewrite V in E. injection E as <-. eauto.
  Qed.

  Lemma fpow_c_ok c power : cache_ok c -> power < zlen T ->
    compute_fpow (r_q D) (r_f D) power T = OK T /\ fpow_c D c power = OK (T, set_fpow c T).
  Proof.
    intros K H. unfold fpow_c. rewrite (ok_fpow c K). unfold compute_fpow.
    destruct (Z.leb_spec (zlen T) power); [lia|]. auto.
  Qed.
  Lemma set_fpow_same c : cache_ok c -> set_fpow c T = c.
  Proof. intros K. rewrite <- (ok_fpow c K). now destruct c. Qed.

  (** * The tables always answer with the value computed without them *)
  Lemma serve_ok c r : cache_ok c -> wf_req r ->
    (forall x c', serve sm slv D c r = OK (x, c') -> value slv D T r = OK x /\ cache_ok c') /\
    (forall x, value slv D T r = OK x -> exists c', serve sm slv D c r = OK (x, c')).
  Proof.
    intros K W. destruct r as [l|zz v|u|k|power]; cbn [serve value] in *.
    - now apply solve_c_ok.
    - destruct zz; [now apply redZ_c_ok|]. destruct (red_c_ok c v K W) as [R1 R2]. split; auto.
      intros x c' E. destruct (R1 x c' E) as (? & ? & _). auto.
    - now apply incl_c_ok.
    - destruct (final_c_ok c k K) as [R1 R2]. split; auto.
      intros x c' E. destruct (R1 x c' E) as (? & ? & _). auto.
    - cbn [wf_req] in W. destruct (fpow_c_ok c power K W) as [F1 F2]. rewrite F1, F2, (set_fpow_same c K). split.
      + intros x c' E. injection E as <- <-. auto.
      + intros x E. injection E as <-. eauto.
  Qed.

  (** a request whose answer is stored: nothing is written *)
  Definition covered (c : cache) (r : req) : Prop :=
    match r with
    | QSolve l => mfind Z.ltb l (c_solve c) <> None
    | QRed zz v => length v = N /\ vfind v (if zz then c_redZ c else c_red c) <> None
    | QIncl u => length u = N /\ vfind u (c_incl c) <> None
    | QFinal k => (Z.to_nat k <= length (c_final c))%nat
    | QFpow power => power < zlen T
    end.

  Lemma covered_wf c r : covered c r -> wf_req r.
  Proof. destruct r; cbn; tauto. Qed.

  Lemma serve_covered c r x : cache_ok c -> covered c r -> value slv D T r = OK x ->
    serve sm slv D c r = OK (x, c).
  Proof.
    intros K C V. destruct (serve_ok c r K (covered_wf c r C)) as [S1 S2]. destruct (S2 x V) as (c' & E). rewrite E. do 2 f_equal.
    destruct r as [l|zz v|u|k|power]; cbn [serve covered] in *.
    - unfold solve_c in E. destruct (mfind Z.ltb l (c_solve c)); [|tauto]. congruence.
    - destruct C as [_ C]. destruct zz.
      + unfold redZ_c in E. destruct (vfind v (c_redZ c)); [congruence|tauto].
      + unfold red_c in E. destruct (vfind v (c_red c)); [congruence|tauto].
    - destruct C as [_ C]. unfold incl_c in E. destruct (_ =? _); [|discriminate]. cbn [check bind] in E.
      destruct (vfind u (c_incl c)); [congruence|tauto].
    - unfold final_c in E. destruct (k <=? _); [|discriminate]. destruct (0 <? k); [|discriminate]. cbn [check bind] in E.
      replace (Z.to_nat k - length (c_final c))%nat with 0%nat in E by lia. cbn [final_loop bind] in E.
      apply bind_ok in E. destruct E as (M & _ & E). congruence.
    - destruct (fpow_c_ok c power K C) as [_ F2]. rewrite F2, (set_fpow_same c K) in E. congruence.
  Qed.

End CACHE.
