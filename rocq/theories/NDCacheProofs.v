(** Proofs about the memo tables of the non-degenerate object (NDCacheModel.v). *)
From Coq Require Import ZArith List Bool Lia.
From Verif Require Import Base VecModel VecSpec VecProofs ToolsModel ToolsSpec ToolsProofs MatModel MatProofs
  DRModel DRSpec DRProofs DRPath FrobModel FrobPath FdModel ProgModel ProgProofs CacheModel CacheProofs CachePrep
  NDModel FrobNDModel NDCacheModel.
Import ListNotations.
Open Scope Z_scope.

(** * requests of programs *)
Section ALLREQ.
  Context {Q : Type} {ans : Q -> Type}.
  Variable h : forall r : Q, res (ans r).
  Variable P : Q -> Prop.
  Lemma all_req_bind {A B} (m : gprog Q ans A) (f : A -> gprog Q ans B) :
    all_req h P m -> (forall a, all_req h P (f a)) -> all_req h P (pbind m f).
  Proof. induction m as [a|e|r k IH]; cbn [pbind all_req]; auto. intros [H1 H2] H3. split; auto. Qed.
  Lemma all_req_lift {A} (x : res A) : all_req h P (lift x).
  Proof. destruct x; exact I. Qed.
  Lemma all_req_ask r : P r -> all_req h P (ask r).
  Proof. intros H. split; auto. intros; exact I. Qed.
  Lemma all_req_mapP {A B} (f : A -> gprog Q ans B) l : (forall a, all_req h P (f a)) -> all_req h P (mapP f l).
  Proof.
    intros H. induction l as [|a l IH]; cbn [mapP]; [exact I|]. apply all_req_bind; auto. intros b.
    apply all_req_bind; auto. intros bs. exact I.
  Qed.
  Lemma all_req_ok {A} (m : gprog Q ans A) : all_req h P m -> ok_req h P m.
  Proof. induction m as [a|e|r k IH]; cbn [all_req ok_req]; auto. intros [H1 H2] x E. auto. Qed.
End ALLREQ.

(** an object whose requests relate the states by R, R reflexive and transitive *)
Lemma srun_rel {Q} {ans : Q -> Type} {C} (serve : C -> forall r : Q, res (ans r * C)) (R : C -> C -> Prop) :
  (forall c, R c c) -> (forall a b c, R a b -> R b c -> R a c) ->
  (forall c r x c', serve c r = OK (x, c') -> R c c') ->
  forall A (m : gprog Q ans A) c a c', srun serve c m = OK (a, c') -> R c c'.
Proof.
  intros H1 H2 H3 A m. induction m as [b|e|r k IH]; intros c a c' E; cbn [srun] in E.
  - injection E as _ <-. auto.
  - discriminate.
  - apply bind_ok in E. destruct E as ([x c1] & E1 & E). cbn [fst snd] in E. eapply H2; [eapply H3; eauto|]. eapply IH; eauto.
Qed.

Lemma mapM_ext_in {A B} (f g : A -> res B) l : (forall a, In a l -> f a = g a) -> mapM f l = mapM g l.
Proof.
  induction l as [|a l IH]; intros H; cbn [mapM]; auto. rewrite H by now left.
  destruct (g a); cbn [bind]; auto. rewrite IH; auto. intros b Ib. apply H. now right.
Qed.
Lemma mapM_iff {A B} (f g : A -> res B) l : (forall a b, In a l -> (f a = OK b <-> g a = OK b)) ->
  forall r, mapM f l = OK r <-> mapM g l = OK r.
Proof.
  intros H. induction l as [|a l IH]; intros r; cbn [mapM]; [tauto|].
  assert (IH' := IH (fun a b I => H a b (or_intror I))). split; intros E.
  - apply bind_ok in E. destruct E as (b & E1 & E). apply bind_ok in E. destruct E as (bs & E2 & E).
    rewrite (proj1 (H a b (or_introl eq_refl)) E1). cbn [bind]. rewrite (proj1 (IH' bs) E2). exact E.
  - apply bind_ok in E. destruct E as (b & E1 & E). apply bind_ok in E. destruct E as (bs & E2 & E).
    rewrite (proj2 (H a b (or_introl eq_refl)) E1). cbn [bind]. rewrite (proj2 (IH' bs) E2). exact E.
Qed.
Lemma bind_iff {A B} (m1 m2 : res A) (f g : A -> res B) x : (forall a, m1 = OK a <-> m2 = OK a) ->
  (forall a, f a = OK x <-> g a = OK x) -> ((a <- m1 ;; f a) = OK x <-> (a <- m2 ;; g a) = OK x).
Proof.
  intros H1 H2. split; intros E; apply bind_ok in E; destruct E as (a & E1 & E).
  - rewrite (proj1 (H1 a) E1). cbn [bind]. now apply H2.
  - rewrite (proj2 (H1 a) E1). cbn [bind]. now apply H2.
Qed.

(** * Tables keyed by vectors of length k *)
Section TABV.
  Context {V : Type}.
  Variables (k : nat) (val : vec -> res V).
  Definition tabv (m : vmap V) : Prop := vsorted k m /\ forall v x, In (v, x) m -> val v = OK x.
  Lemma tabv_find m v x : tabv m -> length v = k -> vfind v m = Some x -> val v = OK x.
  Proof. intros [S H] L F. apply (vfind_In k) in F; auto. Qed.
  Lemma tabv_insert m v x : tabv m -> length v = k -> val v = OK x -> tabv (vinsert v x m).
  Proof.
    intros [S H] L E. split; [now apply vinsert_sorted|]. intros v' x' I. apply (vinsert_In k) in I; auto.
    destruct I as [[-> ->]|[_ I]]; auto.
  Qed.
  Lemma tabv_erase m v : tabv m -> length v = k -> tabv (verase v m).
  Proof.
    intros [S H] L. split; [now apply verase_sorted|]. intros v' x' I. apply (verase_In k) in I; auto. destruct I; auto.
  Qed.
  Lemma tabv_nil : tabv [].
  Proof. split; [constructor|]. intros v x []. Qed.
End TABV.

Section NDC.
  Variables (sm : bool) (slv : solver) (N : dND) (T : list poly).
  Notation D := (nd_dr N).
  Notation n1 := (S (r_n D)).

  (** every stored value is the value computed without tables *)
  Record ncache_ok (c : ncache) : Prop := {
    nok_j : cache_ok slv D T (nc_j c);
    nok_solve_s : zsorted (nc_solve c);
    nok_solve : forall l x, In (l, x) (nc_solve c) -> get_solve_ND slv D l = OK x;
    nok_incl : tabv n1 (fun u => ivalue slv N T (IIncl u)) (nc_incl c);
    nok_ckn : tabv n1 (get_coKernels_ND_to_basis slv N) (nc_ckn c);
    nok_red : tabv n1 (compute_reduction_matrix_ND slv N) (nc_red c);
    nok_redZ : tabv n1 (compute_reduction_matrix_ND slv N) (nc_redZ c);
    nok_poly : tabv n1 (compute_reduction_matrix_ND_poly slv N) (nc_poly c);
    nok_polyZ : tabv n1 (compute_reduction_matrix_ND_poly_ZZ slv N) (nc_polyZ c)
  }.

  Definition wf_breq (r : breq) : Prop := match r with BJ r => wf_req D T r | BSolve _ => True end.
  Definition wf_ireq (r : ireq) : Prop := match r with IB r => wf_breq r | IIncl u => length u = n1 end.
  Definition wf_nreq (r : nreq) : Prop :=
    match r with NI r => wf_ireq r | NRed _ v => length v = n1 | NPoly _ v => length v = n1 | NCkn u => length u = n1 end.

  Lemma bserve_ok c r : ncache_ok c -> wf_breq r ->
    (forall x c', bserve sm slv N c r = OK (x, c') -> bvalue slv N T r = OK x /\ ncache_ok c') /\
    (forall x, bvalue slv N T r = OK x -> exists c', bserve sm slv N c r = OK (x, c')).
  Proof.
    intros K W. destruct r as [r|l]; cbn [bserve bvalue].
    - destruct (serve_ok sm slv D T (nc_j c) r (nok_j c K) W) as [S1 S2]. split.
      + intros x c' E. apply bind_ok in E. destruct E as ([y c1] & E1 & E). cbn [fst snd] in E. injection E as <- <-.
        destruct (S1 y c1 E1) as [V K1]. split; [exact V|]. destruct K. constructor; cbn; auto.
      + intros x E. destruct (S2 x E) as (c1 & E1). rewrite E1. cbn [bind fst snd]. eauto.
    - unfold nsolve_c. destruct (mfind Z.ltb l (nc_solve c)) as [y|] eqn:F.
      + apply zfind_In in F; [|apply K]. assert (V := nok_solve c K l y F). split.
        * intros x c' E. injection E as <- <-. auto.
        * intros x E. exists c. rewrite V in E. injection E as <-. reflexivity.
      + split.
        * intros x c' E. apply bind_ok in E. destruct E as (z & E1 & E). injection E as <- <-. split; [exact E1|].
          destruct K. constructor; cbn; auto; [now apply zinsert_sorted|].
          intros l' x' I. apply zinsert_In in I; auto. destruct I as [[-> ->]|[_ I]]; auto.
        * intros x E. rewrite E. cbn [bind]. eauto.
  Qed.
  (** the other tables are not touched *)
  Definition rest0 (c c' : ncache) : Prop :=
    nc_incl c' = nc_incl c /\ nc_ckn c' = nc_ckn c /\ nc_red c' = nc_red c /\ nc_redZ c' = nc_redZ c /\
    nc_poly c' = nc_poly c /\ nc_polyZ c' = nc_polyZ c.
  Lemma bserve_rest c r x c' : bserve sm slv N c r = OK (x, c') -> rest0 c c'.
  Proof.
    destruct r as [r|l]; cbn [bserve].
    - intros E. apply bind_ok in E. destruct E as (y & _ & E). injection E as <- <-. repeat split.
    - unfold nsolve_c. destruct (mfind Z.ltb l (nc_solve c)).
      + intros E. injection E as <- <-. repeat split.
      + intros E. apply bind_ok in E. destruct E as (z & _ & E). injection E as <- <-. repeat split.
  Qed.
  Lemma rest0_refl c : rest0 c c. Proof. repeat split. Qed.
  Lemma rest0_trans a b c : rest0 a b -> rest0 b c -> rest0 a c.
  Proof. unfold rest0. intuition congruence. Qed.
  Lemma bsrun_rest {A} (m : gprog breq bans A) c a c' : srun (bserve sm slv N) c m = OK (a, c') -> rest0 c c'.
  Proof. apply srun_rel; eauto using rest0_refl, rest0_trans, bserve_rest. Qed.

  Notation bh := (bvalue slv N T).
  Notation ih := (ivalue slv N T).
  Notation nh := (nvalue slv N T).

  (** ** inclusion matrices *)
  Lemma incl_p_wf u : all_req bh wf_breq (incl_p N u).
  Proof. apply all_req_mapP. intros l. apply all_req_bind; [apply all_req_ask; exact I|]. intros x. apply all_req_lift. Qed.
  Lemma incl_p_run u : nd_pos_pre N u = OK tt ->
    run bh (incl_p N u) = mapM (get_inclusion_matrix_ND slv N u) (zseq 0 (Z.of_nat (r_n D))).
  Proof.
    intros P. unfold nd_pos_pre, nd_positive in P. apply bind_ok in P. destruct P as ([] & P1 & P2).
    unfold incl_p. rewrite run_mapP. apply mapM_ext_in. intros l Hl. apply zseq_In in Hl.
    rewrite run_bind, run_ask. unfold get_inclusion_matrix_ND. rewrite P1. cbn [bind]. rewrite P2. cbn [bind].
    destruct (Z.ltb_spec l (Z.of_nat (r_n D))); [|lia]. cbn [check bind bvalue].
    destruct (get_solve_ND slv D (l * r_d D)) as [BU|]; cbn [bind]; auto. now rewrite run_lift.
  Qed.

  Lemma nincl_c_ok c u : ncache_ok c -> length u = n1 ->
    (forall x c', nincl_c sm slv N c u = OK (x, c') -> ih (IIncl u) = OK x /\ ncache_ok c' /\ vfind u (nc_incl c') <> None) /\
    (forall x, ih (IIncl u) = OK x -> exists c', nincl_c sm slv N c u = OK (x, c')).
  Proof.
    intros K Lu. unfold nincl_c. cbn [ivalue].
    destruct (nd_pos_pre N u) as [[]|] eqn:P; [|cbn; split; discriminate]. cbn [bind].
    destruct (vfind u (nc_incl c)) as [y|] eqn:F.
    - pose proof (tabv_find _ _ _ _ _ (nok_incl c K) Lu F) as V. cbn [ivalue] in V. rewrite P in V. cbn [bind] in V. split.
      + intros x c' E. injection E as <- <-. split; [auto|]. split; [auto|congruence].
      + intros x E. rewrite V in E. injection E as <-. eauto.
    - destruct (gsrun_ok (bserve sm slv N) bh ncache_ok wf_breq bserve_ok (incl_p N u) c K (incl_p_wf u)) as [S1 S2].
      rewrite (incl_p_run u P) in S1, S2. split.
      + intros x c' E. apply bind_ok in E. destruct E as ([y c1] & E1 & E). cbn [fst snd] in E. injection E as <- <-.
        destruct (S1 y c1 E1) as [V K1]. split; [exact V|]. split.
        * destruct K1. constructor; cbn; auto. apply tabv_insert; auto. cbn [ivalue]. rewrite P. exact V.
        * cbn. apply (vfind_vinsert D); auto. apply K1.
      + intros x E. destruct (S2 x E) as (c1 & E1). rewrite E1. cbn [bind fst snd]. eauto.
  Qed.
  Definition rest1 (c c' : ncache) : Prop :=
    nc_ckn c' = nc_ckn c /\ nc_red c' = nc_red c /\ nc_redZ c' = nc_redZ c /\
    nc_poly c' = nc_poly c /\ nc_polyZ c' = nc_polyZ c.
  Lemma rest0_1 c c' : rest0 c c' -> rest1 c c'.
  Proof. unfold rest0, rest1. tauto. Qed.
  Lemma iserve_rest c r x c' : iserve sm slv N c r = OK (x, c') -> rest1 c c'.
  Proof.
    destruct r as [r|u]; cbn [iserve].
    - intros E. eapply rest0_1, bserve_rest; eauto.
    - unfold nincl_c. intros E. apply bind_ok in E. destruct E as (? & _ & E). destruct (vfind u (nc_incl c)).
      + injection E as <- <-. repeat split.
      + apply bind_ok in E. destruct E as ([y c1] & E1 & E). injection E as <- <-. apply bsrun_rest in E1. now apply rest0_1 in E1.
  Qed.
  Lemma isrun_rest {A} (m : gprog ireq ians A) c a c' : srun (iserve sm slv N) c m = OK (a, c') -> rest1 c c'.
  Proof.
    apply srun_rel; [| |exact iserve_rest].
    - intros; repeat split.
    - unfold rest1. intuition congruence.
  Qed.
  Lemma iserve_ok c r : ncache_ok c -> wf_ireq r ->
    (forall x c', iserve sm slv N c r = OK (x, c') -> ih r = OK x /\ ncache_ok c') /\
    (forall x, ih r = OK x -> exists c', iserve sm slv N c r = OK (x, c')).
  Proof.
    intros K W. destruct r as [r|u]; cbn [iserve].
    - now apply bserve_ok.
    - destruct (nincl_c_ok c u K W) as [S1 S2]. split; auto. intros x c' E. destruct (S1 x c' E) as (? & ? & _). auto.
  Qed.

  (** ** matrices to the basis *)
  Lemma get_incl_run u l x : nd_pos_pre N u = OK tt -> 0 <= l ->
    (forall L, mapM (get_inclusion_matrix_ND slv N u) (zseq 0 (Z.of_nat (r_n D))) = OK L ->
      (run ih (get_inclusion_ND_p N u l) = OK x <-> get_inclusion_matrix_ND slv N u l = OK x)).
  Proof.
    intros P Hl L EL. unfold get_inclusion_ND_p. rewrite run_bind, run_lift.
    destruct (Z.ltb_spec l (Z.of_nat (r_n D))) as [B|B]; cbn [check bind].
    - rewrite run_bind, run_ask. cbn [ivalue]. rewrite P. cbn [bind]. rewrite EL. cbn [bind]. rewrite run_lift.
      assert (E : get_inclusion_matrix_ND slv N u l = get_at L l); [|now rewrite E].
      assert (X : nth_error (zseq 0 (Z.of_nat (r_n D))) (Z.to_nat l) = Some l).
      { unfold zseq. rewrite zrange_nth_error by lia. f_equal. lia. }
      apply mapM_ok in EL. destruct (Forall2_nth_error _ _ _ _ _ EL X) as (y & Ey & V). rewrite V.
      unfold get_at. destruct (Z.ltb_spec l 0); [lia|]. now rewrite Ey.
    - unfold get_inclusion_matrix_ND. apply bind_ok in P. destruct P as ([] & P1 & P2). unfold nd_positive in P1.
      rewrite P1. cbn [bind]. rewrite P2. cbn [bind]. destruct (Z.ltb_spec l (Z.of_nat (r_n D))); [lia|]. cbn. split; discriminate.
  Qed.

  Lemma ckn_column_run u topJ lo listH dictT dictH m :
    run ih (ckn_column_p N u topJ lo listH dictT dictH m) = ckn_column slv N u topJ lo listH dictT dictH m.
  Proof.
    unfold ckn_column_p, ckn_column. rewrite run_bind, run_lift. cbv zeta.
    destruct (tweak m (Z.of_nat (r_n D))) as [tt0|]; cbn [bind]; auto.
    destruct (vec_sub m tt0) as [a|]; cbn [bind]; auto. destruct (vec_add tt0 u) as [tu|]; cbn [bind]; auto.
    destruct (vec_sub tu _) as [w|]; cbn [bind]; auto. destruct (dget dictT w) as [cw|]; cbn [bind]; auto.
    destruct (check _ EUB); cbn [bind]; auto. destruct (mapM _ (list_prod _ _)) as [us|]; cbn [bind]; auto.
    destruct (check _ EUB); cbn [bind]; auto. rewrite run_bind, run_ask. cbn [ivalue bvalue value].
    destruct (get_final_reduction_matrix_J slv D _); cbn [bind]; auto. now rewrite run_lift.
  Qed.
  Lemma ckn_p_run u x : nd_pos_pre N u = OK tt -> (run ih (ckn_p N u) = OK x <-> get_coKernels_ND_to_basis slv N u = OK x).
  Proof.
    intros P. unfold get_coKernels_ND_to_basis, ckn_p. cbv zeta.
    pose proof P as P'. unfold nd_pos_pre, nd_positive in P'. apply bind_ok in P'. destruct P' as ([] & P1 & P2).
    rewrite P1. cbn [bind]. rewrite P2. cbn [bind].
    rewrite run_bind. apply bind_iff.
    { intros low. rewrite run_mapP. set (zn := Z.of_nat (r_n D)).
      assert (X : forall l, run ih (M <~ ask (IB (BJ (QFinal (l + 1)))) ;; incl <~ get_inclusion_ND_p N u l ;; lift (mapM (mat_vec (r_q D) M) incl)) =
        (M <- get_final_reduction_matrix_J slv D (l + 1) ;; incl <- run ih (get_inclusion_ND_p N u l) ;; mapM (mat_vec (r_q D) M) incl)).
      { intros l. rewrite run_bind, run_ask. cbn [ivalue bvalue value]. destruct (get_final_reduction_matrix_J slv D (l + 1)); cbn [bind]; auto.
        rewrite run_bind. destruct (run ih (get_inclusion_ND_p N u l)); cbn [bind]; auto. apply run_lift. }
      rewrite (mapM_ext_in _ _ _ (fun l _ => X l)). clear X.
      destruct (mapM (get_inclusion_matrix_ND slv N u) (zseq 0 zn)) as [L|] eqn:EL.
      - apply mapM_iff. intros l b Hl. apply zseq_In in Hl. apply bind_iff; [tauto|]. intros M. apply bind_iff; [|tauto].
        intros inc. eapply get_incl_run; eauto. lia.
      - destruct (zseq 0 zn) as [|l0 ls] eqn:Ez; [reflexivity|]. split; intros E; exfalso.
        + cbn [mapM] in E. apply bind_ok in E. destruct E as (b & E1 & _). apply bind_ok in E1. destruct E1 as (M & _ & E1).
          apply bind_ok in E1. destruct E1 as (inc & E1 & _). unfold get_inclusion_ND_p in E1. rewrite run_bind, run_lift in E1.
          apply bind_ok in E1. destruct E1 as (? & _ & E1). rewrite run_bind, run_ask in E1. cbn [ivalue] in E1.
          fold zn in E1. rewrite P, Ez in E1. cbn [bind] in E1. rewrite EL in E1. cbn [bind] in E1; discriminate E1.
        + assert (Y : exists L, mapM (get_inclusion_matrix_ND slv N u) (l0 :: ls) = OK L); [|destruct Y; congruence].
          revert low E. clear. induction (l0 :: ls) as [|l r IH]; intros low E; cbn [mapM] in *; [eauto|].
          apply bind_ok in E. destruct E as (b & E1 & E). apply bind_ok in E. destruct E as (bs & E2 & _).
          apply bind_ok in E1. destruct E1 as (M & _ & E1). apply bind_ok in E1. destruct E1 as (inc & E1 & _). rewrite E1. cbn [bind].
          destruct (IH bs E2) as (L & ->). cbn [bind]. eauto. }
    intros low. rewrite run_bind, run_ask. cbn [ivalue bvalue value]. apply bind_iff; [tauto|]. intros topJ.
    rewrite run_bind, run_ask. cbn [ivalue bvalue value]. apply bind_iff; [tauto|]. intros BU.
    do 5 (rewrite run_bind, run_lift; apply bind_iff; [tauto|]; intros ?).
    rewrite run_bind, run_mapP. apply bind_iff.
    { apply mapM_iff. intros b col _. rewrite run_bind, run_lift. apply bind_iff; [tauto|]. intros m. rewrite ckn_column_run. tauto. }
    intros high. rewrite run_bind, run_lift. apply bind_iff; [tauto|]. intros ?. reflexivity.
  Qed.
  Lemma ckn_p_wf u : length u = n1 -> all_req ih wf_ireq (ckn_p N u).
  Proof.
    intros Lu. unfold ckn_p. cbv zeta. apply all_req_bind.
    { apply all_req_mapP. intros l. apply all_req_bind; [apply all_req_ask; exact I|]. intros M. apply all_req_bind; [|intros; apply all_req_lift].
      unfold get_inclusion_ND_p. apply all_req_bind; [apply all_req_lift|]. intros _. apply all_req_bind; [apply all_req_ask; exact Lu|].
      intros; apply all_req_lift. }
    intros low. apply all_req_bind; [apply all_req_ask; exact I|]. intros ?. apply all_req_bind; [apply all_req_ask; exact I|]. intros ?.
    do 5 (apply all_req_bind; [apply all_req_lift|]; intros ?).
    apply all_req_bind.
    { apply all_req_mapP. intros b. apply all_req_bind; [apply all_req_lift|]. intros m. unfold ckn_column_p. cbv zeta.
      apply all_req_bind; [apply all_req_lift|]. intros H. apply all_req_bind; [apply all_req_ask; exact I|]. intros; apply all_req_lift. }
    intros high. apply all_req_bind; [apply all_req_lift|]. intros; exact I.
  Qed.
  Lemma nckn_c_ok c u : ncache_ok c -> length u = n1 ->
    (forall x c', nckn_c sm slv N c u = OK (x, c') -> nh (NCkn u) = OK x /\ ncache_ok c' /\ vfind u (nc_ckn c') <> None) /\
    (forall x, nh (NCkn u) = OK x -> exists c', nckn_c sm slv N c u = OK (x, c')).
  Proof.
    intros K Lu. unfold nckn_c. cbn [nvalue].
    destruct (nd_pos_pre N u) as [[]|] eqn:P.
    2:{ cbn [bind]. split; [discriminate|]. intros x E. exfalso. unfold get_coKernels_ND_to_basis in E.
        apply bind_ok in E. destruct E as ([] & E1 & E). apply bind_ok in E. destruct E as ([] & E2 & _).
        unfold nd_pos_pre, nd_positive in P. rewrite E1 in P. cbn [bind] in P. congruence. }
    cbn [bind]. destruct (vfind u (nc_ckn c)) as [y|] eqn:F.
    - pose proof (tabv_find _ _ _ _ _ (nok_ckn c K) Lu F) as V. split.
      + intros x c' E. injection E as <- <-. split; [auto|]. split; [auto|congruence].
      + intros x E. rewrite V in E. injection E as <-. eauto.
    - destruct (gsrun_ok (iserve sm slv N) ih ncache_ok wf_ireq iserve_ok (ckn_p N u) c K (ckn_p_wf u Lu)) as [S1 S2]. split.
      + intros x c' E. apply bind_ok in E. destruct E as ([y c1] & E1 & E). cbn [fst snd] in E. injection E as <- <-.
        destruct (S1 y c1 E1) as [V K1]. apply (ckn_p_run u y P) in V. split; [exact V|]. split.
        * destruct K1. constructor; cbn; auto. apply tabv_insert; auto.
        * cbn. apply (vfind_vinsert D); auto. apply K1.
      + intros x E. apply (ckn_p_run u x P) in E. destruct (S2 x E) as (c1 & E1). rewrite E1. cbn [bind fst snd]. eauto.
  Qed.

  (** ** reduction matrices *)
  Lemma nd_red_run v : run bh (nd_red_p N v) = compute_reduction_matrix_ND slv N v.
  Proof.
    unfold nd_red_p, compute_reduction_matrix_ND. cbv zeta. rewrite run_bind, run_lift.
    destruct (check _ EAssert); cbn [bind]; auto. rewrite run_bind, run_mapP.
    rewrite (mapM_ext_in _ (fun i => get_solve_ND slv D ((i + 1) * r_d D))) by (intros a0 _; exact (run_ask bh (BSolve ((a0 + 1) * r_d D)))).
    fold (nd_solves slv D). destruct (nd_solves slv D); cbn [bind]; auto.
    rewrite run_bind, run_ask. cbn [bvalue]. destruct (get_solve_ND slv D (top_ND D)); cbn [bind]; auto. apply run_lift.
  Qed.
  Lemma nd_red_wf v : all_req bh wf_breq (nd_red_p N v).
  Proof.
    unfold nd_red_p. cbv zeta. apply all_req_bind; [apply all_req_lift|]. intros _.
    apply all_req_bind; [apply all_req_mapP; intros; apply all_req_ask; exact I|]. intros ?.
    apply all_req_bind; [apply all_req_ask; exact I|]. intros; apply all_req_lift.
  Qed.
  (** a table is only extended *)
  Definition grows {V} (m m' : vmap V) : Prop := forall v, length v = n1 -> vfind v m <> None -> vfind v m' <> None.
  Lemma grows_refl {V} (m : vmap V) : grows m m. Proof. intros v _ H. exact H. Qed.
  Lemma grows_insert {V} (m : vmap V) v x : vsorted n1 m -> length v = n1 -> grows m (vinsert v x m).
  Proof. intros S L v' L' H. apply (vfind_vinsert D); auto. Qed.

  Lemma nred_c_ok c v : ncache_ok c -> length v = n1 ->
    (forall x c', nred_c sm slv N c v = OK (x, c') -> compute_reduction_matrix_ND slv N v = OK x /\ ncache_ok c' /\
       nc_ckn c' = nc_ckn c /\ nc_redZ c' = nc_redZ c /\ nc_poly c' = nc_poly c /\ nc_polyZ c' = nc_polyZ c /\ nc_incl c' = nc_incl c) /\
    (forall x, compute_reduction_matrix_ND slv N v = OK x -> exists c', nred_c sm slv N c v = OK (x, c')).
  Proof.
    intros K Lv. unfold nred_c. destruct (vfind v (nc_red c)) as [y|] eqn:F.
    - pose proof (tabv_find _ _ _ _ _ (nok_red c K) Lv F) as V. split.
      + intros x c' E. injection E as <- <-. auto 10.
      + intros x E. rewrite V in E. injection E as <-. eauto.
    - destruct (gsrun_ok (bserve sm slv N) bh ncache_ok wf_breq bserve_ok (nd_red_p N v) c K (nd_red_wf v)) as [S1 S2].
      rewrite nd_red_run in S1, S2. split.
      + intros x c' E. apply bind_ok in E. destruct E as ([y c1] & E1 & E). cbn [fst snd] in E. injection E as <- <-.
        destruct (S1 y c1 E1) as [V K1]. apply bsrun_rest in E1. unfold rest0 in E1. split; [exact V|]. split.
        * destruct K1. constructor; cbn; auto. apply tabv_insert; auto.
        * cbn. tauto.
      + intros x E. destruct (S2 x E) as (c1 & E1). rewrite E1. cbn [bind fst snd]. eauto.
  Qed.
  Lemma nerase_red c v : ncache_ok c -> length v = n1 -> ncache_ok (nset_red c (verase v (nc_red c))).
  Proof. intros [] L. constructor; cbn; auto. now apply tabv_erase. Qed.
  Lemma nerase_poly c v : ncache_ok c -> length v = n1 -> ncache_ok (nset_poly c (verase v (nc_poly c))).
  Proof. intros [] L. constructor; cbn; auto. now apply tabv_erase. Qed.

  Lemma with_red_ok c v f put : ncache_ok c -> length v = n1 ->
    (forall c R x, ncache_ok c -> compute_reduction_matrix_ND slv N v = OK R -> f R = OK x -> ncache_ok (put c x)) ->
    (forall x c', with_red sm slv N c v f put = OK (x, c') ->
       (R <- compute_reduction_matrix_ND slv N v ;; f R) = OK x /\ ncache_ok c' /\
       exists R c1, nred_c sm slv N c v = OK (R, c1) /\ (c' = put c1 x \/ c' = nset_red (put c1 x) (verase v (nc_red (put c1 x))))) /\
    (forall x, (R <- compute_reduction_matrix_ND slv N v ;; f R) = OK x -> exists c', with_red sm slv N c v f put = OK (x, c')).
  Proof.
    intros K Lv HP. destruct (nred_c_ok c v K Lv) as [S1 S2]. unfold with_red. cbv zeta. split.
    - intros x c' E. apply bind_ok in E. destruct E as ([R c1] & E1 & E). cbn [fst snd] in E.
      apply bind_ok in E. destruct E as (y & E2 & E). injection E as <- <-. destruct (S1 R c1 E1) as (V & K1 & _).
      split; [rewrite V; exact E2|]. pose proof (HP c1 R y K1 V E2) as K2. split.
      + destruct (negb _ && sm); [now apply nerase_red|exact K2].
      + exists R, c1. split; auto. destruct (negb _ && sm); auto.
    - intros x E. apply bind_ok in E. destruct E as (R & V & E). destruct (S2 R V) as (c1 & E1). rewrite E1. cbn [bind fst snd].
      rewrite E. cbn [bind]. eauto.
  Qed.
  Lemma nredZ_c_ok c v : ncache_ok c -> length v = n1 ->
    (forall x c', nredZ_c sm slv N c v = OK (x, c') -> compute_reduction_matrix_ND slv N v = OK x /\ ncache_ok c' /\
       nc_ckn c' = nc_ckn c /\ nc_polyZ c' = nc_polyZ c) /\
    (forall x, compute_reduction_matrix_ND slv N v = OK x -> exists c', nredZ_c sm slv N c v = OK (x, c')).
  Proof.
    intros K Lv. unfold nredZ_c. destruct (vfind v (nc_redZ c)) as [y|] eqn:F.
    - pose proof (tabv_find _ _ _ _ _ (nok_redZ c K) Lv F) as V. split.
      + intros x c' E. injection E as <- <-. auto 10.
      + intros x E. rewrite V in E. injection E as <-. eauto.
    - destruct (with_red_ok c v (fun R => OK R) (fun c x => nset_redZ c (vinsert v x (nc_redZ c))) K Lv) as [S1 S2].
      { intros c0 R x K0 V E. injection E as ->. destruct K0. constructor; cbn; auto. now apply tabv_insert. }
      assert (X : forall x, (R <- compute_reduction_matrix_ND slv N v ;; OK R) = OK x <-> compute_reduction_matrix_ND slv N v = OK x).
      { intros x. destruct (compute_reduction_matrix_ND slv N v); cbn; split; congruence. }
      split.
      + intros x c' E. destruct (S1 x c' E) as (A1 & A2 & R & c1 & A3 & A4). apply X in A1. split; auto. split; auto.
        destruct (proj1 (nred_c_ok c v K Lv) R c1 A3) as (_ & _ & B1 & B2 & B3 & B4 & _). destruct A4 as [->| ->]; cbn; auto.
      + intros x E. apply S2. now apply X.
  Qed.
  Lemma npoly_c_ok c v : ncache_ok c -> length v = n1 ->
    (forall x c', npoly_c sm slv N c v = OK (x, c') -> compute_reduction_matrix_ND_poly slv N v = OK x /\ ncache_ok c' /\
       nc_ckn c' = nc_ckn c /\ nc_polyZ c' = nc_polyZ c) /\
    (forall x, compute_reduction_matrix_ND_poly slv N v = OK x -> exists c', npoly_c sm slv N c v = OK (x, c')).
  Proof.
    intros K Lv. unfold npoly_c. destruct (vfind v (nc_poly c)) as [y|] eqn:F.
    - pose proof (tabv_find _ _ _ _ _ (nok_poly c K) Lv F) as V. split.
      + intros x c' E. injection E as <- <-. auto 10.
      + intros x E. rewrite V in E. injection E as <-. eauto.
    - assert (X : (R <- compute_reduction_matrix_ND slv N v ;; nd_poly_from N v R) = compute_reduction_matrix_ND_poly slv N v) by reflexivity.
      destruct (with_red_ok c v (nd_poly_from N v) (fun c x => nset_poly c (vinsert v x (nc_poly c))) K Lv) as [S1 S2].
      { intros c0 R x K0 V E. destruct K0. constructor; cbn; auto. apply tabv_insert; auto. rewrite <- X, V. exact E. }
      rewrite X in S1, S2. split; [|exact S2].
      intros x c' E. destruct (S1 x c' E) as (A1 & A2 & R & c1 & A3 & A4). split; auto. split; auto.
      destruct (proj1 (nred_c_ok c v K Lv) R c1 A3) as (_ & _ & B1 & B2 & B3 & B4 & _). destruct A4 as [->| ->]; cbn; auto.
  Qed.
  Lemma npolyZ_c_ok c v : ncache_ok c -> length v = n1 ->
    (forall x c', npolyZ_c sm slv N c v = OK (x, c') -> compute_reduction_matrix_ND_poly_ZZ slv N v = OK x /\ ncache_ok c' /\
       nc_ckn c' = nc_ckn c /\ grows (nc_polyZ c) (nc_polyZ c') /\ vfind v (nc_polyZ c') <> None) /\
    (forall x, compute_reduction_matrix_ND_poly_ZZ slv N v = OK x -> exists c', npolyZ_c sm slv N c v = OK (x, c')).
  Proof.
    intros K Lv. unfold npolyZ_c. destruct (vfind v (nc_polyZ c)) as [y|] eqn:F.
    - pose proof (tabv_find _ _ _ _ _ (nok_polyZ c K) Lv F) as V. split.
      + intros x c' E. injection E as <- <-. split; [exact V|]. split; [exact K|]. split; [auto|]. split; [apply grows_refl|]. congruence.
      + intros x E. rewrite V in E. injection E as <-. eauto.
    - destruct (npoly_c_ok c v K Lv) as [S1 S2]. cbv zeta. unfold compute_reduction_matrix_ND_poly_ZZ. split.
      + intros x c' E. apply bind_ok in E. destruct E as ([P c1] & E1 & E). cbn [fst snd] in E.
        apply bind_ok in E. destruct E as (b & E2 & E). injection E as <- <-.
        destruct (S1 P c1 E1) as (V & K1 & A1 & A2). rewrite V. cbn [bind]. rewrite E2. cbn [bind]. split; auto.
        assert (VZ : compute_reduction_matrix_ND_poly_ZZ slv N v = OK P).
        { unfold compute_reduction_matrix_ND_poly_ZZ. rewrite V. cbn [bind]. now rewrite E2. }
        pose proof (proj1 (nok_polyZ c1 K1)) as SZ.
        assert (K2 : ncache_ok (nset_polyZ c1 (vinsert v P (nc_polyZ c1)))).
        { destruct K1. constructor; cbn; auto. now apply tabv_insert. }
        split; [destruct (negb _ && sm); [exact (nerase_poly _ v K2 Lv)|exact K2]|].
        split; [destruct (negb _ && sm); exact A1|].
        assert (Y : forall (b : bool) X, nc_polyZ (if b then nset_poly (nset_polyZ c1 (vinsert v P (nc_polyZ c1))) X
          else nset_polyZ c1 (vinsert v P (nc_polyZ c1))) = vinsert v P (nc_polyZ c)) by (intros [] X; cbn; now rewrite A2).
        rewrite Y. rewrite A2 in SZ. split; [now apply grows_insert|].
        apply (vfind_vinsert D); auto.
      + intros x E. apply bind_ok in E. destruct E as (P & V & E). apply bind_ok in E. destruct E as (b & E2 & E). injection E as <-.
        destruct (S2 P V) as (c1 & E1). rewrite E1. cbn [bind fst snd]. rewrite E2. cbn [bind]. eauto.
  Qed.

  (** * The tables always answer with the value computed without them *)
  Lemma nserve_ok c r : ncache_ok c -> wf_nreq r ->
    (forall x c', nserve sm slv N c r = OK (x, c') -> nh r = OK x /\ ncache_ok c') /\
    (forall x, nh r = OK x -> exists c', nserve sm slv N c r = OK (x, c')).
  Proof.
    intros K W. destruct r as [r|[|] v|[|] v|u]; cbn [nserve nvalue wf_nreq] in *.
    - now apply iserve_ok.
    - destruct (nredZ_c_ok c v K W) as [S1 S2]. split; auto. intros x c' E. destruct (S1 x c' E) as (? & ? & _). auto.
    - destruct (nred_c_ok c v K W) as [S1 S2]. split; auto. intros x c' E. destruct (S1 x c' E) as (? & ? & _). auto.
    - destruct (npolyZ_c_ok c v K W) as [S1 S2]. split; auto. intros x c' E. destruct (S1 x c' E) as (? & ? & _). auto.
    - destruct (npoly_c_ok c v K W) as [S1 S2]. split; auto. intros x c' E. destruct (S1 x c' E) as (? & ? & _). auto.
    - destruct (nckn_c_ok c u K W) as [S1 S2]. split; auto. intros x c' E. destruct (S1 x c' E) as (? & ? & _). auto.
  Qed.

  (** the requests that matter for frob_matrix_ND: their answers are stored *)
  Definition ncovered (c : ncache) (r : nreq) : Prop :=
    match r with
    | NPoly true v => length v = n1 /\ vfind v (nc_polyZ c) <> None
    | NCkn u => length u = n1 /\ vfind u (nc_ckn c) <> None
    | NI (IB (BJ (QFpow power))) => power < zlen T
    | _ => False
    end.
  Lemma ncovered_wf c r : ncovered c r -> wf_nreq r.
  Proof. destruct r as [[[[| | | |]|]|]|[|]|[|]|]; cbn; tauto. Qed.
  Lemma nset_j_same c : nset_j c (nc_j c) = c. Proof. now destruct c. Qed.
  Lemma nserve_covered c r x : ncache_ok c -> ncovered c r -> nh r = OK x -> nserve sm slv N c r = OK (x, c).
  Proof.
    intros K C V. destruct (nserve_ok c r K (ncovered_wf c r C)) as [S1 S2]. destruct (S2 x V) as (c' & E). rewrite E. do 2 f_equal.
    destruct r as [[[[| | | |power]|]|]|[|] v|[|] v|u]; cbn [ncovered nserve iserve bserve] in *; try tauto.
    - cbn [serve] in E. destruct (fpow_c_ok slv D T (nc_j c) power (nok_j c K) C) as [_ F2]. rewrite F2 in E. cbn [bind snd] in E.
      rewrite (set_fpow_same slv D T (nc_j c) (nok_j c K)), nset_j_same in E. congruence.
    - destruct C as [_ C]. unfold npolyZ_c in E. destruct (vfind v (nc_polyZ c)); [congruence|tauto].
    - destruct C as [_ C]. unfold nckn_c in E. apply bind_ok in E. destruct E as (? & _ & E). destruct (vfind u (nc_ckn c)); [congruence|tauto].
  Qed.

  Definition nkept (r : nreq) : Prop := match r with NPoly true _ | NCkn _ => True | _ => False end.
  Lemma nkeeps_of c c' : grows (nc_polyZ c) (nc_polyZ c') -> grows (nc_ckn c) (nc_ckn c') -> gkeeps ncovered nkept c c'.
  Proof.
    intros H1 H2 [r|[|] v|[|] v|u] Kr; cbn [nkept] in Kr; try tauto; cbn [ncovered]; intros [L C]; auto.
  Qed.
  Lemma nserve_keeps c r x c' : ncache_ok c -> wf_nreq r -> nserve sm slv N c r = OK (x, c') ->
    gkeeps ncovered nkept c c' /\ (nkept r -> ncovered c' r).
  Proof.
    intros K W E. destruct r as [r|[|] v|[|] v|u]; cbn [nserve nkept wf_nreq] in *.
    - split; [|tauto]. apply iserve_rest in E. destruct E as (E1 & _ & _ & _ & E2). apply nkeeps_of; rewrite ?E1, ?E2; apply grows_refl.
    - split; [|tauto]. destruct (proj1 (nredZ_c_ok c v K W) x c' E) as (_ & _ & E1 & E2). apply nkeeps_of; rewrite ?E1, ?E2; apply grows_refl.
    - split; [|tauto]. destruct (proj1 (nred_c_ok c v K W) x c' E) as (_ & _ & E1 & _ & _ & E2 & _). apply nkeeps_of; rewrite ?E1, ?E2; apply grows_refl.
    - destruct (proj1 (npolyZ_c_ok c v K W) x c' E) as (_ & _ & E1 & E2 & E3). split.
      + apply nkeeps_of; auto. rewrite E1. apply grows_refl.
      + intros _. split; auto.
    - split; [|tauto]. destruct (proj1 (npoly_c_ok c v K W) x c' E) as (_ & _ & E1 & E2). apply nkeeps_of; rewrite ?E1, ?E2; apply grows_refl.
    - destruct (proj1 (nckn_c_ok c u K W) x c' E) as (_ & _ & E3). split; [|intros _; split; auto].
      unfold nckn_c in E. apply bind_ok in E. destruct E as (? & _ & E). destruct (vfind u (nc_ckn c)).
      + injection E as <- <-. apply nkeeps_of; apply grows_refl.
      + apply bind_ok in E. destruct E as ([y c1] & E1 & E). injection E as <- <-.
        pose proof (proj1 (nok_ckn c K)) as SC. apply isrun_rest in E1. destruct E1 as (B1 & _ & _ & _ & B2). apply nkeeps_of; cbn; rewrite ?B1, ?B2.
        * apply grows_refl.
        * now apply grows_insert.
  Qed.

  Lemma empty_nok : cache_ok slv D T (empty_cache T) -> ncache_ok (empty_ncache T).
  Proof. intros K. constructor; cbn; auto using tabv_nil; try constructor. intros l x []. Qed.
End NDC.
