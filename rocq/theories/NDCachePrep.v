(** The preparation done by frob_matrix_ND for several threads fills the tables
    used by frob_ND_flint; then the threads only read. *)
From Coq Require Import ZArith List Bool Lia.
From Verif Require Import Base VecModel VecSpec VecProofs ToolsModel ToolsSpec ToolsProofs MatModel MatProofs
  DRModel DRSpec DRProofs DRRed DRPath PolyProofs DRStep DRFinal FrobModel FrobSpec FrobPath FrobProofs FrobSum FrobTop FdModel
  ProgModel ProgProofs CacheModel CacheProofs CacheCover CachePrep
  NDModel NDSpec NDRed NDStep NDPoly NDBasis FrobNDModel NDCacheModel NDCacheProofs NDCacheFrob.
Import ListNotations.
Open Scope Z_scope.

(** ** the direction *)
Definition dirn (w v : vec) : Prop := Forall2 (fun x y => 0 <= y /\ (y = 0 \/ y < x)) w v.
Lemma nd_bump_dirn w : forall v v', dirn w v -> nd_bump w v = Some v' -> dirn w v'.
Proof.
  induction w as [|x w IH]; intros v v' H E; inversion H as [|? y ? v0 Hy H']; subst; cbn [nd_bump] in E; [discriminate|].
  destruct (Z.ltb_spec (y + 1) x).
  - injection E as <-. constructor; auto. lia.
  - destruct (nd_bump w v0) as [v1|] eqn:E1; [|discriminate]. injection E as <-. constructor; [auto|]. exact (IH _ _ H' E1).
Qed.
Lemma nd_dir_dirn d w v : nd_dir d w = OK v -> dirn w v.
Proof.
  assert (H0 : dirn w (map (fun _ => 0) w)).
  { clear. induction w as [|x w IH]; cbn [map]; constructor; [split; [lia|now left]|exact IH]. }
  unfold nd_dir. revert H0. generalize (map (fun _ => 0) w). generalize 0. generalize (Z.to_nat d).
  intros fuel. induction fuel as [|fuel IH]; intros s v0 H0 E; cbn [nd_dir_loop] in E; destruct (s <? d); try discriminate; try congruence.
  destruct (nd_bump w v0) as [v1|] eqn:E1; [|discriminate]. eapply IH; [|exact E]. eapply nd_bump_dirn; eauto.
Qed.
Lemma dirn_len w v : dirn w v -> length v = length w.
Proof. induction 1; cbn; auto. Qed.
Lemma dirn_nonneg w v : dirn w v -> nonneg v.
Proof. intros H. unfold nonneg. induction H; constructor; auto. tauto. Qed.
Lemma dirn_nth w v i : dirn w v -> nth i v 0 = 0 \/ nth i v 0 < nth i w 0.
Proof. intros H. revert i. induction H as [|x y w v [? ?] H IH]; intros [|i]; cbn; auto. Qed.

Section NCOVER.
  Variables (slv : solver) (N : dND) (T : list poly).
  Notation D := (nd_dr N).
  Notation n1 := (S (r_n D)).
  Notation h := (nvalue slv N T).

  (** requests answered by the tables after the preparation *)
  Definition ncov (r : nreq) : Prop :=
    match r with
    | NPoly true v => is_tuple n1 (r_d D) v
    | NCkn u => is_tuple n1 (r_d D) u /\ nd_positive N u = true
    | NI (IB (BJ (QFpow power))) => power < zlen T
    | _ => False
    end.
  Notation hr := (hoare h ncov).

  Lemma nd_pre_tuple u v : length v = n1 -> nonneg v -> nd_pre D u v = OK tt -> is_tuple n1 (r_d D) v.
  Proof.
    intros L V E. unfold nd_pre in E. apply bind_ok in E. destruct E as (? & E & _). unfold check in E.
    destruct (Z.eqb_spec (sumf (fun i => nth i v 0) (seq 0 n1)) (r_d D)) as [E1|]; [|discriminate].
    rewrite sumf_nth_zsum in E1 by auto. now repeat split.
  Qed.
  Lemma gpf_cov u v : length v = n1 -> nonneg v -> hr (get_ND_poly_flint_p N u v) (fun _ => True).
  Proof.
    intros L V. unfold get_ND_poly_flint_p, get_ND_poly_p. apply hoare_lift_bind. intros [] E. cbv zeta.
    apply hoare_ask_bind. intros P _. split; [cbn; eapply nd_pre_tuple; eauto|]. apply hoare_lift. auto.
  Qed.

  Notation pv := (pos_vec D).
  Lemma fnd_dir_cov ei m e u v : pv ei -> pv u -> fnd_dir N KFlint ei m e u = OK v ->
    length v = n1 /\ nonneg v /\ (1 <? e = true -> forall i, nth i v 0 <= nth i u 0).
  Proof.
    intros [Le Pe] [Lu Pu] E. unfold fnd_dir in E. destruct (1 <? e) eqn:E1.
    2:{ injection E as <-. repeat split; auto. discriminate. }
    destruct (m <? e).
    - rewrite vec_sub_ok in E by lia. cbn [bind] in E. apply nd_dir_dirn in E. pose proof (dirn_len _ _ E) as L.
      rewrite (vsub_length _ _ n1) in L by auto. split; auto. split; [eapply dirn_nonneg; eauto|]. intros _ i.
      pose proof (nonneg_nth u i Pu). pose proof (nonneg_nth ei i Pe). pose proof (dirn_nth _ _ i E) as X.
      rewrite vsub_nth in X by lia. lia.
    - apply nd_dir_dirn in E. pose proof (dirn_len _ _ E) as L. split; [lia|]. split; [eapply dirn_nonneg; eauto|]. intros _ i.
      pose proof (nonneg_nth u i Pu). pose proof (dirn_nth _ _ i E) as X. lia.
  Qed.

  Notation good := (good_keys D).
  Lemma collect_cov k ei e st u v dest G0 : pv u -> length v = n1 -> (1 <? e = true -> forall i, nth i v 0 <= nth i u 0) ->
    good (fst st) -> hr (fnd_collect_p N k ei st u v dest G0) (fun st => ei = e -> good (fst st)).
  Proof.
    intros [Lu Pu] Lv Hv Hs. unfold fnd_collect_p. cbv zeta. destruct (all_zero _ _); [now apply hoare_ret|]. destruct (1 <? ei) eqn:E1.
    - apply hoare_lift_bind. intros y Ey. apply hoare_lift_bind. intros _ _.
      assert (Py : ei = e -> pv y).
      { intros <-. rewrite vec_sub_ok in Ey by lia. injection Ey as <-. split.
        - rewrite (vsub_length _ _ n1); lia.
        - apply nonneg_iff. intros j Hj. rewrite vsub_nth by lia. specialize (Hv E1 j). lia. }
      destruct (vfind y (fst st)).
      + apply hoare_lift_bind. intros S _. apply hoare_ret. intros Ee. apply good_vinsert; auto.
      + apply hoare_ret. intros Ee. apply good_vinsert; auto.
    - apply hoare_lift_bind. intros _ _. apply hoare_ask_bind. intros M EM. split.
      + cbn [nvalue ncov] in EM |- *. unfold get_coKernels_ND_to_basis in EM. cbv zeta in EM. apply bind_ok in EM. destruct EM as ([] & E2 & EM).
        apply bind_ok in EM. destruct EM as ([] & E3 & _). unfold check in *. unfold nd_positive.
        destruct (forallb (fun i => 0 <? nth i u 0) (seq 0 n1)); [|discriminate]. split; auto.
        destruct (Z.eqb_spec (sumf (fun i => nth i u 0) (seq 0 n1)) (r_d D)) as [E4|]; [|discriminate].
        rewrite sumf_nth_zsum in E4 by auto. now repeat split.
      + do 2 (apply hoare_lift_bind; intros ? _). now apply hoare_ret.
  Qed.
  Lemma collect_cov' k e st u v dest G0 : pv u -> length v = n1 -> (1 <? e = true -> forall i, nth i v 0 <= nth i u 0) ->
    good (fst st) -> hr (fnd_collect_p N k e st u v dest G0) (fun st => good (fst st)).
  Proof. intros H1 H2 H3 H4. eapply hoare_conseq; [eapply (collect_cov k e e); eauto|]. auto. Qed.

  Lemma pass_cov ei m e H F : pv ei -> good H -> hr (fnd_pass_p N KFlint ei m e H F) (fun st => good (fst st)).
  Proof.
    intros He HH. unfold fnd_pass_p. cbv zeta. apply (hoare_foldP h ncov _ (fun st => good (fst st))); [|intros ? ? []].
    intros st [u G] Iu Hs. cbn [fst snd]. pose proof (HH u G Iu) as Pu.
    apply hoare_lift_bind. intros v Ev. destruct (fnd_dir_cov ei m e u v He Pu Ev) as (Lv & Pv & Hv).
    eapply (hoare_bind _ _ _ _ (fun _ => True)).
    - cbn [fnd_reduce_p]. cbv zeta. apply hoare_lift_bind. intros dest _. eapply hoare_bind; [apply gpf_cov; auto|].
      intros Ps _. apply hoare_lift_bind. intros G' _. now apply hoare_ret.
    - intros dG _. apply collect_cov'; auto.
  Qed.
  (** an entry of the slices of the branch for several threads *)
  Definition slice_fine (e : Z) (s : fnd_slice) : Prop :=
    let '(u, v, _, _, _) := s in pv u /\ length v = n1 /\ (1 <? e = true -> forall i, nth i v 0 <= nth i u 0).
  Lemma hoare_mapP {A B} (f : A -> nprog B) (P : B -> Prop) l : (forall a, In a l -> hr (f a) P) -> hr (mapP f l) (Forall P).
  Proof.
    induction l as [|a l IH]; intros H; cbn [mapP]; [now apply hoare_ret|].
    eapply hoare_bind; [apply H; now left|]. intros b Pb. eapply hoare_bind; [apply IH; intros; apply H; now right|].
    intros bs Pbs. apply hoare_ret. now constructor.
  Qed.
  Lemma pass_mt_cov ei m e H F : pv ei -> good H -> hr (fnd_pass_mt_p N ei m e H F) (fun st => good (fst st)).
  Proof.
    intros He HH. unfold fnd_pass_mt_p. cbv zeta. eapply hoare_bind; [apply (hoare_mapP _ (slice_fine e))|].
    - intros [u G] Iu. pose proof (HH u G Iu) as Pu. unfold fnd_slice_p. cbn [fst snd].
      apply hoare_lift_bind. intros v Ev. destruct (fnd_dir_cov ei m e u v He Pu Ev) as (Lv & Pv & Hv).
      apply hoare_lift_bind. intros dest _. eapply hoare_bind; [apply gpf_cov; auto|]. intros Ps _. apply hoare_ret. cbn. auto.
    - intros ss Hss. apply hoare_lift_bind. intros Gs _.
      apply (hoare_foldP h ncov _ (fun st => good (fst st))); [|intros ? ? []].
      intros st [s G] Is Hs. apply in_combine_l in Is. apply (proj1 (Forall_forall _ _) Hss) in Is.
      destruct s as [[[[u v] dest] Ps] G']. cbn [fst snd]. destruct Is as (A1 & A2 & A3). apply collect_cov'; auto.
  Qed.

  Lemma fnd_add_keys skip ei c fact P : good_poly D P -> pv ei ->
    forall H H', good H -> fnd_add N skip ei c fact P H = OK H' -> good H'.
  Proof.
    intros GP [L1 L2]. unfold fnd_add. cbv zeta. induction P as [|[u x] P IH]; intros H H' GH E; cbn [foldM] in E; [now injection E as <-|].
    apply bind_ok in E. destruct E as (H1 & E1 & E). eapply (IH (fun u c I => GP u c (or_intror I))); [|exact E].
    cbn [fst snd] in E1. destruct (GP u x (or_introl eq_refl)) as [U1 U2].
    rewrite vec_add_ok in E1 by lia. cbn [bind] in E1.
    rewrite vec_add_ok in E1 by (rewrite (vadd_length u ei n1) by lia; unfold ones_vec; now rewrite repeat_length).
    cbn [bind] in E1. destruct (skip && _); [now injection E1 as <-|].
    apply bind_ok in E1; destruct E1 as (? & _ & E1). injection E1 as <-.
    apply good_vinsert; auto. unfold ones_vec. split.
    - rewrite (vadd_length _ _ n1); auto; [apply vadd_length; lia|]. now rewrite repeat_length.
    - apply nonneg_vadd; [now apply nonneg_vadd|]. apply nonneg_iff. intros i Hi. rewrite nth_repeat_any. destruct (Nat.ltb _ _); lia.
  Qed.

  Hypothesis HT : forall P, In P T -> good_poly D P.
  Hypothesis Hbasis : forall b, In b (r_basis D) -> pv b.

  Lemma loop_cov mt dj ei m k : pv ei -> forall st, good (fst (fst st)) ->
    hr (fnd_loop_p N mt KFlint dj ei m T k st) (fun _ => True).
  Proof.
    intros He. induction k as [|k IH]; intros [[H L] fact] GH; [now apply hoare_ret|]. cbn [fnd_loop_p]. cbn [fst] in GH.
    apply hoare_lift_bind. intros H1 E1.
    assert (G1 : good H1).
    { destruct (m <=? _); [|now injection E1 as <-]. apply bind_ok in E1. destruct E1 as (c & _ & E1).
      apply bind_ok in E1. destruct E1 as (P & EP & E1). eapply fnd_add_keys; [| |exact GH|exact E1]; auto.
      apply HT. unfold get_at in EP. destruct (_ <? 0); [discriminate|]. destruct (nth_error T _) eqn:X; [|discriminate].
      injection EP as <-. eapply nth_error_In; eauto. }
    eapply (hoare_bind _ _ _ _ (fun st => good (fst st))).
    - destruct mt; [now apply pass_mt_cov|now apply pass_cov].
    - intros HL GHL. now apply IH.
  Qed.

  Lemma row_cov mt NN i : (forall x, In x NN -> x <= zlen T) -> ok_req h ncov (frob_row_ND_p N mt NN i).
  Proof.
    intros HN. apply (proj1 (A := ok_req h ncov (frob_row_ND_p N mt NN i)) (B := forall a, run h (frob_row_ND_p N mt NN i) = OK a -> True)).
    unfold frob_row_ND_p. cbv zeta. apply hoare_lift_bind. intros Nm ENm.
    assert (Hm : Nm <= zlen T).
    { apply HN. unfold get_at in ENm. destruct (_ <? 0); [discriminate|]. destruct (nth_error NN _) eqn:X; [|discriminate].
      injection ENm as <-. eapply nth_error_In; eauto. }
    destruct (0 <? Nm); [|now apply hoare_ret]. unfold frob_ND_kind_p. cbv zeta.
    apply hoare_lift_bind. intros ei Eei. assert (Pe : pv ei).
    { apply Hbasis. unfold get_at in Eei. destruct (_ <? 0); [discriminate|]. destruct (nth_error (r_basis D) _) eqn:X; [|discriminate].
      injection Eei as <-. eapply nth_error_In; eauto. }
    apply hoare_lift_bind. intros _ _. apply hoare_ask_bind. intros fp Efp. split; [cbn; lia|].
    assert (Eq : fp = T).
    { cbn in Efp. unfold compute_fpow in Efp. destruct (Z.leb_spec (zlen T) (Nm - 1)); [lia|]. congruence. }
    rewrite Eq. eapply hoare_bind.
    - apply loop_cov; auto. cbn. intros ? ? [].
    - intros st _. apply hoare_lift. auto.
  Qed.
End NCOVER.

(** ** a longer table of powers gives the same results *)
Section NGROW.
  Variables (slv : solver) (N : dND).
  Notation D := (nd_dr N).
  Hypothesis Hq : 2 <= r_q D.
  Hypothesis Wf : wf_poly (r_n D) (r_d D) (r_f D).
  Notation tabok := (tab_ok (r_q D) (r_n D) (r_d D) (r_f D)).

  Lemma fnd_loop_pre T T' k dj ei m e : (forall j P, get_at T j = OK P -> get_at T' j = OK P) -> forall st out,
    fnd_loop slv N k dj ei m T e st = OK out -> fnd_loop slv N k dj ei m T' e st = OK out.
  Proof.
    intros Hpre. induction e as [|e IH]; intros [[H F] fact] out E; cbn [fnd_loop] in *; auto.
    apply bind_ok in E. destruct E as (H1 & E1 & E). apply bind_ok in E. destruct E as (HF & E2 & E).
    match goal with |- bind ?a _ = _ => assert (X : a = OK H1) end.
    { destruct (m <=? _); auto. apply bind_ok in E1. destruct E1 as (c & -> & E1). cbn [bind].
      apply bind_ok in E1. destruct E1 as (P & EP & E1). now rewrite (Hpre _ _ EP). }
    rewrite X. cbn [bind]. rewrite E2. cbn [bind]. now apply IH.
  Qed.
  Lemma row_grow T T' NN i row mx : tabok T -> compute_fpow (r_q D) (r_f D) (mx - 1) T = OK T' ->
    (forall x, In x NN -> x <= mx) -> frob_row_ND slv N T NN i = OK row -> frob_row_ND slv N T' NN i = OK row.
  Proof.
    intros HT ET HN. unfold frob_row_ND, frob_ND, frob_ND_kind, fnd_sum. cbv zeta. intros E.
    apply bind_ok in E. destruct E as (Nm & E1 & E). rewrite E1. cbn [bind]. destruct (0 <? Nm); auto.
    assert (Hm : Nm <= mx).
    { apply HN. unfold get_at in E1. destruct (_ <? 0); [discriminate|]. destruct (nth_error NN _) eqn:X; [|discriminate].
      injection E1 as <-. eapply nth_error_In; eauto. }
    apply bind_ok in E. destruct E as (ei & E2 & E). rewrite E2. cbn [bind] in *.
    apply bind_ok in E. destruct E as (Ff & E3 & E).
    apply bind_ok in E3. destruct E3 as (? & E4 & E3). rewrite E4. cbn [bind].
    rewrite E2 in E3. cbn [bind] in E3. apply bind_ok in E3. destruct E3 as (T1 & E5 & E3).
    destruct (fpow_comp D Hq Wf T (Nm - 1) (mx - 1) T1 T' HT ltac:(lia) E5 ET) as [P1 P2]. rewrite P2. cbn [bind].
    apply bind_ok in E3. destruct E3 as (st & E6 & E3).
    pose proof (fun k P => get_at_firstn T1 T' k P P1) as G.
    rewrite (fnd_loop_pre T1 T' _ _ _ _ _ G _ _ E6). cbn [bind]. injection E3 as <-. exact E.
  Qed.
End NGROW.

(** ** the preparation *)
Section NPREP.
  Variables (sm : bool) (slv : solver) (N : dND).
  Notation D := (nd_dr N).
  Notation n1 := (S (r_n D)).
  Hypothesis ninv : nd_inv slv N.
  Hypothesis Hslv : solver_ok (r_q D) slv.
  Hypothesis Hq : 2 <= r_q D.
  Hypothesis Hn : (1 <= r_n D)%nat.
  Notation tabok := (tab_ok (r_q D) (r_n D) (r_d D) (r_f D)).
  Let inv := ni_dr slv N ninv.

  Lemma ntuple_red T zz v : is_tuple n1 (r_d D) v -> exists x, nvalue slv N T (NRed zz v) = OK x.
  Proof. intros H. destruct (crm_ok slv N ninv Hslv v H Hn) as (R & E & _). exists R. destruct zz; exact E. Qed.
  Lemma ntuple_poly T zz v : is_tuple n1 (r_d D) v -> exists x, nvalue slv N T (NPoly zz v) = OK x.
  Proof.
    intros H. destruct (crmp_ok slv N ninv Hslv v H Hn) as (R & P & _ & E & _). exists P. destruct zz; [|exact E].
    cbn [nvalue]. rewrite (crmp_ZZ_ok slv N ninv Hslv v H Hn Hq). exact E.
  Qed.
  Lemma npos u : is_tuple n1 (r_d D) u -> nd_positive N u = true -> positive u = true /\ nd_pos_pre N u = OK tt.
  Proof.
    intros (L & P & S) Hp. split.
    - apply positive_iff. intros k Hk. unfold nd_positive in Hp. rewrite forallb_forall in Hp. apply Z.ltb_lt, Hp. apply in_seq. lia.
    - unfold nd_pos_pre. rewrite Hp. unfold check at 1. cbn [bind]. rewrite sumf_nth_zsum, S, Z.eqb_refl by auto. reflexivity.
  Qed.
  Lemma ntuple_ckn T u : is_tuple n1 (r_d D) u -> nd_positive N u = true -> exists x, nvalue slv N T (NCkn u) = OK x.
  Proof.
    intros H Hp. destruct (npos u H Hp) as [P1 P2]. destruct H as (L & P & S).
    destruct (ckn_ok slv N ninv Hslv Hq Hn u L P1 S) as (M & E & _). exists M. exact E.
  Qed.
  Lemma ntuple_incl T u : is_tuple n1 (r_d D) u -> nd_positive N u = true -> exists x, nvalue slv N T (NI (IIncl u)) = OK x.
  Proof.
    intros H Hp. destruct (npos u H Hp) as [P1 P2]. destruct H as (L & P & S). cbn [nvalue ivalue]. rewrite P2. cbn [bind].
    destruct (ni_basis slv N ninv) as (bs & HB & _). apply mapM_ok in HB.
    destruct (mapM_rel (get_inclusion_matrix_ND slv N u) (fun _ _ => True) (zseq 0 (Z.of_nat (r_n D)))) as (x & E & _); [|eauto].
    intros l Hl. apply zseq_In in Hl.
    assert (X : exists b, init_ND_level slv D (hilbert_ND (r_n D) (r_d D)) l = OK b).
    { assert (Il : In l (zseq 0 (Z.of_nat (r_n D) + 1))) by (apply zseq_In; lia). clear -HB Il.
      induction HB; [destruct Il|]. destruct Il as [->|Il]; eauto. }
    destruct X as (b & Eb). destruct (low_level slv N ninv Hslv Hq Hn u L P1 S l b ltac:(lia) Eb) as (cols & E & _).
    apply bind_ok in E. destruct E as (M & _ & E). apply bind_ok in E. destruct E as (incl & E & _). eauto.
  Qed.
  Lemma ntl_d : get_at (r_tl D) (r_d D) = OK (enum n1 (Z.to_nat (r_d D))).
  Proof. apply (inv_tl slv D inv). pose proof (inv_nd slv D inv). nia. Qed.
  Lemma nin_d v : In v (enum n1 (Z.to_nat (r_d D))) <-> is_tuple n1 (r_d D) v.
  Proof. rewrite enum_In by lia. rewrite Z2Nat.id; [reflexivity|]. pose proof (inv_nd slv D inv). lia. Qed.

  Definition nstep (zz : bool) (u : vec) : nprog unit :=
    _ <~ ask (NRed false u) ;;
    _ <~ (if zz then _ <~ ask (NRed true u) ;; Ret tt else Ret tt) ;;
    _ <~ ask (NPoly false u) ;;
    _ <~ ask (NPoly true u) ;;
    if nd_positive N u then _ <~ ask (NI (IIncl u)) ;; _ <~ ask (NCkn u) ;; Ret tt
    else Ret tt.
  Lemma nstep_ok T zz u : is_tuple n1 (r_d D) u ->
    run (nvalue slv N T) (nstep zz u) = OK tt /\ asked (nvalue slv N T) (NPoly true u) (nstep zz u) /\
    (nd_positive N u = true -> asked (nvalue slv N T) (NCkn u) (nstep zz u)) /\
    ok_req (nvalue slv N T) (wf_nreq N T) (nstep zz u).
  Proof.
    intros H. pose proof H as (L & _ & _). unfold nstep.
    destruct (ntuple_red T false u H) as (x1 & E1). destruct (ntuple_red T true u H) as (x2 & E2).
    destruct (ntuple_poly T false u H) as (x3 & E3). destruct (ntuple_poly T true u H) as (x4 & E4).
    destruct (nd_positive N u) eqn:Ep.
    - destruct (ntuple_incl T u H Ep) as (x5 & E5). destruct (ntuple_ckn T u H Ep) as (x6 & E6).
      destruct zz; cbn [pbind ask run asked ok_req]; rewrite ?E1, ?E2; cbn [bind]; rewrite ?E1, ?E2, ?E3, ?E4, ?E5, ?E6; cbn [bind];
        rewrite ?E1, ?E2, ?E3, ?E4, ?E5, ?E6; cbn [bind]; intuition.
    - destruct zz; cbn [pbind ask run asked ok_req]; rewrite ?E1, ?E2; cbn [bind]; rewrite ?E1, ?E2, ?E3, ?E4; cbn [bind];
        rewrite ?E1, ?E2, ?E3, ?E4; cbn [bind]; intuition.
  Qed.
  Lemma neverything zz : compute_everything_ND_p N zz = foldP (fun _ u => nstep zz u) (enum n1 (Z.to_nat (r_d D))) tt.
  Proof. unfold compute_everything_ND_p. rewrite ntl_d. reflexivity. Qed.
  Lemma neverything_run T zz : run (nvalue slv N T) (compute_everything_ND_p N zz) = OK tt.
  Proof. rewrite neverything. apply run_foldP_tt. intros u Iu. apply nstep_ok. now apply nin_d. Qed.
  Lemma neverything_wf T zz : ok_req (nvalue slv N T) (wf_nreq N T) (compute_everything_ND_p N zz).
  Proof.
    rewrite neverything. apply (ok_req_foldP _ _ _ (fun _ => True)); auto. intros [] u Iu _. split; auto.
    apply nstep_ok. now apply nin_d.
  Qed.
  Lemma neverything_asks T zz r : nkept r -> ncov N T r -> asked (nvalue slv N T) r (compute_everything_ND_p N zz).
  Proof.
    intros Kr Hr. rewrite neverything.
    assert (R : forall u, In u (enum n1 (Z.to_nat (r_d D))) -> run (nvalue slv N T) (nstep zz u) = OK tt).
    { intros u Iu. apply nstep_ok. now apply nin_d. }
    destruct r as [r|[|] v|[|] v|u]; cbn [nkept ncov] in *; try tauto.
    - apply (asked_foldP _ _ _ _ v); auto; [now apply nin_d|]. now apply nstep_ok.
    - destruct Hr as [H1 H2]. apply (asked_foldP _ _ _ _ u); auto; [now apply nin_d|]. now apply nstep_ok.
  Qed.

  Lemma ncache_refpow T T' c : ncache_ok slv N T c -> ncache_ok slv N T' (nset_j c (set_fpow (nc_j c) T')).
  Proof. intros []. constructor; cbn; auto. eapply cache_refpow; eauto. Qed.

  Lemma nprepare_ok T c NN mx : wf_poly (r_n D) (r_d D) (r_f D) -> tabok T -> ncache_ok slv N T c -> vmax NN = OK mx ->
    exists T' c', compute_fpow (r_q D) (r_f D) (mx - 1) T = OK T' /\ tabok T' /\ mx <= zlen T' /\
      srun (nserve sm slv N) c (frob_prepare_ND N NN) = OK (tt, c') /\ ncache_ok slv N T' c' /\
      forall r, ncov N T' r -> ncovered N T' c' r.
  Proof.
    intros Wf HT K Hm.
    destruct (gsrun_covers (nserve sm slv N) (nvalue slv N T) (ncache_ok slv N T) (wf_nreq N T) (ncovered N T) (nserve_ok sm slv N T)
      nkept (nserve_keeps sm slv N T) (compute_everything_ND_p N false) c tt K (neverything_wf T false) (neverything_run T false))
      as (c1 & E1 & K1 & _ & C1).
    destruct (compute_fpow_ok _ _ _ _ Hq Wf (mx - 1) T HT) as (T' & E2 & HT' & L & _).
    exists T', (nset_j c1 (set_fpow (nc_j c1) T')). split; auto. split; auto. split; [lia|]. split.
    - unfold frob_prepare_ND. rewrite srun_bind, E1. cbn [bind fst snd]. rewrite Hm. cbn [lift pbind ask srun nserve NFpow iserve bserve serve].
      unfold fpow_c. rewrite (ok_fpow slv D T (nc_j c1) (nok_j slv N T c1 K1)), E2. reflexivity.
    - split; [now apply (ncache_refpow T)|].
      intros r Hr. destruct r as [[[[| | | |pw]|]|]|[|] v|[|] v|u]; cbn [ncov] in Hr; try tauto.
      + exact (C1 (NPoly true v) I (neverything_asks T false (NPoly true v) I Hr)).
      + exact (C1 (NCkn u) I (neverything_asks T false (NCkn u) I Hr)).
  Qed.

  Theorem nthreads_matrix mt T c NN : wf_poly (r_n D) (r_d D) (r_f D) -> tabok T -> ncache_ok slv N T c ->
    NN <> [] -> forall rows, mapM (frob_row_ND slv N T NN) (seq 0 (length (r_basis D))) = OK rows ->
    exists c', srun (nserve sm slv N) c (frob_prepare_ND N NN) = OK (tt, c') /\
      let threads := map (frob_row_ND_p N mt NN) (seq 0 (length (r_basis D))) in
      (forall sched, exists ts, threads_run (nserve sm slv N) sched c' threads = OK (c', ts) /\
         (forall out, finished ts = Some out -> out = rows) /\
         exists more, threads_run (nserve sm slv N) (sched ++ more) c' threads = OK (c', map Ret rows)).
  Proof.
    intros Wf HT K Hne rows E. destruct (vmax_ok NN Hne) as (mx & Em & _ & Hmx).
    destruct (nprepare_ok T c NN mx Wf HT K Em) as (T' & c' & F1 & F2 & F3 & F4 & F5 & F6).
    exists c'. split; auto. intros threads.
    assert (F : Forall2 (fun t a => ok_req (nvalue slv N T') (ncovered N T' c') t /\ run (nvalue slv N T') t = OK a) threads rows).
    { unfold threads. clear threads. revert rows E. generalize (seq 0 (length (r_basis D))). induction l as [|i l IH]; intros rows E; cbn [mapM map] in *.
      - injection E as <-. constructor.
      - apply bind_ok in E. destruct E as (row & E1 & E). apply bind_ok in E. destruct E as (rs & E2 & E). injection E as <-.
        constructor; auto. split.
        + eapply ok_req_mono; [exact F6|]. apply row_cov; auto.
          * intros P IP u x I. apply In_nth_error in IP. destruct IP as (j & IP). destruct (proj2 F2 j P IP) as (_ & _ & X & _).
            destruct (X u x I) as (X1 & X2 & _). now split.
          * intros b Hb. destruct (basis_elem slv D inv Hslv b Hb) as (j & _ & L1 & L2 & _). now split.
          * intros x I. specialize (Hmx x I). lia.
        + apply row_run. exact (row_grow slv N Hq Wf T T' NN i row mx HT F1 Hmx E1). }
    exact (gthreads (nserve sm slv N) (nvalue slv N T') (ncache_ok slv N T') (ncovered N T') (nserve_covered sm slv N T') c' F5 threads rows F).
  Qed.
End NPREP.
