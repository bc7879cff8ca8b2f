(** The constructors succeed exactly on smooth (non-degenerate) polynomials. *)
From Coq Require Import ZArith List Bool Lia Znumtheory.
From Verif Require Import Base VecModel VecSpec ToolsModel ToolsSpec ToolsProofs MatModel MatProofs DRModel DRSpec DRProofs DRLemmas DRRed LinAlg
  NDModel NDSpec NDMat NDBasis SolveModel SolveSpec SolveProofs SmoothProofs ChangeModel ChangeSpec ChangeProofs ArgsProofs
  HilbKoszul HilbPoly HilbTop HilbDim HilbNum HilbInit.
Import ListNotations.
Open Scope Z_scope.

Lemma zlen_concat {A} (bs : list (list A)) : zlen (concat bs) = sumf (@zlen A) bs.
Proof. induction bs as [|b bs IH]; [reflexivity|]. cbn [concat]. rewrite sumf_cons, <- IH. unfold zlen. rewrite app_length. lia. Qed.
Lemma Forall2_sumf {A B} (F : A -> Z) (G : B -> Z) l r : Forall2 (fun a b => G b = F a) l r -> sumf G r = sumf F l.
Proof. induction 1; [reflexivity|]. rewrite !sumf_cons. lia. Qed.
Lemma zseq_seq a k : zseq a (a + Z.of_nat k) = map (fun i => a + Z.of_nat i) (seq 0 k).
Proof.
  induction k as [|k IH]; [rewrite zseq_nil by lia; reflexivity|]. rewrite seq_S, map_app, <- IH.
  replace (a + Z.of_nat (S k)) with (a + Z.of_nat k + 1) by lia. now rewrite zseq_snoc by lia.
Qed.

Section Code.
  Variables (p prec : Z) (lu : ech_fun) (inv : inv_fun) (n : nat) (d : Z) (f : poly).
  Hypothesis Pp : prime p.
  Hypothesis Hprec : 1 <= prec.
  Hypothesis HE : ech_spec p lu.
  Hypothesis HI : inv_spec p inv.
  Hypothesis W : wf_poly n d f.
  Hypothesis Hd : 1 <= d.
  Notation q := (p ^ prec).
  Notation slv := (padic_solver lu inv p q prec).
  Let m := S n.

  Lemma p_div_q : (p | q).
  Proof. exists (p ^ (prec - 1)). replace prec with (prec - 1 + 1) at 1 by lia. rewrite Z.pow_add_r by lia. now rewrite Z.pow_1_r. Qed.

  Lemma solver_qbasis e Ps t T : Forall (form m e) Ps -> shape T (length (mons m t)) (length Ps * length (mons m (t - e))) ->
    (forall r i j, (r < length (mons m t))%nat -> (i < length Ps)%nat -> (j < length (mons m (t - e)))%nat ->
        cong q (mget T r (i * length (mons m (t - e)) + j)) (coefP (nth i Ps []) (nth j (mons m (t - e)) []) (nth r (mons m t) []))) ->
    exists B U, slv (length Ps * length (mons m (t - e)))%nat T = OK (B, U) /\ (forall b, In b B -> (b < length (mons m t))%nat) /\
      qbasis m p (ideal m p Ps) t (map (fun b => dmon (nth b (mons m t) [])) B).
  Proof.
    intros HF HS HT. pose proof (prime_ge_2 p Pp) as P2. set (nc := (length Ps * length (mons m (t - e)))%nat) in *.
    destruct (solve_padic_ok p prec lu inv Pp Hprec HE HI true [] _ nc T HS (fun _ => eq_refl)) as (B & U & E & (U' & E') & S & _).
    destruct (solve_zz_p_ok p lu inv true (reduce_mat p T) _ nc Pp HE HI (reduce_mat_shape p T _ _ HS) (reduce_mat_reduced p T ltac:(lia))) as (B2 & U2 & E2 & S2 & _ & _ & I2).
    rewrite E2 in E'. injection E' as -> ->.
    exists B, U. split; [exact E|]. split; [apply S|].
    apply (solver_basis m p e ltac:(unfold m; lia) Ps t (reduce_mat p T) B U'); auto.
    intros r i j Hr Hi Hj. rewrite reduce_mat_get. eapply cong_trans; [apply cong_mod_any|]. apply cong_div with q; [apply p_div_q|]. now apply HT.
  Qed.

  Lemma size_J l B : 2 <= d -> vanishH m p (d - 1) (Js n f) ->
    qbasis m p (ideal m p (Js n f)) l (map (fun b => dmon (nth b (mons m l) [])) B) -> zlen B = znth (hilbert_J n d) l.
  Proof using Pp W Hd.
    intros H2 V Q. pose proof (qbasis_size m p (d - 1) Pp ltac:(unfold m; lia) ltac:(lia) (Js n f) (Js_forms n d f W) V l _ Q) as S.
    unfold zlen in S. rewrite map_length, Js_length in S. unfold zlen. rewrite S. unfold hilbert_J. fold m.
    rewrite <- hs_hilbert by lia. now rewrite Z2Nat.id by lia.
  Qed.
  Lemma size_ND l B : vanishH m p d (Ls n f) ->
    qbasis m p (ideal m p (Ls n f)) l (map (fun b => dmon (nth b (mons m l) [])) B) -> zlen B = znth (hilbert_ND n d) l.
  Proof using Pp W Hd.
    intros V Q. pose proof (qbasis_size m p d Pp ltac:(unfold m; lia) ltac:(lia) (Ls n f) (Ls_forms n d f W) V l _ Q) as S.
    unfold zlen in S. rewrite map_length, Ls_length in S. unfold zlen. rewrite S. unfold hilbert_ND. fold m.
    rewrite <- hs_hilbert by lia. now rewrite Z2Nat.id by lia.
  Qed.

  (** no complement is needed exactly if every form is in the ideal *)
  Lemma empty_J l B : 0 <= l -> d - 1 <= l -> qbasis m p (ideal m p (Js n f)) l (map (fun b => dmon (nth b (mons m l) [])) B) ->
    B = [] -> forall G, in_jacobian p n d f l G.
  Proof using W Hd.
    intros Hl Hl' Q -> G. set (c := fun w => if in_dec (list_eq_dec Z.eq_dec) w (mons m l) then G w else 0).
    assert (M0 : (0 < m)%nat) by (unfold m; lia).
    assert (Gc : Gs m c /\ homog l c).
    { split; intros w; unfold c; destruct (in_dec _ _ _) as [I|]; try congruence; apply mons_In in I; auto; destruct I as (A & B & C); tauto. }
    destruct (qb_span _ _ _ _ _ Q c) as (la & Hla); try apply Gc. cbn [map] in Hla.
    apply (s_ext _ (g_sub _ _ (ideal_good m p (d - 1) _ (Js_forms n d f W))) _ c) in Hla.
    2:{ intros w. unfold lincomb. cbn [length seq]. rewrite sumf_nil. lia. }
    apply (ideal_coef m p (d - 1) M0 _ (Js_forms n d f W) l) in Hla; try apply Gc. destruct Hla as (h & Hh).
    exists h. intros t Ht. specialize (Hh t Ht). unfold c in Hh. apply (mons_In m l t M0) in Ht. destruct (in_dec _ _ _) as [Iw|]; [|contradiction].
    eapply cong_trans; [apply Hh|]. apply cong_of_eq. unfold comb. rewrite Js_length, (mons_enum n) by lia. apply sumf_ext. intros i Hi. apply in_seq in Hi.
    apply sumf_ext. intros s _. rewrite Js_nth by (unfold m in *; lia). now rewrite coefP_dx.
  Qed.
  Lemma empty_ND l B : d <= l -> qbasis m p (ideal m p (Ls n f)) l (map (fun b => dmon (nth b (mons m l) [])) B) ->
    B = [] -> forall G, in_log_jacobian p n d f l G.
  Proof using W Hd.
    intros Hl Q -> G. set (c := fun w => if in_dec (list_eq_dec Z.eq_dec) w (mons m l) then G w else 0).
    assert (M0 : (0 < m)%nat) by (unfold m; lia).
    assert (Gc : Gs m c /\ homog l c).
    { split; intros w; unfold c; destruct (in_dec _ _ _) as [I|]; try congruence; apply mons_In in I; auto; destruct I as (A & B & C); tauto. }
    destruct (qb_span _ _ _ _ _ Q c) as (la & Hla); try apply Gc. cbn [map] in Hla.
    apply (s_ext _ (g_sub _ _ (ideal_good m p d _ (Ls_forms n d f W))) _ c) in Hla.
    2:{ intros w. unfold lincomb. cbn [length seq]. rewrite sumf_nil. lia. }
    apply (ideal_coef m p d M0 _ (Ls_forms n d f W) l) in Hla; try apply Gc. destruct Hla as (h & Hh).
    exists h. intros t Ht. specialize (Hh t Ht). unfold c in Hh. apply (mons_In m l t M0) in Ht. destruct (in_dec _ _ _) as [Iw|]; [|contradiction].
    eapply cong_trans; [apply Hh|]. apply cong_of_eq. unfold comb. rewrite Ls_length, (mons_enum n) by lia. apply sumf_ext. intros i Hi. apply in_seq in Hi.
    apply sumf_ext. intros s _. rewrite Ls_nth by (unfold m in *; lia). now rewrite coefP_xdx.
  Qed.

  (** an object with the tables of the constructor *)
  Variable D : dR.
  Hypothesis base : dr_base D.
  Hypothesis En : r_n D = n.
  Hypothesis Ed : r_d D = d.
  Hypothesis Ef : r_f D = f.
  Hypothesis Eq : r_q D = q.

  Lemma solve_J_qbasis l : 0 <= l <= (Z.of_nat n + 1) * d -> exists B U, get_solve_J slv D l = OK (B, U) /\
    (forall b, In b B -> (b < length (mons m l))%nat) /\
    qbasis m p (ideal m p (Js n f)) l (map (fun b => dmon (nth b (mons m l) [])) B).
  Proof.
    intros Hl. destruct (Z_lt_le_dec l (d - 1)) as [Low|Hi].
    - assert (M : matrix_J D l = OK (0%nat, mzero (length (mons m l)) 0)).
      { unfold matrix_J. rewrite (base_tl D base) by (rewrite En, Ed; lia). cbn [bind]. rewrite En, Ed. rewrite <- (mons_enum n l) by lia. fold m.
        destruct (Z.ltb_spec l (d - 1)); [reflexivity|lia]. }
      assert (L0 : mons m (l - (d - 1)) = []) by (unfold mons; destruct (Z.ltb_spec (l - (d - 1)) 0); [reflexivity|lia]).
      destruct (solver_qbasis (d - 1) (Js n f) l (mzero (length (mons m l)) 0)) as (B & U & H1 & H2 & H3).
      + now apply Js_forms.
      + rewrite L0. cbn [length]. rewrite Nat.mul_0_r. apply shape_mzero.
      + rewrite L0. cbn [length]. intros; lia.
      + exists B, U. split; auto. unfold get_solve_J. rewrite M. cbn [bind fst snd]. rewrite L0 in H1. cbn [length] in H1. now rewrite Nat.mul_0_r in H1.
    - destruct (matrix_J_weighted_b D base l) as (T & MJ & ST & _); [rewrite En, Ed; lia|].
      destruct (matrix_J_entry_b D base l) as (ts & ss & T' & G1 & G2 & MJ' & _ & MT); [rewrite En, Ed; lia|].
      rewrite (base_tl D base) in G1, G2 by (rewrite En, Ed; nia). apply (f_equal (fun r => match r with OK x => x | Err _ => [] end)) in G1, G2. cbv beta iota in G1, G2. subst ts ss. rewrite MJ in MJ'. assert (T' = T) as -> by congruence.
      rewrite ?En, ?Ed, ?Ef, ?Eq in *. rewrite <- !(mons_enum n) in * by lia.
      destruct (solver_qbasis (d - 1) (Js n f) l T) as (B & U & H1 & H2 & H3).
      + now apply Js_forms.
      + rewrite Js_length. exact ST.
      + rewrite Js_length. intros r i j Hr Hi' Hj. rewrite Js_nth by (unfold m in *; lia). rewrite coefP_dx. apply MT; auto. lia.
      + exists B, U. split; auto. unfold get_solve_J. rewrite MJ. cbn [bind fst snd]. rewrite Js_length in H1. exact H1.
  Qed.

  Lemma solve_ND_qbasis l : 0 <= l <= (Z.of_nat n + 1) * d -> exists B U, get_solve_ND slv D l = OK (B, U) /\
    (forall b, In b B -> (b < length (mons m l))%nat) /\
    qbasis m p (ideal m p (Ls n f)) l (map (fun b => dmon (nth b (mons m l) [])) B).
  Proof.
    intros Hl. destruct (Z_lt_le_dec l d) as [Low|Hi].
    - assert (M : matrix_ND D l = OK (0%nat, mzero (length (mons m l)) 0)).
      { unfold matrix_ND. rewrite (base_tl D base) by (rewrite En, Ed; lia). cbn [bind]. rewrite En, Ed. rewrite <- (mons_enum n l) by lia. fold m.
        destruct (Z.ltb_spec l d); [reflexivity|lia]. }
      assert (L0 : mons m (l - d) = []) by (unfold mons; destruct (Z.ltb_spec (l - d) 0); [reflexivity|lia]).
      destruct (solver_qbasis d (Ls n f) l (mzero (length (mons m l)) 0)) as (B & U & H1 & H2 & H3).
      + now apply Ls_forms.
      + rewrite L0. cbn [length]. rewrite Nat.mul_0_r. apply shape_mzero.
      + rewrite L0. cbn [length]. intros; lia.
      + exists B, U. split; auto. unfold get_solve_ND. rewrite M. cbn [bind fst snd]. rewrite L0 in H1. cbn [length] in H1. now rewrite Nat.mul_0_r in H1.
    - destruct (matrix_ND_entry D base l) as (T & MJ & ST & MT); [rewrite En, Ed; lia|].
      rewrite ?En, ?Ed, ?Ef, ?Eq in *. rewrite <- !(mons_enum n) in * by lia.
      destruct (solver_qbasis d (Ls n f) l T) as (B & U & H1 & H2 & H3).
      + now apply Ls_forms.
      + rewrite Ls_length. exact ST.
      + rewrite Ls_length. intros r i j Hr Hi' Hj. rewrite Ls_nth by (unfold m in *; lia). rewrite coefP_xdx. apply MT; auto. lia.
      + exists B, U. split; auto. unfold get_solve_ND. rewrite MJ. cbn [bind fst snd]. rewrite Ls_length in H1. exact H1.
  Qed.

  Lemma get_znth (l : list Z) k : 0 <= k < Z.of_nat (length l) -> get_at l k = OK (znth l k).
  Proof.
    intros Hk. apply get_at_ok. split; [lia|]. unfold znth. destruct (Z.ltb_spec k 0); [lia|]. rewrite (nth_error_nth' _ 0) by lia. reflexivity.
  Qed.

  Lemma level_J i : 2 <= d -> Z.of_nat n < d -> vanishH m p (d - 1) (Js n f) -> 0 <= i < Z.of_nat n ->
    exists b, init_basis_level slv D (hilbert_J n d) i = OK b /\ zlen b = znth (hilbert_J n d) ((i + 1) * d - (Z.of_nat n + 1)).
  Proof.
    intros H2 Hnd V Hi. unfold init_basis_level. rewrite En, Ed. set (l := (i + 1) * d - (Z.of_nat n + 1)).
    assert (Hl : 0 <= l <= (Z.of_nat n + 1) * d) by (unfold l; nia).
    destruct (solve_J_qbasis l Hl) as (B & U & H3 & HB & Q). rewrite H3. cbn [bind fst snd].
    pose proof (size_J l B H2 V Q) as SZ.
    rewrite get_znth.
    2:{ unfold hilbert_J. rewrite hilbert_pow_length by lia. unfold l. split; [nia|]. nia. }
    cbn [bind]. rewrite SZ, Z.eqb_refl. cbn [check bind]. rewrite (base_tl D base) by (rewrite En, Ed; lia). cbn [bind]. rewrite En.
    rewrite <- (mons_enum n l) by lia. fold m.
    rewrite (mapM_total _ (fun b => nth b (mons m l) [])).
    - eexists. split; [reflexivity|]. unfold zlen in *. rewrite map_length. exact SZ.
    - intros b Hb. apply get_at_ok. split; [lia|]. rewrite Nat2Z.id. apply nth_error_nth'. auto.
  Qed.
  Lemma level_ND i : vanishH m p d (Ls n f) -> 0 <= i < Z.of_nat n + 1 ->
    (Z.of_nat n < d) ->
    exists b, init_ND_level slv D (hilbert_ND n d) i = OK b /\ zlen b = znth (hilbert_ND n d) (i * d).
  Proof.
    intros V Hi Hnd. unfold init_ND_level. rewrite Ed. set (l := i * d).
    assert (Hl : 0 <= l <= (Z.of_nat n + 1) * d) by (unfold l; nia).
    destruct (solve_ND_qbasis l Hl) as (B & U & H3 & HB & Q). rewrite H3. cbn [bind fst snd].
    pose proof (size_ND l B V Q) as SZ.
    rewrite get_znth.
    2:{ unfold hilbert_ND. rewrite hilbert_pow_length by lia. unfold l. split; [nia|]. nia. }
    cbn [bind]. rewrite SZ, Z.eqb_refl. cbn [check bind]. rewrite (base_tl D base) by (rewrite En, Ed; lia). cbn [bind]. rewrite En.
    rewrite <- (mons_enum n l) by lia. fold m.
    rewrite (mapM_total _ (fun b => nth b (mons m l) [])).
    - eexists. split; [reflexivity|]. unfold zlen in *. rewrite map_length. exact SZ.
    - intros b Hb. apply get_at_ok. split; [lia|]. rewrite Nat2Z.id. apply nth_error_nth'. auto.
  Qed.
End Code.

Lemma total_J n d bs : Z.of_nat n < d -> 2 <= d ->
  Forall2 (fun i b => zlen b = znth (hilbert_J n d) ((i + 1) * d - (Z.of_nat n + 1))) (zseq 0 (Z.of_nat n)) bs ->
  d * zlen (concat bs : list vec) = (d - 1) ^ (Z.of_nat n + 1) + (-1) ^ (Z.of_nat n + 1) * (d - 1).
Proof.
  intros Hnd H2 HF. rewrite zlen_concat. rewrite (Forall2_sumf (fun i => znth (hilbert_J n d) ((i + 1) * d - (Z.of_nat n + 1))) _ _ _ HF).
  pose proof (zseq_seq 0 n) as E. rewrite Z.add_0_l in E. rewrite E, sumf_map.
  rewrite (sumf_ext _ (fun i => znth (hilbert_J n d) (d - (Z.of_nat n + 1) + Z.of_nat i * d))) by (intros; f_equal; lia).
  rewrite rcls_steps; [|lia|lia|].
  - rewrite (rcls_period d ltac:(lia) _ _ (- Z.of_nat (S n))).
    + unfold hilbert_J. rewrite (rcls_prim d ltac:(lia)) by lia. now replace (Z.of_nat (S n)) with (Z.of_nat n + 1) by lia.
    + replace (d - (Z.of_nat n + 1) - - Z.of_nat (S n)) with (1 * d) by lia. apply Z.mod_mul. lia.
  - unfold hilbert_J. rewrite hilbert_pow_length by lia. nia.
Qed.
Lemma total_ND n d bs : 1 <= d ->
  Forall2 (fun i b => zlen b = znth (hilbert_ND n d) (i * d)) (zseq 0 (Z.of_nat n + 1)) bs ->
  zlen (concat bs : list vec) = d ^ Z.of_nat n.
Proof.
  intros Hd HF. rewrite zlen_concat. rewrite (Forall2_sumf (fun i => znth (hilbert_ND n d) (i * d)) _ _ _ HF).
  pose proof (zseq_seq 0 (S n)) as E. rewrite Z.add_0_l in E. replace (Z.of_nat (S n)) with (Z.of_nat n + 1) in E by lia. rewrite E, sumf_map.
  rewrite (sumf_ext _ (fun i => znth (hilbert_ND n d) (0 + Z.of_nat i * d))) by (intros; f_equal; lia).
  rewrite rcls_steps; [|lia|lia|].
  - unfold hilbert_ND. apply rcls_full. lia.
  - unfold hilbert_ND. rewrite hilbert_pow_length by lia. nia.
Qed.

Lemma dim_H_eq n d N : 2 <= d -> d * N = (d - 1) ^ (n + 1) + (-1) ^ (n + 1) * (d - 1) -> N = dim_H n d.
Proof. intros Hd H. unfold dim_H. rewrite <- H, Z.mul_comm, Z.div_mul; lia. Qed.

Lemma init_unfold slv q p prec n d f tl : f <> [] -> wf_poly n d f -> init_tuples n d = OK tl ->
  init slv q p prec f =
    (_ <- check (Z.of_nat n <? d) EAssert ;;
     _ <- check (negb (p =? 0)) EUB ;;
     _ <- check (negb (Z.rem d p =? 0)) EAssert ;;
     top <- get_solve_J slv (mk_dR p prec q n d f tl (map tuple_index tl) [] []) ((d - 2) * (Z.of_nat n + 1) + 1) ;;
     _ <- check (Nat.eqb (length (fst top)) 0) EAssert ;;
     bs <- mapM (init_basis_level slv (mk_dR p prec q n d f tl (map tuple_index tl) [] []) (hilbert_J n d)) (zseq 0 (Z.of_nat n)) ;;
     OK (mk_dR p prec q n d f tl (map tuple_index tl) (concat bs) (tuple_index (concat bs)))).
Proof.
  intros Hf W Htl. unfold init. destruct f as [|[a0 c0] f']; [congruence|].
  destruct (proj2 W a0 c0) as (A1 & A2 & A3); [now left|]. rewrite A1, A3. replace (S n - 1)%nat with n by lia. rewrite Htl. reflexivity.
Qed.

Section Top.
  Variables (p prec : Z) (lu : ech_fun) (inv : inv_fun) (n : nat) (d : Z) (f : poly) (tl : list (list vec)).
  Hypothesis Pp : prime p.
  Hypothesis Hprec : 1 <= prec.
  Hypothesis HE : ech_spec p lu.
  Hypothesis HI : inv_spec p inv.
  Hypothesis Hf : f <> [].
  Hypothesis W : wf_poly n d f.
  Hypothesis Hnd : Z.of_nat n < d.
  Hypothesis H2 : 2 <= d.
  Hypothesis Htl : init_tuples n d = OK tl.
  Notation q := (p ^ prec).
  Notation slv := (padic_solver lu inv p q prec).
  Let D0 := mk_dR p prec q n d f tl (map tuple_index tl) [] [].

  Lemma base0 : dr_base D0.
  Proof.
    constructor; cbn [r_d r_n r_f r_tl r_td D0]; [lia|apply W|apply W| |].
    - intros k Hk. eapply init_tuples_ok; eauto.
    - intros k Hk. eapply (get_at_map tuple_index). eapply init_tuples_ok; eauto.
  Qed.

  Definition smooth_at : Prop := forall G, in_jacobian p n d f ((d - 2) * (Z.of_nat n + 1) + 1) G.

  (** the quotient ring vanishes in the top degree as soon as it has finite dimension *)
  Lemma smooth_of_vanish : vanishH (S n) p (d - 1) (Js n f) -> smooth_at.
  Proof.
    intros V. assert (Hl : 0 <= (d - 2) * (Z.of_nat n + 1) + 1 <= (Z.of_nat n + 1) * d) by nia.
    destruct (solve_J_qbasis p prec lu inv n d f Pp Hprec HE HI W ltac:(lia) D0 base0 eq_refl eq_refl eq_refl eq_refl _ Hl) as (B & U & _ & _ & Q).
    pose proof (size_J p n d f Pp W ltac:(lia) _ B H2 V Q) as SZ.
    intros G. apply (empty_J p n d f W ltac:(lia) ((d - 2) * (Z.of_nat n + 1) + 1) B ltac:(lia) ltac:(nia) Q).
    unfold znth, hilbert_J in SZ. destruct (Z.ltb_spec ((d - 2) * (Z.of_nat n + 1) + 1) 0); [lia|]. rewrite nth_overflow in SZ.
    - unfold zlen in SZ. destruct B; [reflexivity|cbn [length] in SZ; lia].
    - rewrite hilbert_pow_length by lia. nia.
  Qed.

  Lemma init_succeeds : (3 <= d \/ ~ (p | d)) -> smooth_at ->
    exists D, init slv q p prec f = OK D /\ r_n D = n /\ r_d D = d /\ r_q D = q /\ r_f D = f /\ r_tl D = tl /\ r_td D = map tuple_index tl /\
      d * zlen (r_basis D) = (d - 1) ^ (Z.of_nat n + 1) + (-1) ^ (Z.of_nat n + 1) * (d - 1).
  Proof.
    intros Hp SM. assert (V : vanishH (S n) p (d - 1) (Js n f)) by (eapply exact_J; eauto; nia).
    pose proof (prime_ge_2 p Pp) as P2.
    assert (Hpd : ~ (p | d)) by (destruct Hp as [H3|]; auto; eapply Js_euler; eauto).
    rewrite (init_unfold slv q p prec n d f tl Hf W Htl).
    destruct (Z.ltb_spec (Z.of_nat n) d) as [_|]; [|lia]. cbn [check bind].
    destruct (Z.eqb_spec p 0) as [|_]; [lia|]. cbn [negb check bind].
    destruct (Z.eqb_spec (Z.rem d p) 0) as [K|_]; [exfalso; apply Hpd; apply Z.rem_divide in K; auto; lia|]. cbn [negb check bind].
    fold D0.
    assert (Hl : 0 <= (d - 2) * (Z.of_nat n + 1) + 1 <= (Z.of_nat n + 1) * d) by nia.
    destruct (solve_J_qbasis p prec lu inv n d f Pp Hprec HE HI W ltac:(lia) D0 base0 eq_refl eq_refl eq_refl eq_refl _ Hl) as (B & U & HB & _ & Q).
    pose proof (size_J p n d f Pp W ltac:(lia) _ B H2 V Q) as SZ.
    rewrite HB. cbn [bind fst].
    assert (B0 : B = []).
    { unfold znth, hilbert_J in SZ. destruct (Z.ltb_spec ((d - 2) * (Z.of_nat n + 1) + 1) 0); [lia|]. rewrite nth_overflow in SZ.
      - unfold zlen in SZ. destruct B; [reflexivity|cbn [length] in SZ; lia].
      - rewrite hilbert_pow_length by lia. nia. }
    rewrite B0. cbn [length Nat.eqb check bind].
    destruct (mapM_rel (init_basis_level slv D0 (hilbert_J n d))
      (fun i b => zlen b = znth (hilbert_J n d) ((i + 1) * d - (Z.of_nat n + 1))) (zseq 0 (Z.of_nat n))) as (bs & HM & HF).
    { intros i Hi. apply zseq_In in Hi. apply (level_J p prec lu inv n d f Pp Hprec HE HI W ltac:(lia) D0 base0 eq_refl eq_refl eq_refl eq_refl i); auto. }
    rewrite HM. cbn [bind]. eexists. split; [reflexivity|]. cbn [r_n r_d r_q r_f r_tl r_td r_basis]. repeat (split; [reflexivity|]).
    now apply total_J.
  Qed.

  (** and only then *)
  Lemma init_smooth D : init slv q p prec f = OK D -> smooth_at /\ ~ (p | d).
  Proof.
    rewrite (init_unfold slv q p prec n d f tl Hf W Htl). pose proof (prime_ge_2 p Pp) as P2.
    destruct (Z.ltb_spec (Z.of_nat n) d) as [_|]; [|lia]. cbn [check bind].
    destruct (Z.eqb_spec p 0) as [|_]; [lia|]. cbn [negb check bind].
    destruct (Z.eqb_spec (Z.rem d p) 0) as [K|K]; [discriminate|]. cbn [negb check bind].
    fold D0.
    assert (Hl : 0 <= (d - 2) * (Z.of_nat n + 1) + 1 <= (Z.of_nat n + 1) * d) by nia.
    destruct (solve_J_qbasis p prec lu inv n d f Pp Hprec HE HI W ltac:(lia) D0 base0 eq_refl eq_refl eq_refl eq_refl _ Hl) as (B & U & HB & _ & Q).
    rewrite HB. cbn [bind fst].
    destruct (Nat.eqb_spec (length B) 0) as [L|L]; [|discriminate]. intros _. split.
    - intros G. apply (empty_J p n d f W ltac:(lia) ((d - 2) * (Z.of_nat n + 1) + 1) B ltac:(lia) ltac:(nia) Q). destruct B; [reflexivity|discriminate].
    - intros Hp. apply K. apply Z.rem_divide; auto. lia.
  Qed.

  Lemma nd_smooth : non_degenerate p n d f -> smooth_at /\ ~ (p | d).
  Proof.
    intros ND. assert (V : vanishH (S n) p d (Ls n f)) by (eapply exact_L; [exact W| | |exact ND]; nia).
    split; [|eapply Ls_euler; eauto; lia].
    apply smooth_of_vanish. apply (exact_J n d f W p ((d - 1) * (Z.of_nat n + 1) + 1)); [lia|nia|].
    intros G. apply (log_jac n d f W p); [nia|lia|apply ND].
  Qed.

  Lemma init_ND_succeeds : non_degenerate p n d f ->
    exists N, init_ND slv q p prec f = OK N /\ r_n (nd_dr N) = n /\ r_d (nd_dr N) = d /\ zlen (nd_basis N) = d ^ Z.of_nat n /\
      d * zlen (r_basis (nd_dr N)) = (d - 1) ^ (Z.of_nat n + 1) + (-1) ^ (Z.of_nat n + 1) * (d - 1).
  Proof.
    intros ND. destruct (nd_smooth ND) as (SM & Hpd). destruct (init_succeeds (or_intror Hpd) SM) as (D & HD & En & Ed & Eq & Ef & Etl & Etd & Lb).
    assert (V : vanishH (S n) p d (Ls n f)) by (eapply exact_L; [exact W| | |exact ND]; nia).
    assert (base : dr_base D).
    { pose proof base0 as B0. constructor; rewrite ?En, ?Ed, ?Ef, ?Etl, ?Etd; apply B0. }
    unfold init_ND. rewrite HD. cbn [bind].
    assert (Hd1 : 1 <= d) by (clear - H2; lia). assert (Hl : 0 <= (d - 1) * (Z.of_nat n + 1) + 1 <= (Z.of_nat n + 1) * d) by nia.
    destruct (solve_ND_qbasis p prec lu inv n d f Pp Hprec HE HI W D base En Ed Ef Eq _ Hl) as (B & U & HB & _ & Q).
    pose proof (size_ND p n d f Pp W Hd1 _ B V Q) as SZ.
    unfold top_ND. rewrite En, Ed, HB. cbn [bind fst].
    assert (B0 : B = []).
    { unfold znth, hilbert_ND in SZ. destruct (Z.ltb_spec ((d - 1) * (Z.of_nat n + 1) + 1) 0); [lia|]. rewrite nth_overflow in SZ.
      - unfold zlen in SZ. destruct B; [reflexivity|cbn [length] in SZ; lia].
      - rewrite hilbert_pow_length by lia. nia. }
    rewrite B0. cbn [length Nat.eqb check bind].
    destruct (mapM_rel (init_ND_level slv D (hilbert_ND n d)) (fun i b => zlen b = znth (hilbert_ND n d) (i * d)) (zseq 0 (Z.of_nat n + 1))) as (bs & HM & HF).
    { intros i Hi. apply zseq_In in Hi. apply (level_ND p prec lu inv n d f Pp Hprec HE HI W Hd1 D base En Ed Ef Eq i V); auto. }
    rewrite HM. cbn [bind]. rewrite (total_ND n d bs ltac:(lia) HF), Z.eqb_refl. cbn [check bind].
    eexists. split; [reflexivity|]. cbn [nd_dr nd_basis]. repeat (split; [assumption|]). split; auto. apply total_ND; auto; lia.
  Qed.

  Lemma init_ND_nd N : init_ND slv q p prec f = OK N -> non_degenerate p n d f.
  Proof.
    unfold init_ND. intros H. apply bind_ok in H. destruct H as (D & HD & H).
    destruct (init_smooth D HD) as (SM & Hpd). destruct (init_succeeds (or_intror Hpd) SM) as (D' & HD' & En & Ed & Eq & Ef & Etl & Etd & Lb).
    rewrite HD in HD'. injection HD' as <-.
    assert (base : dr_base D). { pose proof base0 as B0. constructor; rewrite ?En, ?Ed, ?Ef, ?Etl, ?Etd; apply B0. }
    assert (Hd1 : 1 <= d) by (clear - H2; lia). assert (Hl : 0 <= (d - 1) * (Z.of_nat n + 1) + 1 <= (Z.of_nat n + 1) * d) by nia.
    destruct (solve_ND_qbasis p prec lu inv n d f Pp Hprec HE HI W D base En Ed Ef Eq _ Hl) as (B & U & HB & _ & Q).
    unfold top_ND in H. rewrite En, Ed, HB in H. cbn [bind fst] in H.
    destruct (Nat.eqb_spec (length B) 0) as [L|L]; [|discriminate]. intros G.
    apply (empty_ND p n d f W ltac:(lia) ((d - 1) * (Z.of_nat n + 1) + 1) B ltac:(nia) Q). destruct B; [reflexivity|discriminate].
  Qed.
End Top.
