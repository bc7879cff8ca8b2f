(** Smoothness and non-degeneracy, as decided by the code, in terms of points. *)
From Coq Require Import ZArith List Bool Lia Znumtheory Setoid Ring.
From Verif Require Import Base VecModel VecSpec VecProofs ToolsModel ToolsSpec ToolsProofs MatModel MatProofs DRModel DRSpec DRProofs DRLemmas LinAlg NDModel NDSpec
  SolveModel SolveSpec SolveProofs SmoothProofs ChangeSpec HilbKoszul HilbPoly HilbTop HilbDim HilbNum HilbInit HilbCode CtorSpec LuInst PtSpec PtMax PtProofs PtConv.
Import ListNotations.
Open Scope Z_scope.

Lemma lower_eminus a : forall i, lower a i = eminus a i.
Proof. induction a as [|x a IH]; intros [|i]; cbn [lower eminus]; auto; now rewrite IH. Qed.
Lemma partial_dxP f i : partial f i = dxP f i.
Proof. apply map_ext. intros t. now rewrite lower_eminus. Qed.
Lemma log_partial_xdxP f i : log_partial f i = xdxP f i.
Proof. reflexivity. Qed.

(** * Euler's relation *)
Section Euler.
  Variable F : fld.
  Notation "0f" := (f0 F). Notation "1f" := (f1 F).
  Infix "+f" := (fadd F) (at level 50, left associativity).
  Infix "*f" := (fmul F) (at level 40, left associativity).
  Infix "==" := (feq F) (at level 70).
  Existing Instance feq_E. Existing Instance fadd_P. Existing Instance fmul_P. Existing Instance fopp_P.
  Add Ring Fring2 : (f_ring F) (setoid (feq_equiv F) (f_reqe F)).
  Notation ofZ := (fofZ F).

  Lemma fmono_lower x : forall a i, length a = length x -> nonneg a -> (i < length x)%nat -> 0 < nth i a 0 ->
    nth i x 0f *f fmono F x (lower a i) == fmono F x a.
  Proof.
    induction x as [|y x IH]; intros [|k a] i La Na Hi H; cbn [length] in *; try lia. inversion Na; subst. destruct i as [|i]; cbn [nth lower fmono] in *.
    - replace (Z.to_nat k) with (S (Z.to_nat (k - 1))) by lia. rewrite fpow_S. ring.
    - rewrite <- (IH a i) by (auto; lia). ring.
  Qed.
  Lemma sum_list_nth (a : list Z) : sumf (fun i => nth i a 0) (seq 0 (length a)) = zsum a.
  Proof. induction a as [|x a IH]; [reflexivity|]. cbn [length seq zsum]. rewrite sumf_cons. cbn [nth]. rewrite <- seq_shift, sumf_map. f_equal. exact IH. Qed.

  Variables (n : nat) (d : Z).
  Lemma euler f x : wf_poly n d f -> length x = S n ->
    fsum F (fun i => nth i x 0f *f feval F (partial f i) x) (seq 0 (S n)) == ofZ d *f feval F f x.
  Proof.
    intros W Lx. assert (Wt : forall a c, In (a, c) f -> is_tuple (S n) d a) by apply W. clear W. induction f as [|[a c] f IH].
    - cbn [partial map feval]. rewrite fsum_zero; [ring|]. intros; ring.
    - destruct (Wt a c) as (A1 & A2 & A3); [now left|].
      transitivity (fsum F (fun i => ofZ (nth i a 0) *f (ofZ c *f fmono F x a) +f nth i x 0f *f feval F (partial f i) x) (seq 0 (S n))).
      { apply fsum_ext. intros i Hi. apply in_seq in Hi. cbn [partial map feval fst snd]. fold (partial f i). rewrite ofZ_mul. pose proof (nonneg_nth a i A2).
        destruct (Z.eq_dec (nth i a 0) 0) as [E|NE].
        - rewrite E, ofZ_0. ring.
        - rewrite <- (fmono_lower x a i) by (try lia; auto; congruence). ring. }
      rewrite fsum_plus, IH by (intros; eapply Wt; right; eauto). cbn [feval].
      assert (S1 : fsum F (fun i => ofZ (nth i a 0) *f (ofZ c *f fmono F x a)) (seq 0 (S n)) == ofZ d *f (ofZ c *f fmono F x a)).
      { transitivity (fsum F (fun i => (ofZ c *f fmono F x a) *f ofZ (nth i a 0)) (seq 0 (S n))); [apply fsum_ext; intros; ring|].
        rewrite (fsum_scal F (ofZ c *f fmono F x a) (fun i => ofZ (nth i a 0))), <- ofZ_sumf. rewrite <- A1, sum_list_nth, A3. ring. }
      rewrite S1. ring.
  Qed.
  Lemma euler_zero p f x : prime p -> ~ (p | d) -> ofZ p == 0f -> wf_poly n d f -> length x = S n -> (forall i, (i <= n)%nat -> feval F (partial f i) x == 0f) ->
    feval F f x == 0f.
  Proof.
    intros Pp Hd Hp W Lx H. pose proof (euler f x W Lx) as E. rewrite fsum_zero in E by (intros i Hi; apply in_seq in Hi; rewrite H by lia; ring).
    destruct (rel_prime_bezout d p) as [u v Huv]; [apply rel_prime_sym, prime_rel_prime; auto|].
    assert (U : ofZ u *f ofZ d == 1f).
    { rewrite <- ofZ_mul. replace (u * d) with (1 + - v * p) by lia. rewrite ofZ_add, ofZ_mul, Hp, ofZ_1. ring. }
    transitivity ((ofZ u *f ofZ d) *f feval F f x); [rewrite U; ring|]. transitivity (ofZ u *f (ofZ d *f feval F f x)); [ring|]. rewrite <- E. ring.
  Qed.
End Euler.

Lemma common_zero_gens F n (gen : nat -> list (list Z * Z)) x :
  (forall g, In g (map gen (seq 0 (S n))) -> feq F (feval F g x) (f0 F)) <-> (forall i, (i <= n)%nat -> feq F (feval F (gen i) x) (f0 F)).
Proof.
  split.
  - intros H i Hi. apply H, in_map, in_seq. lia.
  - intros H g Hg. apply in_map_iff in Hg. destruct Hg as (i & <- & Hi). apply in_seq in Hi. apply H. lia.
Qed.

Section Core.
  Variables (p : Z) (n : nat) (e : Z) (gen : nat -> list (list Z * Z)).
  Hypothesis He : 0 <= e.
  Let gs := map gen (seq 0 (S n)).
  Hypothesis Hgs : Forall (form (S n) e) gs.

  Lemma full_no_point l : 0 <= l -> (forall G, inI p n e gs l G) -> no_common_zero p n gen.
  Proof.
    intros Hl Full F Hp x (Lx & (i & Hi & Nx) & Z0). apply (full_no_zero F p n e gs Hp Hgs x l Lx Hl i Full); auto.
    intros g Hg. now apply (common_zero_gens F n gen x).
  Qed.
  Lemma no_point_full : no_common_zero p n gen -> forall N0, ~ ~ exists D, N0 <= D /\ 0 <= D /\ forall G, inI p n e gs D G.
  Proof.
    intros H. apply (no_zero_full p n e gs He Hgs). intros F Hp x i Hi Lx Nx Z0. apply (H F Hp x). split; [exact Lx|]. split; [now exists i|].
    now apply (common_zero_gens F n gen x).
  Qed.
End Core.

Section Deg.
  Variables (p : Z) (n : nat) (d : Z) (f : poly) (tl : list (list vec)).
  Hypothesis Pp : prime p.
  Hypothesis Hf : f <> [].
  Hypothesis W : wf_poly n d f.
  Hypothesis Htl : init_tuples n d = OK tl.
  Let D0 := mk_dR p 1 (p ^ 1) n d f tl (map tuple_index tl) [] [].

  Lemma base1 : 1 <= d -> dr_base D0.
  Proof.
    intros Hd. constructor; cbn [r_d r_n r_f r_tl r_td D0]; [lia|apply W|apply W| |].
    - intros k Hk. eapply init_tuples_ok; eauto.
    - intros k Hk. eapply (get_at_map tuple_index). eapply init_tuples_ok; eauto.
  Qed.
  Lemma vanish_smooth : 2 <= d -> vanishH (S n) p (d - 1) (Js n f) -> smooth_mod p n d f.
  Proof.
    intros H2 V. assert (Hl : 0 <= (d - 2) * (Z.of_nat n + 1) + 1 <= (Z.of_nat n + 1) * d) by nia.
    destruct (solve_J_qbasis p 1 lu_inst inv_inst n d f Pp ltac:(lia) (lu_inst_spec p Pp) (inv_inst_ok p Pp) W ltac:(lia) D0 (base1 ltac:(lia)) eq_refl eq_refl eq_refl eq_refl _ Hl) as (B & U & _ & _ & Q).
    pose proof (size_J p n d f Pp W ltac:(lia) _ B H2 V Q) as SZ.
    intros G. apply (empty_J p n d f W ltac:(lia) ((d - 2) * (Z.of_nat n + 1) + 1) B ltac:(lia) ltac:(nia) Q).
    unfold znth, hilbert_J in SZ. destruct (Z.ltb_spec ((d - 2) * (Z.of_nat n + 1) + 1) 0); [lia|]. rewrite nth_overflow in SZ.
    - unfold zlen in SZ. destruct B; [reflexivity|cbn [length] in SZ; lia].
    - rewrite hilbert_pow_length by lia. nia.
  Qed.
  Lemma vanish_nd : 1 <= d -> vanishH (S n) p d (Ls n f) -> non_degenerate p n d f.
  Proof.
    intros H2 V. assert (Hl : 0 <= (d - 1) * (Z.of_nat n + 1) + 1 <= (Z.of_nat n + 1) * d) by nia.
    destruct (solve_ND_qbasis p 1 lu_inst inv_inst n d f Pp ltac:(lia) (lu_inst_spec p Pp) (inv_inst_ok p Pp) W D0 (base1 ltac:(lia)) eq_refl eq_refl eq_refl eq_refl _ Hl) as (B & U & _ & _ & Q).
    pose proof (size_ND p n d f Pp W H2 _ B V Q) as SZ.
    intros G. apply (empty_ND p n d f W ltac:(lia) ((d - 1) * (Z.of_nat n + 1) + 1) B ltac:(nia) Q).
    unfold znth, hilbert_ND in SZ. destruct (Z.ltb_spec ((d - 1) * (Z.of_nat n + 1) + 1) 0); [lia|]. rewrite nth_overflow in SZ.
    - unfold zlen in SZ. destruct B; [reflexivity|cbn [length] in SZ; lia].
    - rewrite hilbert_pow_length by lia. nia.
  Qed.

  Lemma inI_J l G : d - 1 <= l -> inI p n (d - 1) (Js n f) l G <-> in_jacobian p n d f l G.
  Proof.
    intros Hl. unfold inI, in_jacobian. rewrite Js_length, (mons_enum n (l - (d - 1))) by lia.
    assert (E : forall h t, sumf (fun i => sumf (fun s => h i s * coefP (nth i (Js n f) []) s t) (enum (S n) (Z.to_nat (l - (d - 1))))) (seq 0 (S n)) =
      sumf (fun i => sumf (fun s => h i s * coef_dx f i s t) (enum (S n) (Z.to_nat (l - (d - 1))))) (seq 0 (S n))).
    { intros h t. apply sumf_ext. intros i Hi. apply in_seq in Hi. apply sumf_ext. intros s _. rewrite Js_nth by lia. now rewrite coefP_dx. }
    split; intros (h & H); exists h; intros t Ht; [rewrite <- E|rewrite E]; now apply H.
  Qed.
  Lemma inI_L l G : d <= l -> inI p n d (Ls n f) l G <-> in_log_jacobian p n d f l G.
  Proof.
    intros Hl. unfold inI, in_log_jacobian. rewrite Ls_length, (mons_enum n (l - d)) by lia.
    assert (E : forall h t, sumf (fun i => sumf (fun s => h i s * coefP (nth i (Ls n f) []) s t) (enum (S n) (Z.to_nat (l - d)))) (seq 0 (S n)) =
      sumf (fun i => sumf (fun s => h i s * coef_xdx f i s t) (enum (S n) (Z.to_nat (l - d)))) (seq 0 (S n))).
    { intros h t. apply sumf_ext. intros i Hi. apply in_seq in Hi. apply sumf_ext. intros s _. rewrite Ls_nth by lia. now rewrite coefP_xdx. }
    split; intros (h & H); exists h; intros t Ht; [rewrite <- E|rewrite E]; now apply H.
  Qed.

  Lemma ncz_dx : no_common_zero p n (dxP f) <-> no_common_zero p n (partial f).
  Proof. split; intros H F Hp x (A & B & C); apply (H F Hp x); (split; [exact A|split; [exact B|]]); intros i Hi; specialize (C i Hi); now rewrite partial_dxP in *. Qed.

  Lemma smooth_points : 2 <= d -> (smooth_mod p n d f -> no_common_zero p n (partial f)) /\ (no_common_zero p n (partial f) -> ~ ~ smooth_mod p n d f).
  Proof.
    intros Hd. rewrite <- ncz_dx. pose proof (Js_forms n d f W) as FJ. split.
    - intros S0. apply (full_no_point p n (d - 1) (dxP f) FJ ((d - 2) * (Z.of_nat n + 1) + 1)); [nia|]. intros G. apply inI_J; [nia|]. apply S0.
    - intros H C. apply (no_point_full p n (d - 1) (dxP f) ltac:(lia) FJ H (d - 1)). intros (N & H1 & H2 & H3). apply C, vanish_smooth; [lia|].
      apply (exact_J n d f W p N Hd H1). intros G. apply inI_J; auto.
  Qed.
  Lemma nd_points : 1 <= d -> (non_degenerate p n d f -> no_common_zero p n (log_partial f)) /\ (no_common_zero p n (log_partial f) -> ~ ~ non_degenerate p n d f).
  Proof.
    intros Hd. pose proof (Ls_forms n d f W) as FL. split.
    - intros S0. apply (full_no_point p n d (xdxP f) FL ((d - 1) * (Z.of_nat n + 1) + 1)); [nia|]. intros G. apply inI_L; [nia|]. apply S0.
    - intros H C. apply (no_point_full p n d (xdxP f) ltac:(lia) FL H d). intros (N & H1 & H2 & H3). apply C, vanish_nd; [lia|].
      apply (exact_L n d f W p N Hd H1). intros G. apply inI_L; auto.
  Qed.
End Deg.
