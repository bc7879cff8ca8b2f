(** C62, continued: with right linear algebra the first comparison of
    test_JND_and_invariance, between frob_matrix_J and frob_matrix_ND, never fails. *)
From Coq Require Import ZArith List Bool Lia Znumtheory.
From Verif Require Import Base VecModel VecSpec VecProofs ToolsModel ToolsSpec ToolsProofs PolyProofs MatModel MatProofs DRModel DRSpec DRProofs DRRed NDRed DRFinal
  FdModel FrobModel FrobSpec FrobSum FrobProofs FrobTop FrobProps NDModel NDSpec NDBasis FrobNDModel FrobND FrobNDTop FrobNDProps LinAlg SolveModel SolveSpec SolveProofs SolveProps SmoothProofs
  LuInst LuFast ChangeModel ChangeSpec ChangeProofs ArgsModel ArgsProofs RunModel ZetaModel HilbCode HilbProps RunProofs TestModel CtorModel TestProofs CtorProofs CtorProps UniqCode UniqProps AgreeProps InvModel InvProofs.
Import ListNotations.
Open Scope Z_scope.

Lemma rows_mapM {A B} (f : A -> res B) l rs : Forall2 (fun i r => f i = OK r) l rs -> mapM f l = OK rs.
Proof. induction 1 as [|i r l rs H F IH]; cbn [mapM]; [reflexivity|]. rewrite H. cbn [bind]. rewrite IH. reflexivity. Qed.
Lemma Forall2_imp {A B} (P Q : A -> B -> Prop) l m : (forall a b, P a b -> Q a b) -> Forall2 P l m -> Forall2 Q l m.
Proof. intros H F. induction F; constructor; auto. Qed.
(** the matrix is the one for the table of powers that the call leaves *)
Lemma matrix_J_obj_eq slv N D T F : 2 <= r_q D -> wf_poly (r_n D) (r_d D) (r_f D) -> tab_ok (r_q D) (r_n D) (r_d D) (r_f D) T ->
  matrix_J_obj slv N (D, T) = OK F -> exists T' m, snd F = (D, T') /\ compute_fpow (r_q D) (r_f D) m T = OK T' /\
    tab_ok (r_q D) (r_n D) (r_d D) (r_f D) T' /\ frob_matrix_J slv D T' N = OK (fst F).
Proof.
  intros Hq Wf HT E. unfold matrix_J_obj in E. cbv zeta in E. cbn [fst snd] in E. apply bind_ok in E. destruct E as (u & E1 & E).
  apply bind_ok in E. destruct E as (rt & E2 & E). injection E as <-.
  destruct (rows_first D Hq Wf N (fun T => frob_row slv D T N) (fun T T' i k mx r => row_J_grow slv D Hq Wf N T T' i k mx r) _ [] T rt HT E2) as (K1 & (m & _ & K2) & rs & K3 & K4).
  exists (snd rt), m. cbn [fst snd]. split; auto. split; auto. split; auto. unfold frob_matrix_J. rewrite E1. cbn [bind].
  rewrite (rows_mapM _ _ rs (Forall2_imp _ _ _ _ (fun a b H => proj1 H) K4)). cbn [bind]. rewrite K3. reflexivity.
Qed.
Lemma matrix_ND_obj_eq slv N o T F : 2 <= r_q (nd_dr o) -> wf_poly (r_n (nd_dr o)) (r_d (nd_dr o)) (r_f (nd_dr o)) ->
  tab_ok (r_q (nd_dr o)) (r_n (nd_dr o)) (r_d (nd_dr o)) (r_f (nd_dr o)) T -> matrix_ND_obj slv N (o, T) = OK F ->
  exists T' m, compute_fpow (r_q (nd_dr o)) (r_f (nd_dr o)) m T = OK T' /\ frob_matrix_ND slv o T' N = OK (fst F).
Proof.
  intros Hq Wf HT E. unfold matrix_ND_obj in E. cbv zeta in E. cbn [fst snd] in E. apply bind_ok in E. destruct E as (u & E1 & E).
  apply bind_ok in E. destruct E as (rt & E2 & E). injection E as <-.
  destruct (rows_first (nd_dr o) Hq Wf N (fun T => frob_row_ND slv o T N) (fun T T' i k mx r => row_ND_grow slv o Hq Wf N T T' i k mx r) _ [] T rt HT E2) as (K1 & (m & _ & K2) & rs & K3 & K4).
  exists (snd rt), m. cbn [fst snd]. split; auto. unfold frob_matrix_ND. cbv zeta. rewrite E1. cbn [bind].
  rewrite (rows_mapM _ _ rs (Forall2_imp _ _ _ _ (fun a b H => proj1 H) K4)). cbn [bind]. rewrite K3. reflexivity.
Qed.

(** for all random values: if the run returns, frob_matrix_J and frob_matrix_ND
    agreed.  The hypothesis on the object is that of C60: the word-size FLINT routine
    meets only polynomials it can handle (C36). *)
Theorem C62_JND_right : forall lu inv gauss det cands row rnd p n rs b rs',
  prime p -> 3 <= p -> ech_spec p lu -> inv_spec p inv ->
  (forall prec N x, jnd_args n = OK (prec, N) ->
     ctor_random_ND (padic_solver lu inv p (p ^ prec) 1) (padic_solver lu inv p (p ^ prec) prec) (p ^ prec) p prec n 4 rs = OK x ->
     forall e, In e (r_basis (nd_dr (fst x))) -> let m := pole_of n 4 e in
       flint_fine (padic_solver lu inv p (p ^ prec) prec) (fst x) e m (nth (Z.to_nat (m - 1)) N 0)) ->
  test_JND_with (fun F => F) (padic_solver lu inv p) lu gauss det cands row rnd p n rs = OK (b, rs') -> fst b = true.
Proof.
  intros lu inv gauss det cands row rnd p n rs b rs' Pp p3 HL HI HF E. unfold test_JND_with in E. apply bind_ok in E. destruct E as ([prec N] & EA & E). cbv zeta in E.
  apply bind_ok in E. destruct E as (x & EC & E). apply bind_ok in E. destruct E as (b' & EB & E). injection E as <- _.
  assert (A : 1 <= prec /\ (n = 2%nat \/ n = 3%nat) /\ length N = n /\ forall y, In y N -> y <= 28).
  { clear - EA. unfold jnd_args in EA. destruct n as [|[|[|[|n]]]]; try discriminate; injection EA as <- <-; (split; [lia|split; [auto|split; [reflexivity|]]]); intros y Hy; repeat (destruct Hy as [<-|Hy]; [lia|]); destruct Hy. }
  destruct A as (A1 & A2 & A3 & A4). specialize (HF prec N x EA EC). set (q := p ^ prec) in *. set (slv := padic_solver lu inv p q prec) in *.
  destruct (random_ND_wf _ _ _ _ _ _ _ _ _ EC) as (f & F1 & W). set (o := fst x) in *. pose proof (init_ND_dr _ _ _ _ _ _ F1) as HD.
  assert (Q2 : 2 <= q). { unfold q. assert (p ^ 1 <= p ^ prec) by (apply Z.pow_le_mono_r; lia). lia. }
  destruct (new_J_ready _ _ _ _ _ _ _ _ Q2 W HD) as (G1 & G2 & G3). destruct (init_dims _ _ _ _ _ _ _ _ W HD) as (En & Ed & Eq & Ep).
  assert (W' : wf_poly (r_n (nd_dr o)) (r_d (nd_dr o)) f) by (rewrite En, Ed; exact W). destruct (init_inv _ _ _ _ _ _ HD W') as (inv' & Eq' & Ef).
  unfold jnd_body in EB. apply bind_ok in EB. destruct EB as (FJ & E1 & EB). apply bind_ok in E1. destruct E1 as (F0 & E1 & X). injection X as <-. cbn [fst snd] in EB.
  unfold matrix_J_of_ND in E1. apply bind_ok in E1. destruct E1 as (y & E1 & X). injection X as <-. cbn [fst snd] in EB.
  unfold new_ND in E1 at 1. cbn [fst snd] in E1.
  change (nd_dr (fst (new_ND o)), snd (new_ND o)) with (nd_dr o, fpow_init (r_q (nd_dr o)) (r_n (nd_dr o))) in E1.
  destruct (matrix_J_obj_eq slv N (nd_dr o) _ y G1 G2 G3 E1) as (T' & m & M1 & M2 & M3 & M4). rewrite M1 in EB. cbn [fst snd] in EB.
  apply bind_ok in EB. destruct EB as (FN & E2 & EB). change (fst (new_ND o)) with o in E2.
  destruct (matrix_ND_obj_eq slv N o T' FN G1 G2 M3 E2) as (T2 & m2 & M5 & M6).
  do 4 (apply bind_ok in EB; destruct EB as (? & _ & EB)). cbv zeta in EB. do 6 (apply bind_ok in EB; destruct EB as (? & _ & EB)). injection EB as <-. cbn [fst snd].
  rewrite Eq, Ef in M2, M5.
  assert (Hs : solver_ok q slv) by (apply padic_solver_ok; auto; lia).
  assert (K : frob_matrix_ND slv o T2 N = frob_matrix_J slv (nd_dr o) T' N).
  { apply (C60_matrices slv p prec prec f o F1 W' Hs Pp A1 ltac:(rewrite En; lia) [m; m2] T2 [m] T').
    - cbn [foldM]. fold q. rewrite M2. cbn [bind]. rewrite M5. reflexivity.
    - cbn [foldM]. fold q. rewrite M2. reflexivity.
    - intros e He. cbv zeta. rewrite En, Ed. set (pm := pole_of n 4 e). set (P := nth (Z.to_nat (pm - 1)) N 0). intros HP.
      destruct (In_nth _ _ [] He) as (i & Hi & Eb).
      destruct (coord_ok slv (nd_dr o) inv') with (i := i) as (b1 & B1 & B2 & B3 & _ & B5); auto; try (rewrite ?Eq', ?En; auto; lia).
      rewrite Eb in B2. subst b1. rewrite En, Ed in B3. fold pm in B3.
      assert (BP : P <= 28) by (apply A4, nth_In; lia).
      split; [|split].
      + split; [|split].
        * assert (Z.of_nat n / p <= 1) by (apply Z.div_le_upper_bound; lia). lia.
        * intros k j H1 H2. eapply Z.le_lt_trans; [apply choose_le_pow2|]. apply Z.pow_lt_mono_r; lia.
        * intros k j H1 H2 _. apply (fits_small pm P); lia.
      + exact (HF e He).
      + cbn [coef_fits]. apply (fits_small pm P); lia. }
  rewrite M4, M6 in K. injection K as ->. unfold mat_eqb. destruct (list_eq_dec _ _ _); congruence.
Qed.
Print Assumptions C62_JND_right.
(** the hypotheses can be met: for p = 3 the routine of C36 is not used at all, and
    some random values give an object *)
Example C62_JND_right_ex :
  (forall gauss det cands row rnd rs b rs', test_JND_with (fun F => F) (padic_solver lu_inst inv_inst 3) lu_inst gauss det cands row rnd 3 2 rs = OK (b, rs') -> fst b = true) /\
  exists rs x, ctor_random_ND (padic_solver lu_inst inv_inst 3 27 1) (padic_solver lu_inst inv_inst 3 27 3) 27 3 3 2 4 rs = OK x.
Proof.
  assert (P3 : prime 3) by exact prime_3. split.
  - intros gauss det cands row rnd rs b rs'. apply C62_JND_right; [exact P3|lia|apply lu_inst_spec; exact P3|apply inv_inst_ok; exact P3|].
    intros prec N x EA EC e He. injection EA as <- <-. right. left. destruct (random_ND_wf _ _ _ _ _ _ _ _ _ EC) as (f & F1 & W).
    destruct (init_dims _ _ _ _ _ _ _ _ W (init_ND_dr _ _ _ _ _ _ F1)) as (En & _ & Eq & Ep). rewrite En, Eq, Ep. vm_compute. split; discriminate.
  - destruct (init_tuples_total 2 4 ltac:(vm_compute; reflexivity)) as (tl & Htl).
    pose proof (C57_random_returns 3 3 lu_inst inv_inst 2 4 tl P3 ltac:(lia) (lu_inst_spec 3 P3) (inv_inst_ok 3 P3) ltac:(lia) Htl ltac:(lia)) as L.
    assert (Nd : ~ (3 | 4)) by (intros D; apply Z.mod_divide in D; [vm_compute in D; discriminate|lia]). destruct (L Nd) as (_ & L').
    destruct (live_outcome _ _ L' []) as [(x & rest & _ & E)|(_ & more & x & _ & E)]; [exists [], (x, rest); exact E|exists more, (x, []); exact E].
Qed.
