(** Proofs about the whole of zeta_function: which model of f is used, and what
    the Frobenius matrix is. *)
From Coq Require Import ZArith List Bool Lia Znumtheory.
From Verif Require Import Base VecModel VecSpec VecProofs ToolsModel ToolsSpec ToolsProofs PolyProofs MatModel MatProofs DRModel DRSpec DRProofs DRRed NDRed
  FrobModel FrobSpec FrobTop FrobProps NDModel NDSpec NDBasis FrobNDModel FrobND FrobNDTop FrobNDProps SolveModel SolveSpec SolveProofs SmoothProofs
  ChangeModel ChangeSpec ChangeProofs ChangeFind ArgsModel ArgsProofs CharModel ZetaModel ZetaProofs RunModel HilbCode HilbProps.
Import ListNotations.
Open Scope Z_scope.

(** * polynomials with congruent coefficients *)
Section Cong.
  Variables (p q1 q2 : Z).
  Hypothesis D1 : (p | q1).
  Hypothesis D2 : (p | q2).
  Lemma cmod1 x : cong p (x mod q1) x.
  Proof. apply cong_div with q1; auto. apply cong_mod_any. Qed.
  Lemma cmod2 x : cong p (x mod q2) x.
  Proof. apply cong_div with q2; auto. apply cong_mod_any. Qed.

  Lemma vaccum_pc k a b f g : cong p a b -> pcong p f g ->
    pcong p (vaccum (fun x y => (x + y) mod q1) k a f) (vaccum (fun x y => (x + y) mod q2) k b g).
  Proof.
    intros C H. pose proof (vfind_pcong p k f g H) as V. unfold vaccum.
    destruct (vfind k f) as [x|], (vfind k g) as [y|]; try tauto; apply vinsert_pcong; auto.
    eapply cong_trans; [apply cmod1|]. apply cong_sym. eapply cong_trans; [apply cmod2|]. apply cong_sym. now apply cong_add.
  Qed.
  Lemma pmul_pc f f' g g' : pcong p f f' -> pcong p g g' -> pcong p (pmul q1 f g) (pmul q2 f' g').
  Proof.
    intros F G. unfold pmul, pmul_into.
    assert (A : forall acc acc', pcong p acc acc' -> pcong p
      (fold_left (fun acc h => fold_left (fun acc x => vaccum (fun a b => (a + b) mod q1) (vadd (fst h) (fst x)) ((snd h * snd x) mod q1) acc) g acc) f acc)
      (fold_left (fun acc h => fold_left (fun acc x => vaccum (fun a b => (a + b) mod q2) (vadd (fst h) (fst x)) ((snd h * snd x) mod q2) acc) g' acc) f' acc'));
      [|apply A; constructor].
    induction F as [|[k a] [k' b] f f' [E C] F IH]; intros acc acc' H; [exact H|]. cbn [fst snd] in E, C. subst k'.
    cbn [fold_left fst snd]. apply IH. clear IH F. revert acc acc' H.
    induction G as [|[l x] [l' y] g g' [E' C'] G IH]; intros acc acc' H; [exact H|]. cbn [fst snd] in E', C'. subst l'.
    cbn [fold_left fst snd]. apply IH. apply vaccum_pc; auto.
    eapply cong_trans; [apply cmod1|]. apply cong_sym. eapply cong_trans; [apply cmod2|]. apply cong_sym. now apply cong_mul.
  Qed.
  Lemma cov_term_pc n rows e c c' : cong p c c' -> pcong p (cov_term q1 n rows e c) (cov_term q2 n rows e c').
  Proof.
    intros Hc. unfold cov_term. generalize (seq 0 n).
    assert (P : forall k X H H', pcong p H H' -> pcong p (cov_pow q1 k X H) (cov_pow q2 k X H')).
    { induction k as [|k IH]; intros X H H' R; cbn [cov_pow]; auto. apply IH, pmul_pc; auto. apply pcong_refl. }
    assert (R0 : pcong p [(repeat 0 n, c)] [(repeat 0 n, c')]) by (repeat constructor; auto). revert R0.
    generalize [(repeat 0 n, c)] [(repeat 0 n, c')].
    intros H H' R l. revert H H' R. induction l as [|i l IH]; intros H H' R; cbn [fold_left]; auto.
  Qed.
  Lemma cov_pc f f' M g : pcong p f f' -> change_of_variables q1 f M = OK g ->
    exists g', change_of_variables q2 f' M = OK g' /\ pcong p g g'.
  Proof.
    intros F. unfold change_of_variables. destruct (negb _); [discriminate|].
    assert (E : forallb (fun t => Nat.eqb (length (fst t)) (length M)) f = forallb (fun t => Nat.eqb (length (fst t)) (length M)) f').
    { clear - F. induction F as [|a b f f' [E _] F IH]; cbn [forallb]; auto. now rewrite E, IH. }
    rewrite E. destruct (negb _); [discriminate|].
    intros X. injection X as <-. eexists. split; [reflexivity|]. clear E.
    assert (R0 : pcong p [] []) by constructor. revert R0. generalize (@nil (vec * Z)) at 1 3. generalize (@nil (vec * Z)).
    induction F as [|[e c] [e' c'] f f' [E C] F IH]; intros H H' R; cbn [fold_left fst snd]; auto. cbn [fst snd] in E, C. subst e'. apply IH. clear IH.
    unfold padd_into. generalize (cov_term_pc (length M) (map (cov_row (length M)) M) e c c' C).
    generalize (cov_term q1 (length M) (map (cov_row (length M)) M) e c) (cov_term q2 (length M) (map (cov_row (length M)) M) e c').
    intros T T' RT. revert H H' R. induction RT as [|[k a] [k' b] T T' [E' C'] RT IH]; intros H H' R; [exact R|].
    cbn [fst snd] in E', C'. subst k'. cbn [fold_left fst snd]. apply IH. apply vaccum_pc; auto.
  Qed.
End Cong.

Lemma pcong_sym p f g : pcong p f g -> pcong p g f.
Proof. induction 1 as [|a b f g [E C] H IH]; constructor; auto. split; auto. now apply cong_sym. Qed.

Lemma coef_dx_pc p f g i s t : pcong p f g -> cong p (coef_dx f i s t) (coef_dx g i s t).
Proof.
  intros H. unfold coef_dx. induction H as [|[a c] [b e] f g [E C] H IH]; [apply cong_refl|]. rewrite !sumf_cons. cbn [fst snd] in *. subst b.
  apply cong_add; auto. destruct (list_eq_dec _ _ _); [|apply cong_refl]. now apply cong_mul; [apply cong_refl|].
Qed.
Lemma coef_xdx_pc p f g i s t : pcong p f g -> cong p (coef_xdx f i s t) (coef_xdx g i s t).
Proof.
  intros H. unfold coef_xdx. induction H as [|[a c] [b e] f g [E C] H IH]; [apply cong_refl|]. rewrite !sumf_cons. cbn [fst snd] in *. subst b.
  apply cong_add; auto. destruct (list_eq_dec _ _ _); [|apply cong_refl]. now apply cong_mul; [apply cong_refl|].
Qed.
Lemma smooth_pc p n d f g l : pcong p f g -> (forall G, in_jacobian p n d f l G) -> forall G, in_jacobian p n d g l G.
Proof.
  intros H X G. destruct (X G) as (h & Hh). exists h. intros t Ht. eapply cong_trans; [apply (Hh t Ht)|].
  apply cong_sumf. intros i _. apply cong_sumf. intros s _. apply cong_mul; [apply cong_refl|now apply coef_dx_pc].
Qed.
Lemma nd_pc p n d f g : pcong p f g -> non_degenerate p n d f -> non_degenerate p n d g.
Proof.
  intros H X G. destruct (X G) as (h & Hh). exists h. intros t Ht. eapply cong_trans; [apply (Hh t Ht)|].
  apply cong_sumf. intros i _. apply cong_sumf. intros s _. apply cong_mul; [apply cong_refl|now apply coef_xdx_pc].
Qed.

Lemma poly_mod_pc p q f : (p | q) -> pcong p (poly_mod q f) f.
Proof. intros D. unfold poly_mod. induction f as [|t f IH]; constructor; auto. cbn [fst snd]. split; auto. now apply cmod1. Qed.
Lemma poly_mod_ne q f : f <> [] -> poly_mod q f <> [].
Proof. destruct f; [congruence|discriminate]. Qed.
Lemma poly_mod_wf q n d f : wf_poly n d f -> wf_poly n d (poly_mod q f).
Proof.
  intros (S & H). split.
  - clear H. unfold vsorted, poly_mod in *. induction S as [|k v m K S IH L]; cbn [map]; constructor; auto.
    intros k' v' I. apply in_map_iff in I. destruct I as ([k2 v2] & E & I). injection E as <- <-. eapply L; eauto.
  - intros a c I. apply in_map_iff in I. destruct I as ([a' c'] & E & I). injection E as <- <-. eapply H; eauto.
Qed.

(** * the tables of the supported cases *)
Lemma init_tuples_total n d : (Z.of_nat n + 1) * d + Z.of_nat n < 63 -> exists tl, init_tuples n d = OK tl.
Proof.
  intros H. unfold init_tuples. destruct (mapM_rel (fun i => tuple_list_generator i (Z.of_nat n + 1)) (fun _ _ => True) (zseq 0 ((Z.of_nat n + 1) * d + 1))) as (r & E & _); [|eauto].
  intros i Hi. apply zseq_In in Hi. rewrite tlg_ok; [eauto|lia|lia|].
  eapply Z.le_lt_trans; [apply choose_le_pow2|]. apply Z.pow_lt_mono_r; lia.
Qed.

(** * which polynomial is used *)
Lemma mat_zero_mzero a b : mat_zero (mzero a b) = true.
Proof. unfold mat_zero, mzero. apply forallb_forall. intros r Hr. apply repeat_spec in Hr. subst r. apply forallb_forall. intros x Hx. apply repeat_spec in Hx. subst x. reflexivity. Qed.
Lemma mat_zero_det p n M : 2 <= p -> shape M (S n) (S n) -> cong p (detf (S n) (mget M)) 1 -> mat_zero M = false.
Proof.
  intros Hp SH Hdet. destruct (mat_zero M) eqn:E; auto. exfalso. unfold mat_zero in E.
  assert (Z0 : forall j, mget M 0 j = 0).
  { intros j. unfold mget. rewrite forallb_forall in E. destruct M as [|r M]; [destruct j; reflexivity|]. cbn [nth].
    specialize (E r (or_introl eq_refl)). rewrite forallb_forall in E. destruct (Nat.lt_ge_cases j (length r)) as [L|L]; [|now rewrite nth_overflow].
    apply Z.eqb_eq. apply E. now apply nth_In. }
  assert (Dz : detf (S n) (mget M) = 0).
  { cbn [detf]. apply sumf_zero. intros j _. rewrite Z0. ring. }
  rewrite Dz in Hdet. unfold cong in Hdet. apply Z.divide_opp_r in Hdet. change (- (0 - 1)) with 1 in Hdet. apply Z.divide_1_r_nonneg in Hdet; lia.
Qed.

Section Pick.
  Variables (p q : Z) (lu gauss : ech_fun) (det : Z -> nat -> mat -> Z) (rnd : nat -> list mat * nat) (n : nat) (d : Z) (tl : list (list vec)) (f : poly).
  Hypothesis Pp : prime p.
  Hypothesis Hpq : (p | q).
  Hypothesis HL : ech_spec p lu.
  Hypothesis HG : ech_spec p gauss.
  Hypothesis HD : det_spec p det.
  Hypothesis Hd : 1 <= d.
  Hypothesis Htl : init_tuples n d = OK tl.
  Hypothesis Hf : f <> [].
  Hypothesis W : wf_poly n d f.
  Hypothesis Hrnd : forall i, (snd (rnd i) < S n)%nat /\ Forall (fun A => shape A (S n) (S n) /\ mreduced p A) (fst (rnd i)) /\
    Exists (invertible p (S n)) (fst (rnd i)).
  Notation fp := (poly_mod p f).
  Notation fq := (poly_mod q f).

  Lemma fp_nd : non_degenerate p n d fp <-> non_degenerate p n d f.
  Proof. split; apply nd_pc; [|apply pcong_sym]; apply poly_mod_pc; apply Z.divide_refl. Qed.
  Lemma fq_nd : non_degenerate p n d f -> non_degenerate p n d fq.
  Proof. apply nd_pc, pcong_sym, poly_mod_pc, Hpq. Qed.

  Lemma pick_ok (better : bool) : exists g nd, pick_model lu gauss det p q rnd better fp fq = OK (g, nd) /\ wf_poly n d g /\ g <> [] /\
    ((nd = true /\ non_degenerate p n d f /\ g = fq /\ non_degenerate p n d g) \/
     (better = true /\ nd = true /\ ~ non_degenerate p n d f /\ (exists M, shape M (S n) (S n) /\ cong p (detf (S n) (mget M)) 1 /\
        change_of_variables q fq M = OK g) /\ non_degenerate p n d g) \/
     (nd = false /\ ~ non_degenerate p n d f /\ g = fq)).
  Proof.
    unfold pick_model. pose proof (poly_mod_wf p n d f W) as Wp. pose proof (poly_mod_wf q n d f W) as Wq.
    pose proof (poly_mod_ne p f Hf) as Np. pose proof (poly_mod_ne q f Hf) as Nq. pose proof (prime_ge_2 p Pp) as P2.
    destruct (is_nd_ok p q lu n d tl Pp Hpq HL Hd Htl fp Np Wp) as (b & Eb & Hb). rewrite Eb. cbn [bind]. destruct b.
    - cbn [negb andb]. exists fq, true. split; auto. split; auto. split; auto. left.
      assert (ND : non_degenerate p n d f) by (apply fp_nd; now apply Hb). auto using fq_nd.
    - assert (ND : ~ non_degenerate p n d f) by (intros X; apply fp_nd in X; apply Hb in X; discriminate).
      cbn [negb andb]. destruct better.
      2:{ exists fq, false. repeat (split; [auto; fail|]). right. right. auto. }
      destruct (find_change_ok p gauss det Pp HG HD lu q n d tl fp rnd HL Hpq Hd Htl Np Wp Hrnd (p * 100 + 100))
        as (M & E & [[X1 _]|[(X1 & j & g & X2 & X3 & X4 & _)|(X1 & X2 & _)]]).
      + exfalso. apply ND. now apply fp_nd.
      + rewrite E. cbn [bind]. destruct X3 as (_ & SM & _ & DM & CM & _). rewrite (mat_zero_det p n M P2 SM DM).
        destruct (cov_wf q n d fq M Wq SM) as (g' & Eg & Ng & Wg). rewrite Eg. cbn [bind].
        exists g', true. split; auto. split; auto. split; auto. right. left. split; auto. split; auto. split; auto. split; [eauto|].
        apply (nd_pc p n d g); auto.
        destruct (cov_pc p p q (Z.divide_refl p) Hpq fp fq M g) as (g2 & E2 & C2); auto.
        { unfold poly_mod. clear - Hpq. induction f as [|t l IH]; constructor; auto. cbn [fst snd]. split; auto.
          eapply cong_trans; [apply cmod1, Z.divide_refl|]. apply cong_sym. now apply cmod1. }
        rewrite Eg in E2. injection E2 as <-. exact C2.
      + rewrite E. cbn [bind]. rewrite X2, mat_zero_mzero. exists fq, false. repeat (split; [auto; fail|]). right. right. auto.
  Qed.
End Pick.

(** * the columns of the Frobenius matrix *)
Lemma mapM_either {A B} (F : A -> res B) e (P : A -> B -> Prop) (Q : A -> Prop) l :
  (forall a, In a l -> (exists b, F a = OK b /\ P a b) \/ (F a = Err e /\ Q a)) ->
  (exists r, mapM F l = OK r /\ Forall2 P l r) \/ (mapM F l = Err e /\ exists a, In a l /\ Q a).
Proof.
  induction l as [|a l IH]; intros H; cbn [mapM].
  - left. exists []. auto.
  - destruct (H a (or_introl eq_refl)) as [(b & Eb & Pb)|(Ea & Qa)].
    + rewrite Eb. cbn [bind]. destruct IH as [(r & Er & Fr)|(Er & x & Ix & Qx)]; [intros; apply H; now right| |].
      * left. rewrite Er. cbn [bind]. exists (b :: r). auto.
      * right. rewrite Er. cbn [bind]. split; auto. exists x. split; auto. now right.
    + right. rewrite Ea. cbn [bind]. split; auto. exists a. split; auto. now left.
Qed.

(** column R of the matrix for the basis element b of pole order m, with P terms of
    the series: F represents the series, R is F divided by (p(m+P-1)-1)! / p^(n-1) *)
Definition represents (q p : Z) (n : nat) (d : Z) (g : poly) (basis : list vec) (b : vec) (P : Z) (F : list Z) (v u : Z) : Prop :=
  let m := pole_of n d b in
  length F = length basis /\
  (forall phi psi, GD q n d g phi -> basis_val q n d basis phi psi -> cong q (ev_basis psi basis F) (frob_series phi n g p m P b)) /\
  0 <= v /\ zfact (p * (m + P - 1) - 1) = p ^ v * u /\ ~ (p | u).
Definition column (q p : Z) (n : nat) (d : Z) (g : poly) (basis : list vec) (N : list Z) (b : vec) (R : list Z) : Prop :=
  let P := nth (Z.to_nat (pole_of n d b - 1)) N 0 in
  if P <=? 0 then R = repeat 0 (length basis)
  else exists F v u, represents q p n d g basis b P F v u /\ length R = length basis /\
    forall j, (j < length basis)%nat ->
      if v <=? Z.of_nat n - 1 then cong q (u * nth j R 0) (p ^ (Z.of_nat n - 1 - v) * nth j F 0)
      else cong q (u * (p ^ (v - (Z.of_nat n - 1)) * nth j R 0)) (nth j F 0).
(** the quotient does not exist *)
Definition indivisible (q p : Z) (n : nat) (d : Z) (g : poly) (basis : list vec) (N : list Z) (b : vec) : Prop :=
  let P := nth (Z.to_nat (pole_of n d b - 1)) N 0 in
  0 < P /\ exists F v u j, represents q p n d g basis b P F v u /\ Z.of_nat n - 1 < v /\ (j < length basis)%nat /\
    forall y, ~ cong q (p ^ (v - (Z.of_nat n - 1)) * y) (nth j F 0).

Definition matrix_result (q p : Z) (n : nat) (d : Z) (g : poly) (basis : list vec) (N : list Z) (r : res mat) : Prop :=
  (exists M, r = OK M /\ shape M (length basis) (length basis) /\
     forall i, (i < length basis)%nat -> column q p n d g basis N (nth i basis []) (map (fun j => mget M j i) (seq 0 (length basis)))) \/
  (r = Err EAssert /\ exists b, In b basis /\ indivisible q p n d g basis N b).

Lemma map_nth_seq (R : list Z) k : length R = k -> map (fun j => nth j R 0) (seq 0 k) = R.
Proof. intros <-. apply (nth_ext _ _ 0 0); [now rewrite map_length, seq_length|]. intros i Hi. rewrite map_length, seq_length in Hi.
  rewrite (nth_indep _ 0 (nth 0 R 0)) by (rewrite map_length, seq_length; auto). rewrite (map_nth (fun j => nth j R 0)), seq_nth by auto. reflexivity. Qed.
Lemma transpose_cols rows k i : length rows = k -> (i < k)%nat -> length (nth i rows []) = k ->
  map (fun j => mget (transpose k k rows) j i) (seq 0 k) = nth i rows [].
Proof.
  intros L Hi Hl. rewrite <- (map_nth_seq (nth i rows []) k Hl). apply map_ext_in. intros j Hj. apply in_seq in Hj. rewrite transpose_get by lia. reflexivity.
Qed.

Lemma matrix_generic q p n d g basis N (row : nat -> res (list Z)) :
  (forall i, (i < length basis)%nat -> (exists R, row i = OK R /\ length R = length basis /\ column q p n d g basis N (nth i basis []) R) \/
     (row i = Err EAssert /\ indivisible q p n d g basis N (nth i basis []))) ->
  matrix_result q p n d g basis N
    (rows <- mapM row (seq 0 (length basis)) ;; OK (transpose (length basis) (length basis) rows)).
Proof.
  intros H. destruct (mapM_either row EAssert (fun i R => length R = length basis /\ column q p n d g basis N (nth i basis []) R)
    (fun i => (i < length basis)%nat /\ indivisible q p n d g basis N (nth i basis [])) (seq 0 (length basis))) as [(rows & E & F)|(E & i & Hi & Li & Q)].
  - intros i Hi. apply in_seq in Hi. destruct (H i ltac:(lia)) as [(R & E & L & C)|(E & I)]; [left; eauto|right]. split; auto. split; auto. lia.
  - left. rewrite E. cbn [bind]. eexists. split; [reflexivity|]. split; [apply transpose_shape|]. intros i Hi.
    assert (Lr : length rows = length basis) by (pose proof (Forall2_len _ _ _ F) as FL; rewrite seq_length in FL; congruence).
    assert (X : length (nth i rows []) = length basis /\ column q p n d g basis N (nth i basis []) (nth i rows [])).
    { destruct (Forall2_nth_error _ _ _ i i F) as (R & R3 & R4).
      - rewrite nth_error_nth' with (d := 0%nat) by (now rewrite seq_length). now rewrite seq_nth.
      - rewrite (nth_error_nth _ _ _ R3). exact R4. }
    rewrite transpose_cols; tauto.
  - right. rewrite E. cbn [bind]. split; auto. exists (nth i basis []). split; auto. now apply nth_In.
Qed.

Lemma fits_small m P : 1 <= m -> m + P <= 32 -> forall i j, 0 <= j <= i -> i < P ->
  choose (Z.to_nat (m + i - 1)) (Z.to_nat (m - 1)) * choose (Z.to_nat i) (Z.to_nat j) < 2 ^ 63.
Proof.
  intros Hm H i j H1 H2.
  eapply Z.le_lt_trans; [apply Z.mul_le_mono_nonneg; [|apply choose_le_pow2| |apply choose_le_pow2]; apply ToolsProofs.choose_nonneg|].
  rewrite <- Z.pow_add_r by lia. apply Z.pow_lt_mono_r; lia.
Qed.

Lemma get_at_nth (N : list Z) k : 0 <= k < Z.of_nat (length N) -> get_at N k = OK (nth (Z.to_nat k) N 0).
Proof. intros Hk. apply get_at_ok. split; [lia|]. apply nth_error_nth'. lia. Qed.

Section Columns.
  Variables (p prec : Z) (slv : solver) (n : nat) (d : Z) (g : poly) (N : list Z).
  Notation q := (p ^ prec).
  Hypothesis Pp : prime p.
  Hypothesis Hprec : 1 <= prec.
  Hypothesis Hslv : solver_ok q slv.
  Hypothesis W : wf_poly n d g.
  Hypothesis Hn : (1 <= n)%nat.
  Hypothesis LN : length N = n.
  Hypothesis BN : forall x, In x N -> x <= 28.
  Hypothesis n3 : Z.of_nat n <= 3.
  Hypothesis p3 : 3 <= p.

  Lemma matrix_J_cols D : init slv q p prec g = OK D -> r_n D = n -> r_d D = d ->
    matrix_result q p n d g (r_basis D) N (frob_matrix_J slv D (fpow_init q n) N).
  Proof.
    intros HD En Ed. assert (W' : wf_poly (r_n D) (r_d D) g) by (rewrite En, Ed; exact W).
    destruct (init_inv _ _ _ _ _ _ HD W') as (inv & Eq & _). pose proof (init_p _ _ _ _ _ _ HD) as Ep.
    unfold frob_matrix_J. rewrite En, LN, Nat.eqb_refl. cbn [check bind]. apply matrix_generic. intros i Hi.
    destruct (coord_ok slv D inv) with (i := i) as (b' & B1 & B2 & B3 & _ & B5); auto; try (rewrite ?Eq, ?En; auto; fail).
    subst b'. rewrite En, Ed in B3, B5. set (b := nth i (r_basis D) []) in *. set (m := pole_of n d b) in *.
    unfold frob_row. fold b. rewrite B5, get_at_nth by lia. cbn [bind]. set (P := nth (Z.to_nat (m - 1)) N 0).
    assert (BP : P <= 28) by (apply BN, nth_In; lia).
    unfold column, indivisible. fold m. fold P. destruct (Z.ltb_spec 0 P) as [HP|HP].
    2:{ left. eexists. split; [reflexivity|]. split; [apply repeat_length|]. destruct (Z.leb_spec P 0); [reflexivity|lia]. }
    destruct (Z.leb_spec P 0) as [|_]; [lia|].
    destruct (C26_frobenius_value slv p prec prec g D HD W' Hslv Pp Hprec ltac:(rewrite En; exact Hn) [] (fpow_init q n) ltac:(rewrite En; reflexivity) i P 0%nat Hi ltac:(lia) ltac:(lia))
      as (F & v & u & F1 & F2 & F3 & F4 & F5 & F6 & F7).
    { rewrite En, Ed. fold b. fold m. assert (Z.of_nat n / p <= 1) by (apply Z.div_le_upper_bound; lia). lia. }
    { intros k j H1 H2. eapply Z.le_lt_trans; [apply choose_le_pow2|]. apply Z.pow_lt_mono_r; lia. }
    { rewrite En, Ed. fold b. fold m. intros k j H1 H2 _. apply (fits_small m P); lia. }
    rewrite En in F2, F4, F6, F7. rewrite Ed in F2, F4. fold b in F2, F4. fold m in F2, F4.
    assert (RP : represents q p n d g (r_basis D) b P F v u) by (unfold represents; fold m; auto).
    unfold frob_J. destruct (Z_le_gt_dec v (Z.of_nat n - 1)) as [V|V].
    - destruct (F6 V) as (R & R1 & R2 & R3). left. exists R. rewrite R1. split; auto. split; [congruence|]. exists F, v, u. split; auto. split; [congruence|].
      intros j Hj. destruct (Z.leb_spec v (Z.of_nat n - 1)); [|lia]. apply R3. congruence.
    - destruct (F7 ltac:(lia)) as [(R & R1 & R2 & R3)|(R1 & j & Hj & R3)].
      + left. exists R. rewrite R1. split; auto. split; [congruence|]. exists F, v, u. split; auto. split; [congruence|].
        intros j Hj. destruct (Z.leb_spec v (Z.of_nat n - 1)); [lia|]. apply R3. congruence.
      + right. rewrite R1. split; auto. split; auto. exists F, v, u, j. split; auto. split; [lia|]. split; [congruence|exact R3].
  Qed.

  Lemma matrix_ND_cols o : init_ND slv q p prec g = OK o -> r_n (nd_dr o) = n -> r_d (nd_dr o) = d ->
    (forall i, (i < length (r_basis (nd_dr o)))%nat -> let b := nth i (r_basis (nd_dr o)) [] in let m := pole_of n d b in
       flint_fine slv o b m (nth (Z.to_nat (m - 1)) N 0)) ->
    matrix_result q p n d g (r_basis (nd_dr o)) N (frob_matrix_ND slv o (fpow_init q n) N).
  Proof.
    intros HD En Ed HK. assert (W' : wf_poly (r_n (nd_dr o)) (r_d (nd_dr o)) g) by (rewrite En, Ed; exact W).
    destruct (init_ND_inv _ _ _ _ _ _ HD W') as (inv & Eq & _). pose proof (init_ND_p _ _ _ _ _ _ HD) as Ep.
    unfold frob_matrix_ND. cbv zeta. rewrite En, LN, Nat.eqb_refl. cbn [check bind]. apply matrix_generic. intros i Hi.
    destruct (coord_ok slv (nd_dr o) (ni_dr slv o inv)) with (i := i) as (b' & B1 & B2 & B3 & _ & B5); auto; try (rewrite ?Eq, ?En; auto; fail).
    subst b'. specialize (HK i Hi). cbv zeta in HK. rewrite En, Ed in B3, B5. set (b := nth i (r_basis (nd_dr o)) []) in *. set (m := pole_of n d b) in *.
    unfold frob_row_ND. cbv zeta. fold b. rewrite B5, get_at_nth by lia. cbn [bind]. set (P := nth (Z.to_nat (m - 1)) N 0) in *.
    assert (BP : P <= 28) by (apply BN, nth_In; lia).
    unfold column, indivisible. fold m. fold P. destruct (Z.ltb_spec 0 P) as [HP|HP].
    2:{ left. eexists. split; [reflexivity|]. split; [apply repeat_length|]. destruct (Z.leb_spec P 0); [reflexivity|lia]. }
    destruct (Z.leb_spec P 0) as [|_]; [lia|].
    destruct (C38_frobenius_value slv p prec prec g o HD W' Hslv Pp Hprec ltac:(rewrite En; exact Hn) [] (fpow_init q n) ltac:(rewrite En; reflexivity) KFlint i P Hi ltac:(lia))
      as (F & v & u & F1 & F2 & F3 & F4 & F5 & F6 & F7).
    { rewrite En, Ed. exact HK. }
    { rewrite En, Ed. fold b. fold m. cbn [coef_fits]. apply (fits_small m P); lia. }
    rewrite En in F2, F4, F6, F7. rewrite Ed in F2, F4. fold b in F2, F4. fold m in F2, F4.
    assert (RP : represents q p n d g (r_basis (nd_dr o)) b P F v u) by (unfold represents; fold m; auto).
    unfold frob_ND. destruct (Z_le_gt_dec v (Z.of_nat n - 1)) as [V|V].
    - destruct (F6 V) as (R & R1 & R2 & R3). left. exists R. rewrite R1. split; auto. split; [congruence|]. exists F, v, u. split; auto. split; [congruence|].
      intros j Hj. destruct (Z.leb_spec v (Z.of_nat n - 1)); [|lia]. apply R3. congruence.
    - destruct (F7 ltac:(lia)) as [(R & R1 & R2 & R3)|(R1 & j & Hj & R3)].
      + left. exists R. rewrite R1. split; auto. split; [congruence|]. exists F, v, u. split; auto. split; [congruence|].
        intros j Hj. destruct (Z.leb_spec v (Z.of_nat n - 1)); [lia|]. apply R3. congruence.
      + right. rewrite R1. split; auto. split; auto. exists F, v, u, j. split; auto. split; [lia|]. split; [congruence|exact R3].
  Qed.
End Columns.

(** * the arguments *)
Lemma default_N_small p n d prec N c : default_args p n d = OK (prec, N, c) -> forall x, In x N -> x <= 28.
Proof.
  intros E. apply default_args_cases in E. repeat destruct E as [E|E]; destruct E as (_ & _ & E);
    unfold args_2_3, args_2_4, args_2_5, args_2_6, args_2_7, args_2_8, args_2_9, args_3_4, args_3_5, args_3_6 in E;
    repeat match type of E with _ = if ?b then _ else _ => destruct b end; injection E as -> -> ->;
    intros x Hx; repeat destruct Hx as [Hx|Hx]; try contradiction; subst x; lia.
Qed.
Lemma default_dims p n d a : default_args p n d = OK a -> 2 <= n <= 3 /\ n < d /\ 3 <= d <= 9 /\ (n + 1) * d + n < 63.
Proof. intros E. apply default_args_cases in E. repeat destruct E as [E|E]; destruct E as (-> & -> & _); lia. Qed.

Lemma zeta_args_inv p n d abs inc prec N cprec lift : prime p -> 3 <= p -> abs <= 28 -> zeta_args p n d abs inc = OK (prec, N, cprec, lift) ->
  exists prec0 N0, default_args p n d = OK (prec0, N0, cprec) /\ 1 <= prec /\ Z.of_nat (length N) = n /\ (forall x, In x N -> x <= 28) /\ 2 <= n <= 3 /\ n < d /\ 3 <= d <= 9 /\ (n + 1) * d + n < 63.
Proof.
  intros Pp P3 Ha E. destruct (default_args p n d) as [[[prec0 N0] c0]|e] eqn:D; [|unfold zeta_args in E; rewrite D in E; discriminate].
  pose proof (default_dims p n d _ D) as DM. destruct (default_args_ok p n d _ P3 D) as (R1 & R2 & _). pose proof (default_N_small p n d _ _ _ D) as SM. exists prec0, N0.
  destruct (Z_le_gt_dec abs 0) as [A|A].
  - unfold zeta_args in E. rewrite D in E. cbn [bind] in E. destruct (Z.ltb_spec 0 abs); [lia|]. injection E as <- <- <- <-. auto 8.
  - destruct (zeta_args_ok p n d abs inc prec0 N0 c0 Pp P3 ltac:(lia) D) as (pr' & N' & l' & m & _ & _ & E' & A1 & A2 & A3 & _). rewrite E in E'.
    destruct (p <? 2 * n + m); [discriminate|]. injection E' as -> -> -> ->. split; auto. split; [lia|]. split; auto. split; auto.
    intros x Hx. destruct (In_nth _ _ 0 Hx) as (k & Hk & <-). destruct (A3 k ltac:(lia)) as (-> & _). destruct inc.
    + apply Z.max_lub; auto. apply SM. apply nth_In. lia.
    + destruct (_ <=? _); lia.
Qed.

Lemma init_ND_dr slv q p prec g o : init_ND slv q p prec g = OK o -> init slv q p prec g = OK (nd_dr o).
Proof.
  unfold init_ND. intros H. apply bind_ok in H. destruct H as (D & HD & H). apply bind_ok in H. destruct H as (top & _ & H).
  apply bind_ok in H. destruct H as (u & _ & H). apply bind_ok in H. destruct H as (bs & _ & H). apply bind_ok in H. destruct H as (u' & _ & H). injection H as <-. exact HD.
Qed.

(** the word-size arithmetic of the non-degenerate routine is harmless (C36, C38) *)
Definition words_fine (slv : solver) (q p prec : Z) (n : nat) (d : Z) (g : poly) (N : list Z) : Prop :=
  forall o, init_ND slv q p prec g = OK o -> forall b, In b (r_basis (nd_dr o)) ->
    let m := pole_of n d b in flint_fine slv o b m (nth (Z.to_nat (m - 1)) N 0).

Section FrobOf.
  Variables (p prec : Z) (lu : ech_fun) (inv : inv_fun) (n : nat) (d : Z) (g : poly) (N cprec : list Z) (prec0 : Z) (N0 : list Z).
  Notation q := (p ^ prec).
  Notation slv := (padic_solver lu inv p q prec).
  Hypothesis Pp : prime p.
  Hypothesis p3 : 3 <= p.
  Hypothesis Hprec : 1 <= prec.
  Hypothesis HL : ech_spec p lu.
  Hypothesis HI : inv_spec p inv.
  Hypothesis Hg : g <> [].
  Hypothesis W : wf_poly n d g.
  Hypothesis HA : default_args p (Z.of_nat n) d = OK (prec0, N0, cprec).
  Hypothesis LN : length N = n.
  Hypothesis BN : forall x, In x N -> x <= 28.

  Lemma frob_of_ok (nd : bool) : (forall G, in_jacobian p n d g ((d - 2) * (Z.of_nat n + 1) + 1) G) -> (nd = true -> non_degenerate p n d g) ->
    (nd = true -> words_fine slv q p prec n d g N) ->
    exists D, init slv q p prec g = OK D /\ zlen (r_basis D) + 1 = zlen cprec /\ matrix_result q p n d g (r_basis D) N (frob_of slv q p prec n g nd N cprec).
  Proof.
    intros SM ND WF. destruct (default_dims _ _ _ _ HA) as (D1 & D2 & D3 & D4). destruct (init_tuples_total n d D4) as (tl & Htl).
    pose proof (padic_solver_ok p prec lu inv Pp Hprec HL HI) as Hs.
    unfold frob_of. destruct nd.
    - destruct (init_ND_succeeds p prec lu inv n d g tl Pp Hprec HL HI Hg W D2 ltac:(lia) Htl (ND eq_refl)) as (o & Ho & En & Ed & _).
      pose proof (init_ND_dr _ _ _ _ _ _ Ho) as HD.
      pose proof (C53_table_length p prec lu inv n d g tl (nd_dr o) prec0 N0 cprec Pp p3 Hprec HL HI Hg W Htl HA HD) as LB.
      exists (nd_dr o). split; auto. split; auto. rewrite Ho. cbn [bind]. destruct (Z.eqb_spec (zlen (r_basis (nd_dr o)) + 1) (zlen cprec)); [|lia]. cbn [check bind].
      apply matrix_ND_cols; auto; [lia|lia|]. intros i Hi. apply (WF eq_refl o Ho). now apply nth_In.
    - destruct (init_succeeds p prec lu inv n d g tl Pp Hprec HL HI Hg W D2 ltac:(lia) Htl ltac:(left; lia) SM) as (D & HD & En & Ed & _).
      pose proof (C53_table_length p prec lu inv n d g tl D prec0 N0 cprec Pp p3 Hprec HL HI Hg W Htl HA HD) as LB.
      exists D. split; auto. split; auto. rewrite HD. cbn [bind]. destruct (Z.eqb_spec (zlen (r_basis D) + 1) (zlen cprec)); [|lia]. cbn [check bind].
      apply matrix_J_cols; auto; lia.
  Qed.
End FrobOf.

Lemma init_dims slv q p prec n d g D : wf_poly n d g -> init slv q p prec g = OK D -> r_n D = n /\ r_d D = d /\ r_q D = q /\ r_p D = p.
Proof.
  unfold init. destruct g as [|[a0 c0] g]; [discriminate|]. intros W H. repeat (apply bind_ok in H; destruct H as (? & ? & H)). injection H as <-. cbn [r_n r_d r_q r_p].
  destruct (proj2 W a0 c0 (or_introl eq_refl)) as (A1 & A2 & A3). rewrite A1, A3. repeat split; auto. lia.
Qed.
