(** Property C60: the two methods give the same Frobenius matrix, entry for entry,
    and the matrix is determined by the classes it has to represent. *)
From Coq Require Import ZArith List Bool Lia Znumtheory.
From Verif Require Import Base VecModel VecSpec VecProofs ToolsModel ToolsSpec ToolsProofs PolyProofs MatModel MatProofs DRModel DRSpec DRProofs DRRed NDRed DRFinal
  FrobModel FrobSpec FrobSum FrobProofs FrobTop FrobProps NDModel NDSpec NDBasis FrobNDModel FrobND FrobNDTop FrobNDProps LinAlg SolveModel SolveSpec SolveProofs SolveProps SmoothProofs
  LuInst LuFast ChangeSpec ChangeProofs ArgsModel ArgsProofs RunModel ZetaModel HilbCode HilbProps RunProofs CtorProofs UniqCode UniqProps.
Import ListNotations.
Open Scope Z_scope.

(** the division at the end sees only F modulo q *)
Lemma lvec_scal_cong q c F F' : 2 <= q -> vcong q F F' -> lvec_scal q c F = lvec_scal q c F'.
Proof.
  intros Hq (L & H). unfold lvec_scal. apply (nth_ext _ _ ((c * 0) mod q) ((c * 0) mod q)); [now rewrite !map_length|].
  intros i Hi. rewrite map_length in Hi. rewrite !(map_nth (fun x => (c * x) mod q)). apply cong_iff_mod; [lia|].
  apply cong_mul; [reflexivity|]. apply H. lia.
Qed.
Lemma frob_finish_cong q p n P F F' fact : 2 <= q -> vcong q F F' -> frob_finish q p n P F fact = frob_finish q p n P F' fact.
Proof.
  intros Hq H. unfold frob_finish. destruct (check _ _); cbn [bind]; [|reflexivity]. destruct (valuation_of_factorial _ _); cbn [bind]; [|reflexivity].
  destruct (check _ _); cbn [bind]; [|reflexivity]. destruct (inv_mod _ _) as [u|]; cbn [bind]; [|reflexivity]. now rewrite (lvec_scal_cong q u F F').
Qed.
Lemma finish_fact k q p n P F fact : prime p -> 2 <= q -> 1 <= P -> 0 <= fact < q -> cong q fact (zfact (P - 1)) ->
  fnd_finish k q p n P F = frob_finish q p n P F fact.
Proof.
  intros Hp Hq HP Hf Hc. rewrite fnd_finish_eq by auto. f_equal.
  pose proof (factorial_cong q (P - 1) 1) as F1. pose proof (factorial_range q (P - 1) 1 Hq) as F2. unfold zfact in Hc.
  apply cong_iff_mod in Hc; [|lia]. apply cong_iff_mod in F1; [|lia].
  rewrite <- F1 in Hc. rewrite !Z.mod_small in Hc by lia. congruence.
Qed.

(** the numbers in which the int64_t loops of the first method compute *)
Definition J_fits (n p m N : Z) : Prop :=
  n / p <= m + N - 1 /\
  (forall k j, 0 <= j <= k -> k < N -> choose (Z.to_nat k) (Z.to_nat j) < 2 ^ 63) /\
  (forall k j, 0 <= j <= k -> k < N -> m + j <= n / p ->
     choose (Z.to_nat (m + k - 1)) (Z.to_nat (m - 1)) * choose (Z.to_nat k) (Z.to_nat j) < 2 ^ 63).

(** C60: the three modes of the first method and the table of powers make no
    difference to the result, error or not *)
Theorem C60_modes : forall slv p k prec f D,
  let q := p ^ k in
  init slv q p prec f = OK D -> wf_poly (r_n D) (r_d D) f -> solver_ok q slv -> prime p -> 1 <= k -> (1 <= r_n D)%nat ->
  forall reqs T reqs' T', foldM (fun T power => compute_fpow q f power T) reqs (fpow_init q (r_n D)) = OK T ->
  foldM (fun T power => compute_fpow q f power T) reqs' (fpow_init q (r_n D)) = OK T' ->
  forall i N loop loop', (i < length (r_basis D))%nat -> 1 <= N -> (loop <= 2)%nat -> (loop' <= 2)%nat ->
  J_fits (Z.of_nat (r_n D)) p (pole_of (r_n D) (r_d D) (nth i (r_basis D) [])) N ->
  frob_J_ZZ slv D T i N loop = frob_J_ZZ slv D T' i N loop'.
Proof.
  intros slv p k prec f D q H W Hs Pp Hk Hn reqs T reqs' T' HT HT' i N loop loop' Hi HN Hl Hl' (C1 & C2 & C3).
  pose proof (prime_pow_2 p k Pp Hk) as Q2. fold q in Q2.
  destruct (C55_frobenius_modes_agree slv p k prec f D H W Hs Pp Hk Hn reqs T reqs' T' HT HT' i N loop loop' Hi HN Hl Hl' C1 C2 C3) as (F & fact & F' & E1 & E2 & V).
  destruct (init_inv _ _ _ _ _ _ H W) as (inv & Eq & _).
  unfold frob_J_ZZ. destruct (get_at (r_basis D) (Z.of_nat i)) as [ei|]; cbn [bind]; [|reflexivity].
  rewrite E1, E2. cbn [bind fst snd]. rewrite Eq. now apply frob_finish_cong.
Qed.
Print Assumptions C60_modes.

(** C60: the same for the variant of frob_J that computes in ZZ_p, as long as its
    factor is complete (C28) *)
Theorem C60_ZZ_p : forall slv p k prec f D,
  let q := p ^ k in
  init slv q p prec f = OK D -> wf_poly (r_n D) (r_d D) f -> solver_ok q slv -> prime p -> 1 <= k -> (1 <= r_n D)%nat ->
  forall reqs T reqs' T', foldM (fun T power => compute_fpow q f power T) reqs (fpow_init q (r_n D)) = OK T ->
  foldM (fun T power => compute_fpow q f power T) reqs' (fpow_init q (r_n D)) = OK T' ->
  forall i N loop loop', (i < length (r_basis D))%nat -> 1 <= N -> (loop <= 2)%nat -> (loop' <= 2)%nat ->
  let m := pole_of (r_n D) (r_d D) (nth i (r_basis D) []) in
  J_fits (Z.of_nat (r_n D)) p m N ->
  (forall j, 0 <= j < N -> Z.abs (D_coef m N j) < 2 ^ 63) -> Z.of_nat (r_n D) < p \/ m = 1 ->
  frob_J_ZZ_p slv D T i N loop = frob_J_ZZ slv D T' i N loop'.
Proof.
  intros slv p k prec f D q H W Hs Pp Hk Hn reqs T reqs' T' HT HT' i N loop loop' Hi HN Hl Hl' m (C1 & C2 & C3) C4 C5.
  pose proof (prime_pow_2 p k Pp Hk) as Q2. fold q in Q2. pose proof (prime_ge_2 p Pp) as P2.
  destruct (C28_factor slv q p prec f D H W Hs P2 Q2 Hn reqs T HT i N loop Hi HN Hl C1 C4) as (F & fact & E1 & L1 & R1 & _ & X1 & V1).
  destruct (C26_frobenius_series slv q p prec f D H W Hs P2 Q2 Hn reqs' T' HT' i N loop' Hi HN Hl' C1 C2 C3) as (F' & fact' & E2 & L2 & R2 & X2 & V2).
  assert (V : vcong q F F').
  { apply (C55_coordinates_unique slv p k prec f D H W Hs Pp Hk Hn); auto.
    intros phi psi G B. exact (cong_trans _ _ _ _ (V1 phi psi G B) (cong_sym _ _ _ (V2 phi psi G B))). }
  assert (fact' = fact) as ->.
  { assert (X : cong q fact' fact) by (eapply cong_trans; [exact X2|apply cong_sym, X1; exact C5]). apply cong_iff_mod in X; [|lia]. now rewrite !Z.mod_small in X by lia. }
  destruct (init_inv _ _ _ _ _ _ H W) as (inv & Eq & _).
  unfold frob_J_ZZ, frob_J_ZZ_p. destruct (get_at (r_basis D) (Z.of_nat i)) as [ei|]; cbn [bind]; [|reflexivity].
  rewrite E1, E2. cbn [bind fst snd]. rewrite Eq. now apply frob_finish_cong.
Qed.
Print Assumptions C60_ZZ_p.

(** C60: the two methods return the same coordinates of the image of a basis
    element, or fail with the same error *)
Theorem C60_methods : forall slv p k prec f N,
  let q := p ^ k in
  init_ND slv q p prec f = OK N -> wf_poly (r_n (nd_dr N)) (r_d (nd_dr N)) f -> solver_ok q slv -> prime p -> 1 <= k ->
  (1 <= r_n (nd_dr N))%nat ->
  forall reqs T reqs' T', foldM (fun T power => compute_fpow q f power T) reqs (fpow_init q (r_n (nd_dr N))) = OK T ->
  foldM (fun T power => compute_fpow q f power T) reqs' (fpow_init q (r_n (nd_dr N))) = OK T' ->
  forall kd i P loop, (i < length (r_basis (nd_dr N)))%nat -> 1 <= P -> (loop <= 2)%nat ->
  let b := nth i (r_basis (nd_dr N)) [] in
  let m := pole_of (r_n (nd_dr N)) (r_d (nd_dr N)) b in
  J_fits (Z.of_nat (r_n (nd_dr N))) p m P -> kind_fine slv N b m P kd -> coef_fits kd m P ->
  frob_ND_kind slv N kd T i P = frob_J_ZZ slv (nd_dr N) T' i P loop.
Proof.
  intros slv p k prec f N q H W Hs Pp Hk Hn reqs T reqs' T' HT HT' kd i P loop Hi HP Hl b m (C1 & C2 & C3) K1 K2.
  pose proof (prime_pow_2 p k Pp Hk) as Q2. fold q in Q2. pose proof (prime_ge_2 p Pp) as P2. pose proof (init_ND_dr _ _ _ _ _ _ H) as HD.
  destruct (C26_frobenius_series slv q p prec f (nd_dr N) HD W Hs P2 Q2 Hn reqs' T' HT' i P loop Hi HP Hl C1 C2 C3) as (F' & fact & E1 & L1 & R1 & X1 & V1).
  destruct (C38_frobenius_series slv q p prec f N H W Hs P2 Q2 Hn reqs T HT kd i P Hi HP K1 K2) as (F & fact' & E2 & L2 & R2 & X2 & V2).
  assert (V : vcong q F F').
  { apply (C55_coordinates_unique slv p k prec f (nd_dr N) HD W Hs Pp Hk Hn); auto.
    intros phi psi G B. exact (cong_trans _ _ _ _ (V2 phi psi G B) (cong_sym _ _ _ (V1 phi psi G B))). }
  destruct (init_inv _ _ _ _ _ _ HD W) as (inv & Eq & _). pose proof (init_p _ _ _ _ _ _ HD) as Ep.
  destruct (coord_ok slv (nd_dr N) inv) with (i := i) as (b' & B1 & <- & B3 & _ & B5); auto; try (rewrite Eq; auto; fail).
  unfold frob_J_ZZ, frob_ND_kind. rewrite B1. cbn [bind]. rewrite E1, E2. cbn [bind fst snd]. rewrite Eq, Ep. fold b. fold b in B5. fold b m in B3. rewrite B5. fold m.
  rewrite (finish_fact kd q p _ (p * (m + P - 1)) F fact); auto; [now apply frob_finish_cong|nia].
Qed.
Print Assumptions C60_methods.

(** C60: the two methods compute the same matrix, or fail with the same error *)
Theorem C60_matrices : forall slv p k prec f o,
  let q := p ^ k in
  init_ND slv q p prec f = OK o -> wf_poly (r_n (nd_dr o)) (r_d (nd_dr o)) f -> solver_ok q slv -> prime p -> 1 <= k ->
  (1 <= r_n (nd_dr o))%nat ->
  forall reqs T reqs' T', foldM (fun T power => compute_fpow q f power T) reqs (fpow_init q (r_n (nd_dr o))) = OK T ->
  foldM (fun T power => compute_fpow q f power T) reqs' (fpow_init q (r_n (nd_dr o))) = OK T' ->
  forall N, (forall b, In b (r_basis (nd_dr o)) ->
    let m := pole_of (r_n (nd_dr o)) (r_d (nd_dr o)) b in
    let P := nth (Z.to_nat (m - 1)) N 0 in
    1 <= P -> J_fits (Z.of_nat (r_n (nd_dr o))) p m P /\ flint_fine slv o b m P /\ coef_fits KFlint m P) ->
  frob_matrix_ND slv o T N = frob_matrix_J slv (nd_dr o) T' N.
Proof.
  intros slv p k prec f o q H W Hs Pp Hk Hn reqs T reqs' T' HT HT' N HB. pose proof (init_ND_dr _ _ _ _ _ _ H) as HD.
  pose proof (prime_pow_2 p k Pp Hk) as Q2. fold q in Q2.
  unfold frob_matrix_ND, frob_matrix_J. cbv zeta. destruct (Nat.eqb_spec (length N) (r_n (nd_dr o))) as [LN|LN]; cbn [check bind]; [|reflexivity].
  rewrite (mapM_ext' (frob_row_ND slv o T N) (frob_row slv (nd_dr o) T' N)); [reflexivity|]. intros i Hi. apply in_seq in Hi.
  destruct (init_inv _ _ _ _ _ _ HD W) as (inv & Eq & _).
  destruct (coord_ok slv (nd_dr o) inv) with (i := i) as (b' & B1 & <- & B3 & _ & B5); auto; try lia; try (rewrite Eq; auto; fail).
  unfold frob_row_ND, frob_row. cbv zeta. rewrite B5. rewrite get_at_nth by lia. cbn [bind]. set (P := nth _ N 0).
  destruct (Z.ltb_spec 0 P) as [HP|HP]; [|reflexivity]. unfold frob_ND, frob_J.
  destruct (HB (nth i (r_basis (nd_dr o)) [])) as (X1 & X2 & X3); [apply nth_In; lia|fold P; lia|]. fold P in X1, X2, X3.
  apply (C60_methods slv p k prec f o H W Hs Pp Hk Hn reqs T reqs' T' HT HT' KFlint i P 0%nat); auto; lia.
Qed.
Print Assumptions C60_matrices.

(** C60: zeta_function gets the same matrix from the method for non-degenerate
    polynomials as it would get from the other one *)
Theorem C60_zeta_matrix : forall lu inv n d g p prec0 N0 cprec prec N,
  prime p -> 3 <= p -> 1 <= prec -> ech_spec p lu -> inv_spec p inv -> g <> [] -> wf_poly n d g ->
  default_args p (Z.of_nat n) d = OK (prec0, N0, cprec) -> length N = n -> (forall x, In x N -> x <= 28) ->
  non_degenerate p n d g ->
  let q := p ^ prec in
  let slv := padic_solver lu inv p q prec in
  words_fine slv q p prec n d g N ->
  frob_of slv q p prec n g true N cprec = frob_of slv q p prec n g false N cprec.
Proof.
  intros lu inv n d g p prec0 N0 cprec prec N Pp p3 Hprec HL HI Hg W HA LN BN ND q slv WF.
  destruct (default_dims _ _ _ _ HA) as (D1 & D2 & D3 & D4). destruct (init_tuples_total n d D4) as (tl & Htl).
  pose proof (padic_solver_ok p prec lu inv Pp Hprec HL HI) as Hs. fold q slv in Hs.
  destruct (init_ND_succeeds p prec lu inv n d g tl Pp Hprec HL HI Hg W D2 ltac:(lia) Htl ND) as (o & Ho & En & Ed & _). fold q slv in Ho.
  pose proof (init_ND_dr _ _ _ _ _ _ Ho) as HD. assert (W' : wf_poly (r_n (nd_dr o)) (r_d (nd_dr o)) g) by (rewrite En, Ed; exact W).
  unfold frob_of. rewrite Ho, HD. cbn [bind]. destruct (zlen _ + 1 =? zlen cprec); cbn [check bind]; [|reflexivity].
  apply (C60_matrices slv p prec prec g o Ho W' Hs Pp Hprec ltac:(rewrite En; lia) [] _ [] _); try (rewrite En; reflexivity).
  intros b Hb. cbv zeta. rewrite En, Ed. set (m := pole_of n d b). set (P := nth (Z.to_nat (m - 1)) N 0). intros HP.
  destruct (In_nth _ _ [] Hb) as (i & Hi & Eb).
  destruct (init_inv _ _ _ _ _ _ HD W') as (inv' & Eq & _).
  destruct (coord_ok slv (nd_dr o) inv') with (i := i) as (b' & B1 & B2 & B3 & _ & B5); auto; try (rewrite ?Eq, ?En; auto; lia).
  rewrite Eb in B2. subst b'. rewrite En, Ed in B3. fold m in B3.
  assert (BP : P <= 28) by (apply BN, nth_In; lia).
  split; [|split].
  - split; [|split].
    + assert (Z.of_nat n / p <= 1) by (apply Z.div_le_upper_bound; lia). lia.
    + intros k j H1 H2. eapply Z.le_lt_trans; [apply choose_le_pow2|]. apply Z.pow_lt_mono_r; lia.
    + intros k j H1 H2 _. apply (fits_small m P); lia.
  - exact (WF o Ho b Hb).
  - cbn [coef_fits]. apply (fits_small m P); lia.
Qed.
Print Assumptions C60_zeta_matrix.

(** C60: the columns of the matrix are determined by the classes they represent, up
    to the power of p in the factorial that exceeds p^(n-1) *)
Theorem C60_column_unique : forall slv p k prec f D N b R R',
  let q := p ^ k in
  init slv q p prec f = OK D -> wf_poly (r_n D) (r_d D) f -> solver_ok q slv -> prime p -> 1 <= k -> (1 <= r_n D)%nat ->
  column q p (r_n D) (r_d D) f (r_basis D) N b R -> column q p (r_n D) (r_d D) f (r_basis D) N b R' ->
  let m := pole_of (r_n D) (r_d D) b in
  let P := nth (Z.to_nat (m - 1)) N 0 in
  length R = length R' /\
  (P <= 0 -> R = R') /\
  forall v u, 0 < P -> 0 <= v -> zfact (p * (m + P - 1) - 1) = p ^ v * u -> ~ (p | u) -> forall j, (j < length R)%nat ->
    cong q (p ^ Z.max 0 (v - (Z.of_nat (r_n D) - 1)) * nth j R 0) (p ^ Z.max 0 (v - (Z.of_nat (r_n D) - 1)) * nth j R' 0).
Proof.
  intros slv p k prec f D N b R R' q H W Hs Pp Hk Hn C C' m P. unfold column in C, C'. fold m in C, C'. fold P in C, C'.
  pose proof (prime_pow_2 p k Pp Hk) as Q2. fold q in Q2. pose proof (prime_ge_2 p Pp) as P2.
  destruct (Z.leb_spec P 0) as [HP|HP].
  { subst R R'. split; [reflexivity|]. split; [reflexivity|]. intros; lia. }
  destruct C as (F & v1 & u1 & (L1 & X1 & V1 & E1 & U1) & LR & C). destruct C' as (F' & v2 & u2 & (L2 & X2 & V2 & E2 & U2) & LR' & C'). fold m in X1, X2, E1, E2.
  split; [congruence|]. split; [lia|]. intros v u _ Hv E U j Hj. rewrite LR in Hj.
  rewrite E in E1, E2. destruct (val_unique p v u v1 u1 P2 Hv V1 E1 U U1) as [<- <-]. destruct (val_unique p v u v2 u2 P2 Hv V2 E2 U U2) as [<- <-].
  assert (V : vcong q F F').
  { apply (C55_coordinates_unique slv p k prec f D H W Hs Pp Hk Hn); auto.
    intros phi psi G B. exact (cong_trans _ _ _ _ (X1 phi psi G B) (cong_sym _ _ _ (X2 phi psi G B))). }
  destruct V as (_ & V). specialize (V j ltac:(lia)). specialize (C j Hj). specialize (C' j Hj).
  assert (Hru : rel_prime q u). { apply rel_prime_sym. unfold q. rewrite <- (Z2Nat.id k) by lia. now apply rel_prime_pow. }
  assert (CC : forall a a', cong q (u * a) (u * a') -> cong q a a').
  { intros a a' X. unfold cong in *. rewrite <- Z.mul_sub_distr_l in X. apply (Gauss q u); auto. }
  apply CC. destruct (Z.leb_spec v (Z.of_nat (r_n D) - 1)) as [Y|Y].
  - rewrite Z.max_l by lia. rewrite Z.pow_0_r, !Z.mul_1_l. eapply cong_trans; [exact C|]. eapply cong_trans; [|apply cong_sym, C'].
    apply cong_mul; [reflexivity|exact V].
  - rewrite Z.max_r by lia. eapply cong_trans; [exact C|]. eapply cong_trans; [exact V|]. apply cong_sym, C'.
Qed.
Print Assumptions C60_column_unique.

(** ** examples: x^3 + x y^2 + y^3 modulo 8, where p <= n + 1, and the elliptic curve
    of C55 modulo 25 *)
Definition ex2_slv : solver := padic_solver lu_inst inv_fast 2 8 3.
Definition ex2_f : poly := [([0; 3], 1); ([1; 2], 1); ([3; 0], 1)].
Definition ex2_o : dND :=
  match init_ND ex2_slv 8 2 3 ex2_f with OK N => N | Err _ => mk_dND (mk_dR 0 0 0 0 0 [] [] [] [] []) [] [] end.
Lemma ex2_init : init_ND ex2_slv (2 ^ 3) 2 3 ex2_f = OK ex2_o.
Proof. vm_compute. reflexivity. Qed.
Lemma ex2_dims : r_n (nd_dr ex2_o) = 1%nat /\ r_d (nd_dr ex2_o) = 3 /\ r_p (nd_dr ex2_o) = 2 /\ r_q (nd_dr ex2_o) = 8 /\ r_basis (nd_dr ex2_o) = [[0; 1]; [1; 0]].
Proof. vm_compute. repeat split. Qed.
(** the hypotheses of [C60_matrices] and the two matrices *)
Example C60_ex_hyps : init_ND ex2_slv (2 ^ 3) 2 3 ex2_f = OK ex2_o /\ wf_poly (r_n (nd_dr ex2_o)) (r_d (nd_dr ex2_o)) ex2_f /\ solver_ok (2 ^ 3) ex2_slv /\ prime 2 /\
  (1 <= r_n (nd_dr ex2_o))%nat /\
  forall b, In b (r_basis (nd_dr ex2_o)) ->
    let m := pole_of (r_n (nd_dr ex2_o)) (r_d (nd_dr ex2_o)) b in
    let P := nth (Z.to_nat (m - 1)) [2] 0 in
    1 <= P -> J_fits (Z.of_nat (r_n (nd_dr ex2_o))) 2 m P /\ flint_fine ex2_slv ex2_o b m P /\ coef_fits KFlint m P.
Proof.
  destruct ex2_dims as (En & Ed & Ep & Eq & Eb). split; [exact ex2_init|]. rewrite En, Ed, Eb.
  split; [|split; [exact (proj1 (C18_de_Rham_solver 2 3 lu_inst inv_fast prime_2 ltac:(lia) (lu_inst_spec 2 prime_2) (inv_fast_ok 2 prime_2)))|split; [exact prime_2|split; [lia|]]]].
  - split.
    + unfold vsorted, ex2_f. repeat (apply ms_cons; [reflexivity| |]); try apply ms_nil;
        intros k v H; cbn [In] in H; repeat destruct H as [H|H]; try contradiction; injection H as <- <-; reflexivity.
    + intros a c H. cbn in H. repeat destruct H as [H|H]; try contradiction; injection H as <- <-; repeat split; repeat constructor; lia.
  - intros b Hb. assert (E : pole_of 1 3 b = 1) by (destruct Hb as [<-|[<-|[]]]; reflexivity). rewrite E. cbn [nth Z.sub Z.to_nat Z.add Z.opp Z.pos_sub]. intros _.
    split; [|split].
    + split; [cbn; lia|]. split.
      * intros k j H1 H2. eapply Z.le_lt_trans; [apply choose_le_pow2|]. apply Z.pow_lt_mono_r; lia.
      * intros k j H1 H2 _. apply (fits_small 1 2); lia.
    + right. left. rewrite En, Ep, Eq. cbn. lia.
    + cbn [coef_fits]. apply (fits_small 1 2); lia.
Qed.
Example C60_ex : frob_matrix_ND ex2_slv ex2_o (fpow_init 8 1) [2] = OK [[0; 1]; [3; 3]] /\
  frob_matrix_J ex2_slv (nd_dr ex2_o) (fpow_init 8 1) [2] = OK [[0; 1]; [3; 3]] /\
  frob_matrix_ND ex5_slv ex5_N (fpow_init 25 2) [1; 2] = OK [[15; 4]; [5; 0]] /\
  frob_matrix_J ex5_slv (nd_dr ex5_N) (fpow_init 25 2) [1; 2] = OK [[15; 4]; [5; 0]].
Proof. vm_compute. repeat split. Qed.
