(** Property C66: raising the working precision only adds p-adic digits. *)
From Coq Require Import ZArith List Bool Lia Znumtheory.
From Verif Require Import Base VecModel VecSpec VecProofs ToolsModel ToolsSpec ToolsProofs PolyProofs MatModel MatProofs DRModel DRSpec DRProofs DRRed NDRed DRFinal
  FrobModel FrobSpec FrobSum FrobProofs FrobTop FrobProps NDModel NDSpec NDBasis FrobNDModel FrobND FrobNDTop FrobNDProps LinAlg SolveModel SolveSpec SolveProofs SolveProps SmoothProofs
  LuInst LuFast ChangeSpec ChangeProofs HilbCode HilbProps RunProofs CtorProofs UniqCode UniqProps AgreeProps DigSpec DigProofs.
Import ListNotations.
Open Scope Z_scope.

(** C66: the basis depends on f modulo p only, not on the precision *)
Theorem C66_basis : forall lu inv p k k' prec prec' f f' D D', prime p -> 1 <= k -> 1 <= k' -> congruent p f f' ->
  init (padic_solver lu inv p (p ^ k) k) (p ^ k) p prec f = OK D ->
  init (padic_solver lu inv p (p ^ k') k') (p ^ k') p prec' f' = OK D' -> wf_poly (r_n D) (r_d D) f ->
  r_n D' = r_n D /\ r_d D' = r_d D /\ r_basis D' = r_basis D.
Proof.
  intros lu inv p k k' prec prec' f f' D D' Pp Hk Hk' C H H' W. pose proof (prime_ge_2 p Pp) as P2.
  refine (basis_rows p _ _ prec prec' _ _ f f' D D' P2 _ _ (rows_agree_padic lu inv p _ _ k k') C H H' W).
  - rewrite <- (Z.pow_1_r p) at 1. apply pow_divide_pow; lia.
  - rewrite <- (Z.pow_1_r p) at 1. apply pow_divide_pow; lia.
Qed.
Print Assumptions C66_basis.

(** C66: the vectors before the final division are congruent *)
Theorem C66_sums : forall lu inv p k k' prec prec' f f' D D', prime p -> 1 <= k <= k' -> ech_spec p lu -> inv_spec p inv ->
  let q := p ^ k in let q' := p ^ k' in
  let slv := padic_solver lu inv p q k in let slv' := padic_solver lu inv p q' k' in
  congruent q f f' ->
  init slv q p prec f = OK D -> init slv' q' p prec' f' = OK D' -> wf_poly (r_n D) (r_d D) f -> (1 <= r_n D)%nat ->
  forall reqs T reqs' T', foldM (fun T power => compute_fpow q f power T) reqs (fpow_init q (r_n D)) = OK T ->
  foldM (fun T power => compute_fpow q' f' power T) reqs' (fpow_init q' (r_n D)) = OK T' ->
  forall i N loop loop', (i < length (r_basis D))%nat -> 1 <= N -> (loop <= 2)%nat -> (loop' <= 2)%nat ->
  J_fits (Z.of_nat (r_n D)) p (pole_of (r_n D) (r_d D) (nth i (r_basis D) [])) N ->
  exists F fact F' fact', frob_sum_ZZ slv D T i N loop = OK (F, fact) /\ frob_sum_ZZ slv' D' T' i N loop' = OK (F', fact') /\ vcong q F F' /\ cong q fact fact'.
Proof.
  intros lu inv p k k' prec prec' f f' D D' Pp Hk HL HI q q' slv slv' C H H' W Hn reqs T reqs' T' HT HT' i N loop loop' Hi HN Hl Hl' (J1 & J2 & J3).
  destruct (C18_de_Rham_solver p k lu inv Pp ltac:(lia) HL HI) as (Hs & _). destruct (C18_de_Rham_solver p k' lu inv Pp ltac:(lia) HL HI) as (Hs' & _).
  fold q slv in Hs. fold q' slv' in Hs'. pose proof (prime_ge_2 p Pp) as P2. pose proof (prime_pow_2 p k Pp ltac:(lia)) as Q2. pose proof (prime_pow_2 p k' Pp ltac:(lia)) as Q2'.
  assert (HR : rows_agree p slv slv') by apply rows_agree_padic.
  destruct (same_basis p k k' prec prec' slv slv' f f' D D' Pp Hk HR C H H' W Hn) as (En & Ed & Eb).
  pose proof (wf' p k f f' D C W) as W'.
  destruct (C26_frobenius_series slv q p prec f D H W Hs P2 Q2 Hn reqs T HT i N loop Hi HN Hl J1 J2 J3) as (F & fact & E1 & L1 & R1 & X1 & V1).
  rewrite <- En in HT', Hn. rewrite <- En, <- Ed, <- Eb in J3. rewrite <- En, <- Ed, <- Eb in J1. rewrite <- En, <- Ed in W'. rewrite <- Eb in Hi.
  destruct (C26_frobenius_series slv' q' p prec' f' D' H' W' Hs' P2 Q2' Hn reqs' T' HT' i N loop' Hi HN Hl' J1 J2 J3) as (F' & fact' & E2 & L2 & R2 & X2 & V2).
  rewrite En, Ed, Eb in V2, X2. rewrite Eb in L2, Hi. rewrite En in Hn.
  exists F, fact, F', fact'. split; [exact E1|]. split; [exact E2|]. split.
  - destruct (init_inv _ _ _ _ _ _ H W) as (inv0 & Eq & _). destruct (coord_ok slv D inv0) with (i := i) as (b & _ & <- & _ & B4 & _); auto.
    { rewrite Eq. exact Hs. }
    exact (vectors_two p k k' prec prec' slv slv' f f' D D' Pp Hk HR C H H' W Hs Hs' Hn _ N _ F F' B4 L1 L2 V1 V2).
  - eapply cong_trans; [exact X1|]. apply cong_sym. refine (cong_dvd q q' _ _ _ X2). apply pow_divide_pow; lia.
Qed.
Print Assumptions C66_sums.

(** C66: the image of a basis element at the lower precision consists of the last
    digits of the image at the higher one; v is the power of p in the factorial by
    which the sum is divided *)
Theorem C66_digits : forall lu inv p k k' prec prec' f f' D D', prime p -> 1 <= k <= k' -> ech_spec p lu -> inv_spec p inv ->
  let q := p ^ k in let q' := p ^ k' in
  let slv := padic_solver lu inv p q k in let slv' := padic_solver lu inv p q' k' in
  congruent q f f' ->
  init slv q p prec f = OK D -> init slv' q' p prec' f' = OK D' -> wf_poly (r_n D) (r_d D) f -> (1 <= r_n D)%nat ->
  forall reqs T reqs' T', foldM (fun T power => compute_fpow q f power T) reqs (fpow_init q (r_n D)) = OK T ->
  foldM (fun T power => compute_fpow q' f' power T) reqs' (fpow_init q' (r_n D)) = OK T' ->
  forall i N loop loop', (i < length (r_basis D))%nat -> 1 <= N -> (loop <= 2)%nat -> (loop' <= 2)%nat ->
  let n := Z.of_nat (r_n D) in
  let m := pole_of (r_n D) (r_d D) (nth i (r_basis D) []) in
  J_fits n p m N ->
  forall v u, 0 <= v -> zfact (p * (m + N - 1) - 1) = p ^ v * u -> ~ (p | u) ->
  (forall R', frob_J_ZZ slv' D' T' i N loop' = OK R' -> exists R, frob_J_ZZ slv D T i N loop = OK R /\ length R = length R' /\
     forall j, (j < length R')%nat -> nth j R 0 = nth j R' 0 mod p ^ Z.max 0 (k - lost n v)) /\
  (lost n v <= k -> forall R, frob_J_ZZ slv D T i N loop = OK R -> exists R', frob_J_ZZ slv' D' T' i N loop' = OK R').
Proof.
  intros lu inv p k k' prec prec' f f' D D' Pp Hk HL HI q q' slv slv' C H H' W Hn reqs T reqs' T' HT HT' i N loop loop' Hi HN Hl Hl' n m J v u Hv Ev Hu.
  destruct (C18_de_Rham_solver p k lu inv Pp ltac:(lia) HL HI) as (Hs & _). destruct (C18_de_Rham_solver p k' lu inv Pp ltac:(lia) HL HI) as (Hs' & _).
  fold q slv in Hs. fold q' slv' in Hs'. pose proof (prime_ge_2 p Pp) as P2. pose proof (prime_pow_2 p k Pp ltac:(lia)) as Q2. pose proof (prime_pow_2 p k' Pp ltac:(lia)) as Q2'.
  destruct (C66_basis lu inv p k k' prec prec' f f' D D' Pp ltac:(lia) ltac:(lia)) as (En & Ed & Eb); auto.
  { eapply pcong_trans_dvd; [|exact C]. unfold q. rewrite <- (Z.pow_1_r p) at 1. apply pow_divide_pow; lia. }
  destruct (C66_sums lu inv p k k' prec prec' f f' D D' Pp Hk HL HI C H H' W Hn reqs T reqs' T' HT HT' i N loop loop' Hi HN Hl Hl' J) as (F & fact & F' & fact' & E1 & E2 & V & _).
  fold q slv in E1, V. fold q' slv' in E2.
  assert (W' : wf_poly (r_n D') (r_d D') f') by (rewrite En, Ed; eapply pcong_wf; [exact C|exact W]).
  pose proof (init_p _ _ _ _ _ _ H) as Ep. pose proof (init_p _ _ _ _ _ _ H') as Ep'.
  destruct (init_inv _ _ _ _ _ _ H W) as (inv1 & Eq & _). destruct (init_inv _ _ _ _ _ _ H' W') as (inv2 & Eq' & _).
  destruct (coord_ok slv D inv1) with (i := i) as (b & B1 & <- & B3 & _ & B5); auto; [rewrite Eq; exact Hs|]. fold m in B5, B3.
  destruct (coord_ok slv' D' inv2) with (i := i) as (b' & B1' & <- & B3' & _ & B5'); auto; [rewrite Eq'; exact Hs'|rewrite En; exact Hn|rewrite Eb; exact Hi|].
  rewrite En, Ed, Eb in B5'. fold m in B5'. rewrite Eb in B1'.
  assert (X : 1 <= p * (m + N - 1)) by nia. destruct J as (J1 & J2 & J3).
  destruct (C26_frobenius_series slv q p prec f D H W Hs P2 Q2 Hn reqs T HT i N loop Hi HN Hl J1 J2 J3) as (F0 & fact0 & Z1 & _ & Z2 & Z3 & _).
  rewrite E1 in Z1. injection Z1 as <- <-. fold m in Z3.
  assert (Z' : 0 <= fact' < q' /\ cong q' fact' (zfact (p * (m + N - 1) - 1))).
  { unfold n, m in J1, J3. rewrite <- En in HT', Hn. rewrite <- En, <- Ed, <- Eb in J1, J3. rewrite <- Eb in Hi.
    destruct (C26_frobenius_series slv' q' p prec' f' D' H' W' Hs' P2 Q2' Hn reqs' T' HT' i N loop' Hi HN Hl' J1 J2 J3) as (F0 & fact0 & Z1 & _ & Z4 & Z5 & _).
    rewrite E2 in Z1. injection Z1 as <- <-. rewrite En, Ed, Eb in Z5. fold m in Z5. auto. }
  destruct Z' as (Z4 & Z5).
  assert (F1 : frob_J_ZZ slv D T i N loop = frob_finish q p n (p * (m + N - 1)) F fact).
  { unfold frob_J_ZZ. rewrite B1. cbn [bind]. rewrite E1. cbn [bind fst snd]. now rewrite B5, Ep, Eq. }
  assert (F2 : frob_J_ZZ slv' D' T' i N loop' = frob_finish q' p n (p * (m + N - 1)) F' fact').
  { unfold frob_J_ZZ. rewrite Eb, B1'. cbn [bind]. rewrite E2. cbn [bind fst snd]. now rewrite B5', Ep', Eq', En. }
  rewrite F1, F2. unfold q, q'. apply (finish_two p k k' n (p * (m + N - 1)) F F' fact fact' v u); auto. unfold n. lia.
Qed.
Print Assumptions C66_digits.

(** C66: the entries of the result have no digits beyond the meaningful ones *)
Theorem C66_range : forall slv p k prec f D, prime p -> 1 <= k -> init slv (p ^ k) p prec f = OK D -> wf_poly (r_n D) (r_d D) f ->
  solver_ok (p ^ k) slv -> (1 <= r_n D)%nat ->
  forall T i N loop R, (i < length (r_basis D))%nat -> 1 <= N ->
  frob_J_ZZ slv D T i N loop = OK R ->
  let n := Z.of_nat (r_n D) in
  let m := pole_of (r_n D) (r_d D) (nth i (r_basis D) []) in
  forall v u, 0 <= v -> zfact (p * (m + N - 1) - 1) = p ^ v * u -> ~ (p | u) ->
  forall x, In x R -> 0 <= x < p ^ Z.max 0 (k - lost n v).
Proof.
  intros slv p k prec f D Pp Hk H W Hs Hn T i N loop R Hi HN E n m v u Hv Ev Hu x Hx. pose proof (prime_ge_2 p Pp) as P2.
  pose proof (init_p _ _ _ _ _ _ H) as Ep. destruct (init_inv _ _ _ _ _ _ H W) as (inv1 & Eq & _).
  destruct (coord_ok slv D inv1) with (i := i) as (b & B1 & B2 & B3 & _ & B5); auto; [rewrite Eq; exact Hs|]. subst b. fold m in B3, B5.
  unfold frob_J_ZZ in E. rewrite B1 in E. cbn [bind] in E. apply bind_ok in E. destruct E as ([F fact] & _ & E). cbn [fst snd] in E. rewrite B5, Ep, Eq in E. fold n in E.
  destruct (finish_range p k n (p * (m + N - 1)) F fact R v u Pp Hk ltac:(nia) Hv Ev Hu E) as (L & B).
  destruct (In_nth R x 0 Hx) as (j & Hj & <-). apply B. lia.
Qed.
Print Assumptions C66_range.

(** C66: the Frobenius matrix; column i is the image of basis element i *)
Theorem C66_matrix : forall lu inv p k k' prec prec' f f' D D', prime p -> 1 <= k <= k' -> ech_spec p lu -> inv_spec p inv ->
  let q := p ^ k in let q' := p ^ k' in
  let slv := padic_solver lu inv p q k in let slv' := padic_solver lu inv p q' k' in
  congruent q f f' ->
  init slv q p prec f = OK D -> init slv' q' p prec' f' = OK D' -> wf_poly (r_n D) (r_d D) f -> (1 <= r_n D)%nat ->
  forall reqs T reqs' T', foldM (fun T power => compute_fpow q f power T) reqs (fpow_init q (r_n D)) = OK T ->
  foldM (fun T power => compute_fpow q' f' power T) reqs' (fpow_init q' (r_n D)) = OK T' ->
  forall N M', let n := Z.of_nat (r_n D) in
  let pole b := pole_of (r_n D) (r_d D) b in
  let terms b := nth (Z.to_nat (pole b - 1)) N 0 in
  (forall b, In b (r_basis D) -> 1 <= terms b -> J_fits n p (pole b) (terms b)) ->
  frob_matrix_J slv' D' T' N = OK M' ->
  let h := length (r_basis D) in
  exists M, frob_matrix_J slv D T N = OK M /\ shape M h h /\ shape M' h h /\
  forall i j, (i < h)%nat -> (j < h)%nat -> let b := nth i (r_basis D) [] in
    (terms b <= 0 -> mget M j i = 0 /\ mget M' j i = 0) /\
    (1 <= terms b -> forall v u, 0 <= v -> zfact (p * (pole b + terms b - 1) - 1) = p ^ v * u -> ~ (p | u) ->
       mget M j i = mget M' j i mod p ^ Z.max 0 (k - lost n v)).
Proof.
  intros lu inv p k k' prec prec' f f' D D' Pp Hk HL HI q q' slv slv' C H H' W Hn reqs T reqs' T' HT HT' N M' n pole terms HJ HM h.
  destruct (C66_basis lu inv p k k' prec prec' f f' D D' Pp ltac:(lia) ltac:(lia)) as (En & Ed & Eb); auto.
  { eapply pcong_trans_dvd; [|exact C]. unfold q. rewrite <- (Z.pow_1_r p) at 1. apply pow_divide_pow; [now apply prime_ge_2|lia]. }
  destruct (C18_de_Rham_solver p k lu inv Pp ltac:(lia) HL HI) as (Hs & _). destruct (C18_de_Rham_solver p k' lu inv Pp ltac:(lia) HL HI) as (Hs' & _).
  fold q slv in Hs. fold q' slv' in Hs'.
  assert (W' : wf_poly (r_n D') (r_d D') f') by (rewrite En, Ed; eapply pcong_wf; [exact C|exact W]).
  destruct (init_inv _ _ _ _ _ _ H W) as (inv1 & Eq & _). destruct (init_inv _ _ _ _ _ _ H' W') as (inv2 & Eq' & _).
  unfold frob_matrix_J in *. rewrite En, Eb in HM. fold h in HM |- *. destruct (Nat.eqb_spec (length N) (r_n D)) as [LN|LN]; cbn [check bind] in *; [|discriminate].
  apply bind_ok in HM. destruct HM as (rows' & HM & HM'). injection HM' as <-.
  assert (RW : forall i r', (i < h)%nat -> frob_row slv' D' T' N i = OK r' -> exists r, frob_row slv D T N i = OK r /\ length r = h /\ length r' = h /\
    let b := nth i (r_basis D) [] in
    forall j, (j < h)%nat -> (terms b <= 0 -> nth j r 0 = 0 /\ nth j r' 0 = 0) /\
      (1 <= terms b -> forall v u, 0 <= v -> zfact (p * (pole b + terms b - 1) - 1) = p ^ v * u -> ~ (p | u) ->
       nth j r 0 = nth j r' 0 mod p ^ Z.max 0 (k - lost n v))).
  { intros i r' Hi. destruct (coord_ok slv D inv1) with (i := i) as (b & B1 & B2 & B3 & _ & B5); auto; [rewrite Eq; exact Hs|].
    destruct (coord_ok slv' D' inv2) with (i := i) as (b' & B1' & B2' & B3' & _ & B5'); auto; [rewrite Eq'; exact Hs'|rewrite En; exact Hn|rewrite Eb; exact Hi|].
    rewrite Eb in B2'. assert (Ebb : b' = b) by (rewrite <- B2; symmetry; exact B2'). rewrite Ebb in B1', B5', B3'. clear Ebb B2'. rewrite En, Ed in B5', B3'. rewrite B2. cbv zeta.
    unfold frob_row. rewrite Eb, B2, B5, B5'. fold (pole b) in B3 |- *. rewrite get_at_nth by (unfold zlen; lia). cbn [bind]. fold (terms b).
    destruct (Z.ltb_spec 0 (terms b)) as [Ht|Ht].
    - unfold frob_J. intros E.
      assert (VE : exists v u, 0 <= v /\ zfact (p * (pole b + terms b - 1) - 1) = p ^ v * u /\ ~ (p | u)).
      { pose proof (prime_ge_2 p Pp). destruct (vof_exact p (p * (pole b + terms b - 1) - 1) Pp ltac:(nia)) as (v2 & V2 & V3 & [u2 V4] & V5). exists v2, u2. split; auto. split; [rewrite V4; ring|].
        intros [w Hw]. apply V5. exists w. rewrite Z.pow_add_r, Z.pow_1_r by lia. rewrite V4, Hw. ring. }
      destruct VE as (v0 & u0 & V1 & V2 & V3).
      assert (HJ' : J_fits n p (pole b) (terms b)) by (apply HJ; [subst b; apply nth_In; exact Hi|lia]).
      assert (DG := C66_digits lu inv p k k' prec prec' f f' D D' Pp Hk HL HI C H H' W Hn reqs T reqs' T' HT HT' i (terms b) 0%nat 0%nat Hi ltac:(lia) ltac:(lia) ltac:(lia)).
      rewrite B2 in DG. fold (pole b) n q q' in DG. fold slv slv' in DG. specialize (DG HJ').
      destruct (proj1 (DG v0 u0 V1 V2 V3) r' E) as (R & R1 & R2 & _). exists R. split; auto.
      assert (LR : length r' = h).
      { destruct (C66_sums lu inv p k k' prec prec' f f' D D' Pp Hk HL HI C H H' W Hn reqs T reqs' T' HT HT' i (terms b) 0%nat 0%nat Hi ltac:(lia) ltac:(lia) ltac:(lia)) as (F & fact & F' & fact' & E1 & E2 & V & _).
        { rewrite B2. exact HJ'. }
        fold q' in E2. fold slv' in E2. unfold frob_J_ZZ in E. rewrite B1' in E. cbn [bind] in E. rewrite E2 in E. cbn [bind fst snd] in E. pose proof (init_p _ _ _ _ _ _ H') as Ep'.
        rewrite B5', Ep', Eq', En in E. pose proof (prime_ge_2 p Pp).
        destruct (finish_range p k' _ (p * (pole b + terms b - 1)) F' fact' r' v0 u0 Pp ltac:(lia) ltac:(nia) V1 V2 V3 E) as (L & _). rewrite L. destruct V as (L2 & _). rewrite <- L2.
        destruct (C26_frobenius_series slv q p prec f D H W Hs (prime_ge_2 p Pp) (prime_pow_2 p k Pp ltac:(lia)) Hn reqs T HT i (terms b) 0%nat Hi ltac:(lia) ltac:(lia)) as (F0 & fact0 & Z1 & Z2 & _); try (rewrite B2; apply HJ').
        { apply HJ'. }
        fold q in E1. fold slv in E1. rewrite E1 in Z1. injection Z1 as <- <-. exact Z2. }
      split; [congruence|]. split; auto. intros j Hj. split; [lia|]. intros _ v u Hv Ev Hu.
      destruct (proj1 (DG v u Hv Ev Hu) r' E) as (R0 & S1 & _ & S3). assert (R0 = R) by congruence. subst R0. apply S3. lia.
    - intros E. injection E as <-. eexists. split; [reflexivity|]. rewrite !repeat_length. split; auto. split; auto. intros j Hj. rewrite !nth_repeat. split; [auto|lia]. }
  assert (ALL : forall is rs', (forall i, In i is -> (i < h)%nat) -> mapM (frob_row slv' D' T' N) is = OK rs' -> exists rs, mapM (frob_row slv D T N) is = OK rs /\ length rs = length is /\ length rs' = length is /\
    forall a, (a < length is)%nat -> frob_row slv' D' T' N (nth a is O) = OK (nth a rs' []) /\ frob_row slv D T N (nth a is O) = OK (nth a rs [])).
  { induction is as [|i is IH]; intros rs' Hin E; cbn [mapM] in *.
    - injection E as <-. exists []. split; auto. split; auto. split; auto. cbn. intros; lia.
    - apply bind_ok in E. destruct E as (r' & E1 & E). apply bind_ok in E. destruct E as (rs0 & E2 & E). injection E as <-.
      destruct (RW i r') as (r & Y1 & _); [apply Hin; now left|exact E1|]. destruct (IH rs0) as (rs & Y2 & Y3 & Y4 & Y5); [intros; apply Hin; now right|exact E2|].
      exists (r :: rs). rewrite Y1. cbn [bind]. rewrite Y2. cbn [bind length]. split; auto. split; [congruence|]. split; [congruence|].
      intros [|a] Ha; cbn [nth]; auto. apply Y5. lia. }
  destruct (ALL (seq 0 h) rows') as (rows & Y1 & Y2 & Y3 & Y4); [intros i Hi; apply in_seq in Hi; lia|exact HM|]. rewrite Y1. cbn [bind].
  exists (transpose h h rows). split; auto. split; [apply transpose_shape|]. split; [apply transpose_shape|]. intros i j Hi Hj. rewrite !transpose_get by auto. unfold mget.
  specialize (Y4 i ltac:(rewrite seq_length; exact Hi)). rewrite seq_nth in Y4 by auto. cbn [Nat.add] in Y4. destruct Y4 as (Z1 & Z2).
  destruct (RW i _ Hi Z1) as (r & S1 & _ & _ & S3). rewrite Z2 in S1. injection S1 as <-. apply S3. exact Hj.
Qed.
Print Assumptions C66_matrix.

(** C66: the same for the method for non-degenerate polynomials *)
Theorem C66_matrix_ND : forall lu inv p k k' prec prec' f f' o o', prime p -> 1 <= k <= k' -> ech_spec p lu -> inv_spec p inv ->
  let q := p ^ k in let q' := p ^ k' in
  let slv := padic_solver lu inv p q k in let slv' := padic_solver lu inv p q' k' in
  congruent q f f' ->
  init_ND slv q p prec f = OK o -> init_ND slv' q' p prec' f' = OK o' ->
  let D := nd_dr o in
  wf_poly (r_n D) (r_d D) f -> (1 <= r_n D)%nat ->
  forall reqs T reqs' T', foldM (fun T power => compute_fpow q f power T) reqs (fpow_init q (r_n D)) = OK T ->
  foldM (fun T power => compute_fpow q' f' power T) reqs' (fpow_init q' (r_n D)) = OK T' ->
  forall N M', let n := Z.of_nat (r_n D) in
  let pole b := pole_of (r_n D) (r_d D) b in
  let terms b := nth (Z.to_nat (pole b - 1)) N 0 in
  (forall b, In b (r_basis D) -> 1 <= terms b -> J_fits n p (pole b) (terms b) /\ coef_fits KFlint (pole b) (terms b) /\
     flint_fine slv o b (pole b) (terms b) /\ flint_fine slv' o' b (pole b) (terms b)) ->
  frob_matrix_ND slv' o' T' N = OK M' ->
  let h := length (r_basis D) in
  exists M, frob_matrix_ND slv o T N = OK M /\ shape M h h /\ shape M' h h /\
  forall i j, (i < h)%nat -> (j < h)%nat -> let b := nth i (r_basis D) [] in
    (terms b <= 0 -> mget M j i = 0 /\ mget M' j i = 0) /\
    (1 <= terms b -> forall v u, 0 <= v -> zfact (p * (pole b + terms b - 1) - 1) = p ^ v * u -> ~ (p | u) ->
       mget M j i = mget M' j i mod p ^ Z.max 0 (k - lost n v)).
Proof.
  intros lu inv p k k' prec prec' f f' o o' Pp Hk HL HI q q' slv slv' C H H' D W Hn reqs T reqs' T' HT HT' N M' n pole terms HJ HM h.
  pose proof (init_ND_dr _ _ _ _ _ _ H) as HD. pose proof (init_ND_dr _ _ _ _ _ _ H') as HD'. fold D in HD.
  destruct (C18_de_Rham_solver p k lu inv Pp ltac:(lia) HL HI) as (Hs & _). destruct (C18_de_Rham_solver p k' lu inv Pp ltac:(lia) HL HI) as (Hs' & _).
  fold q in Hs. fold q' in Hs'. fold slv in Hs. fold slv' in Hs'.
  destruct (C66_basis lu inv p k k' prec prec' f f' D (nd_dr o') Pp ltac:(lia) ltac:(lia)) as (En & Ed & Eb); auto.
  { eapply pcong_trans_dvd; [|exact C]. unfold q. rewrite <- (Z.pow_1_r p) at 1. apply pow_divide_pow; [now apply prime_ge_2|lia]. }
  assert (W' : wf_poly (r_n (nd_dr o')) (r_d (nd_dr o')) f') by (rewrite En, Ed; eapply pcong_wf; [exact C|exact W]).
  rewrite (C60_matrices slv p k prec f o H W Hs Pp ltac:(lia) Hn reqs T reqs T HT HT N).
  2:{ intros b Hb m P HP. fold D. destruct (HJ b Hb HP) as (X1 & X2 & X3 & _). auto. }
  rewrite (C60_matrices slv' p k' prec' f' o' H' W' Hs' Pp ltac:(lia) ltac:(rewrite En; exact Hn) reqs' T' reqs' T' ltac:(rewrite En; exact HT') ltac:(rewrite En; exact HT') N) in HM.
  2:{ rewrite En, Ed, Eb. intros b Hb m P HP. destruct (HJ b Hb HP) as (X1 & X2 & _ & X3). auto. }
  apply (C66_matrix lu inv p k k' prec prec' f f' D (nd_dr o') Pp Hk HL HI C HD HD' W Hn reqs T reqs' T' HT HT' N M'); auto.
  intros b Hb Hb'. apply (HJ b Hb Hb').
Qed.
Print Assumptions C66_matrix_ND.

(** ** the expected matrix of hypersurface/test/test_K3p3.cc 53-73 (its column i is
    the image of basis element i), p = 3, precision 16, n = 3, N = (7, 7, 8): the
    divisions cost 6, 7 and 11 digits, so the columns are reduced modulo 3^10, 3^9
    and 3^5.  By C66_range a table with an entry outside these ranges could not be
    matched; the examples check that the entries of this table lie inside.  They do
    not run the test, and the pole orders (1 for element 0, 3 for element 20, 2
    for the others) are put in by hand. *)
Definition K3p3_table : mat := [
  [10215; 6624; 7554; 17295; 7875; 1593; 12858; 15978; 2622; 5871; 13809; 3984; 9399; 10227; 11580; 9282; 12636; 11850; 6147; 11967; 44];
  [58095; 6957; 18228; 12594; 9645; 12654; 3384; 12999; 6537; 14559; 3024; 16077; 5619; 16572; 8292; 17121; 12768; 12564; 5829; 19641; 185];
  [15552; 7215; 17370; 6423; 17787; 18504; 5037; 6195; 19650; 11571; 17901; 15345; 8697; 5400; 12201; 2877; 14061; 18036; 16749; 17844; 35];
  [54414; 13917; 17208; 18579; 7869; 6405; 5412; 13218; 3726; 6840; 8313; 7386; 6459; 3813; 17388; 6981; 10683; 13032; 17214; 5355; 214];
  [41787; 3303; 78; 13122; 624; 12747; 17568; 1281; 8916; 8310; 2757; 8358; 17742; 14706; 9279; 2949; 8235; 13311; 5934; 14256; 239];
  [24444; 3570; 2655; 2367; 4992; 16287; 8616; 7407; 14859; 5715; 4281; 3978; 7233; 6570; 6540; 16824; 13932; 1563; 13659; 2946; 45];
  [49302; 10542; 14751; 1347; 12015; 6771; 17400; 18261; 16146; 19581; 2859; 18339; 18177; 11601; 3927; 13242; 12051; 4239; 8385; 18414; 234];
  [9648; 11049; 2571; 8361; 3495; 14376; 8046; 810; 8358; 8280; 6987; 7023; 14277; 2523; 15213; 12963; 9741; 4881; 11517; 8559; 155];
  [28089; 15495; 4641; 12603; 15195; 825; 13152; 16491; 9990; 3054; 804; 9669; 7107; 6021; 16329; 18546; 441; 5133; 7608; 11220; 162];
  [7893; 6495; 16809; 8700; 14274; 16692; 1986; 10428; 13644; 12627; 12009; 2109; 12477; 12786; 774; 630; 5214; 5580; 13773; 234; 172];
  [9567; 6621; 4437; 15072; 17280; 18117; 18693; 7677; 7872; 4404; 3516; 6450; 18492; 13296; 16590; 303; 7680; 7146; 18465; 3972; 73];
  [17802; 10017; 12378; 11583; 15456; 2391; 17976; 18708; 3093; 1155; 9654; 840; 18633; 651; 5427; 8883; 15255; 19146; 13788; 18360; 95];
  [43344; 14373; 2241; 2088; 10842; 17094; 2994; 7509; 3672; 9825; 1347; 1530; 210; 11649; 708; 8196; 8754; 12129; 19059; 3075; 108];
  [27027; 9765; 1533; 2892; 7920; 13410; 249; 13026; 14793; 16470; 5082; 7506; 15777; 1275; 15753; 12897; 942; 9105; 12141; 18774; 14];
  [20880; 9357; 6114; 8178; 16512; 8022; 13020; 18504; 15444; 4686; 864; 10053; 16065; 14970; 4161; 2112; 12003; 7557; 12423; 3519; 186];
  [38808; 1806; 2007; 7152; 19404; 9396; 19680; 3507; 8313; 7812; 3492; 19524; 18513; 19656; 12426; 516; 1392; 19629; 6903; 7038; 203];
  [48744; 10767; 2346; 5475; 11238; 2925; 17094; 2814; 8199; 13668; 5676; 1944; 10635; 5658; 18849; 16494; 8925; 762; 18906; 6204; 139];
  [58635; 16446; 12198; 5631; 2634; 14733; 12570; 18123; 19566; 14118; 627; 15444; 14238; 3876; 18531; 16767; 489; 13569; 12828; 15807; 216];
  [45216; 5004; 246; 1128; 12777; 165; 1002; 17247; 10083; 15834; 4356; 5211; 2640; 5454; 15282; 13725; 16200; 11274; 4953; 11076; 222];
  [27648; 12465; 3402; 5103; 2421; 2166; 18045; 10344; 5721; 15195; 3321; 14016; 16260; 7794; 5133; 2112; 11634; 1269; 10149; 13593; 241];
  [24462; 17739; 16317; 7599; 14409; 18978; 8706; 9093; 4884; 2295; 5892; 8178; 12396; 8613; 4899; 4467; 2118; 12123; 4179; 12078; 152]].
Definition K3p3_pole (i : nat) : Z := if Nat.eqb i 0 then 1 else if Nat.eqb i 20 then 3 else 2.
Definition K3p3_val (m : Z) : Z := nth (Z.to_nat (m - 1)) [8; 9; 13] 0.
Example C66_K3p3_factorials : forall m N, In (m, N) [(1, 7); (2, 7); (3, 8)] ->
  exists u, zfact (3 * (m + N - 1) - 1) = 3 ^ K3p3_val m * u /\ ~ (3 | u).
Proof.
  assert (X : forall v a, 0 <= v -> a mod 3 ^ v = 0 -> (a / 3 ^ v) mod 3 <> 0 -> exists u, a = 3 ^ v * u /\ ~ (3 | u)).
  { intros v a Hv H1 H2. pose proof (Z.pow_pos_nonneg 3 v ltac:(lia) Hv). exists (a / 3 ^ v). split; [apply Z.div_exact; lia|]. intros [c Hc]. apply H2. rewrite Hc. apply Z.mod_mul. lia. }
  intros m N [E|[E|[E|[]]]]; injection E as <- <-; (apply X; vm_compute; [discriminate|reflexivity|discriminate]).
Qed.
Example C66_K3p3_columns : forallb (fun row => forallb (fun i =>
    (0 <=? nth i row 0) && (nth i row 0 <? 3 ^ Z.max 0 (16 - lost 3 (K3p3_val (K3p3_pole i))))) (seq 0 21)) K3p3_table = true /\
  map (fun m => 16 - lost 3 (K3p3_val m)) [1; 2; 3] = [10; 9; 5].
Proof. vm_compute. split; reflexivity. Qed.

(** ** examples: x^3 + x y^2 + y^3 modulo 8 and 32 (one digit is lost), the second
    with coefficients changed by multiples of 8; the second matrix was found by
    evaluating the model, and modulo 4 it is the first one *)
Definition ex2_f' : poly := [([0; 3], 9); ([1; 2], 17); ([3; 0], -7)].
Definition ex2_slv' : solver := padic_solver lu_inst inv_fast 2 32 5.
Example C66_ex_hyps : congruent (2 ^ 3) ex2_f ex2_f' /\
  match init ex2_slv 8 2 3 ex2_f, init ex2_slv' 32 2 5 ex2_f' with
  | OK D, OK D' => r_basis D = [[0; 1]; [1; 0]] /\ r_basis D' = [[0; 1]; [1; 0]] /\ r_n D = 1%nat /\ pole_of 1 3 [0; 1] = 1 /\
      frob_matrix_J ex2_slv D (fpow_init 8 1) [2] = OK [[0; 1]; [3; 3]] /\
      frob_matrix_J ex2_slv' D' (fpow_init 32 1) [2] = OK [[0; 13]; [15; 7]]
  | _, _ => False
  end /\ zfact (2 * (1 + 2 - 1) - 1) = 2 ^ 1 * 3 /\ lost 1 1 = 1.
Proof.
  split; [|vm_compute; repeat split].
  repeat constructor; cbn; [exists (-1)|exists (-2)|exists 1]; reflexivity.
Qed.
