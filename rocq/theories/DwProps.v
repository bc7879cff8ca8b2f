(** Property C64: the programs K3_dwork and K3_dwork2, the pencil
    x^4 + y^4 + z^4 + w^4 + lambda xyzw. *)
From Coq Require Import ZArith List Bool Lia Znumtheory.
From Verif Require Import Base VecModel VecSpec VecProofs ToolsModel ToolsSpec ToolsProofs MatModel MatProofs DRModel DRSpec DRProofs
  FrobModel FrobTop NDModel NDSpec FrobNDModel LinAlg SolveModel SolveSpec SolveProofs SmoothProofs
  LuInst LuFast ChangeModel ChangeSpec ChangeProofs ChangeProps ArgsModel ArgsProofs CharModel CharSpec CharProps ZetaModel ZetaProofs ZetaProps RunModel HilbCode HilbProps RunProofs RunProps CtorModel CtorSpec CtorProofs CtorProps InvModel FlintProps UniqProps DwModel DwProofs.
Import ListNotations.
Open Scope Z_scope.

(** the polynomial of the title, over the integers *)
Notation quartic lambda := (dwork_map (fun c => c) 4 lambda).

(** C64: the map stands for x^4 + y^4 + z^4 + w^4 + lambda xyzw *)
Theorem C64_polynomial : forall lambda x y z w, wf_poly 3 4 (quartic lambda) /\
  peval (quartic lambda) [x; y; z; w] = x ^ 4 + y ^ 4 + z ^ 4 + w ^ 4 + lambda * (x * y * z * w).
Proof. intros. rewrite dwork_map_eq. split; [apply (dw_wf lambda)|]. unfold peval. rewrite !sumf_cons, sumf_nil. cbn [mono fst snd]. rewrite !Z.pow_0_r, !Z.pow_1_r. ring. Qed.
Print Assumptions C64_polynomial.

Lemma quartic_dw lambda : quartic lambda = dw lambda.
Proof. apply dwork_map_eq. Qed.
Lemma tuples_3_4 : exists tl, init_tuples 3 4 = OK tl.
Proof. apply init_tuples_total. reflexivity. Qed.

(** C64: for every odd prime the member of the pencil is smooth modulo p, and
    non-degenerate modulo p, exactly if lambda^4 is not 256 modulo p *)
Theorem C64_smooth : forall p lambda, prime p -> 3 <= p ->
  (smooth p 3 4 (quartic lambda) <-> ~ (p | lambda ^ 4 - 256)) /\
  (non_degenerate p 3 4 (quartic lambda) <-> ~ (p | lambda ^ 4 - 256)).
Proof.
  intros p lambda Pp p3. rewrite quartic_dw. destruct tuples_3_4 as (tl & Htl).
  assert (A : non_degenerate p 3 4 (dw lambda) -> smooth p 3 4 (dw lambda)).
  { intros ND. exact (proj1 (C53_nd_smooth p 3 4 (dw lambda) tl Pp ltac:(discriminate) (dw_wf lambda) ltac:(lia) ltac:(lia) Htl ND)). }
  assert (B : smooth p 3 4 (dw lambda) -> ~ (p | lambda ^ 4 - 256)).
  { intros S D. exact (dw_not_smooth p lambda Pp p3 D S). }
  assert (C : ~ (p | lambda ^ 4 - 256) -> non_degenerate p 3 4 (dw lambda)) by exact (dw_nd p lambda Pp p3).
  tauto.
Qed.
Print Assumptions C64_smooth.

Lemma div_mod_lambda p lambda : 0 < p -> (p | (lambda mod p) ^ 4 - 256) <-> (p | lambda ^ 4 - 256).
Proof.
  intros P0. assert (C : cong p ((lambda mod p) ^ 4) (lambda ^ 4)).
  { assert (X : cong p (lambda mod p) lambda) by (exists (- (lambda / p)); pose proof (Z.div_mod lambda p ltac:(lia)); lia).
    replace (lambda ^ 4) with (lambda * (lambda * (lambda * lambda))) by ring. replace ((lambda mod p) ^ 4) with ((lambda mod p) * ((lambda mod p) * ((lambda mod p) * (lambda mod p)))) by ring.
    repeat apply cong_mul; exact X. }
  destruct C as (k & Hk). split; intros (m & Hm); [exists (m - k)|exists (m + k)]; lia.
Qed.

Section Dwork.
  Variables (lu : ech_fun) (inv : inv_fun) (p lambda prec : Z) (N cprec : list Z).
  Hypothesis Pp : prime p.
  Hypothesis p3 : 3 <= p.
  Hypothesis HL : ech_spec p lu.
  Hypothesis HI : inv_spec p inv.
  Hypothesis HA : default_args p 3 4 = OK (prec, N, cprec).
  Notation q := (p ^ prec).
  Notation slv := (padic_solver lu inv p q prec).
  Notation f := (quartic (lambda mod p)).

  Lemma args_facts : 1 <= prec /\ length N = 3%nat /\ (forall x, In x N -> x <= 28) /\ zlen cprec = 22.
  Proof.
    clear - HA p3. pose proof (default_N_small p 3 4 _ _ _ HA) as B. destruct (default_args_ok p 3 4 _ p3 HA) as (R1 & R2 & R3 & _). cbn [fst snd] in *.
    assert (L : zlen cprec = 22) by (revert HA; cbn; unfold args_3_4; repeat match goal with |- context [if ?b then _ else _] => destruct b end; intros H; injection H as <- <- <-; reflexivity).
    repeat split; auto; lia.
  Qed.
  Lemma q_facts : (p | q) /\ p <= q /\ 1 < q.
  Proof.
    clear - HA p3. destruct args_facts as (A & _). assert (Hpq : (p | q)). { exists (p ^ (prec - 1)). rewrite <- (Z.pow_1_r p) at 3. rewrite <- Z.pow_add_r by lia. f_equal. lia. }
    assert (Hle : p <= q) by (apply Z.divide_pos_le; auto; apply Z.pow_pos_nonneg; lia). split; auto. lia.
  Qed.

  Lemma K3_unfold : K3_dwork lu inv p lambda =
    (hs <- init_ND slv q p prec f ;; Frob <- frob_matrix_ND slv hs (fpow_init q 3) N ;; charpoly_frob Frob cprec p 2).
  Proof.
    destruct q_facts as (Q1 & Q2 & Q3). destruct tuples_3_4 as (tl & Htl). unfold K3_dwork. rewrite HA. cbn [bind]. cbv zeta.
    destruct (Z.ltb_spec 1 p); [|lia]. destruct (Z.ltb_spec 1 q); [|lia]. cbn [andb check bind].
    assert (E : dwork_map (fun c => c mod p) 4 lambda = dw (lambda mod p)). { rewrite dwork_map_eq. rewrite (Z.mod_small 1) by lia. reflexivity. }
    rewrite E, <- quartic_dw.
    destruct (is_smooth_ok p q lu f 3 4 tl Pp Q1 HL ltac:(discriminate) (proj1 (C64_polynomial _ 0 0 0 0)) ltac:(lia) Htl) as (b & Eb & _). rewrite Eb. cbn [bind].
    rewrite (proj2 (C57_lift slv q p prec 3 4 f (proj1 (C64_polynomial _ 0 0 0 0)) Q2 ltac:(
      rewrite quartic_dw; intros k c I; pose proof (Z.mod_pos_bound lambda p ltac:(lia)); repeat destruct I as [I|I]; try contradiction; injection I as <- <-; lia))).
    reflexivity.
  Qed.

  Lemma K3_singular : (p | lambda ^ 4 - 256) -> K3_dwork lu inv p lambda = Err EAssert.
  Proof.
    intros D. rewrite K3_unfold. destruct tuples_3_4 as (tl & Htl). destruct args_facts as (A & _).
    unfold init_ND. rewrite (init_singular p prec lu inv 3 4 f tl Pp A HL HI ltac:(discriminate) (proj1 (C64_polynomial _ 0 0 0 0)) ltac:(lia) ltac:(lia) Htl); [reflexivity|].
    intros S. apply (proj1 (C64_smooth p (lambda mod p) Pp p3)) in S. apply S. apply div_mod_lambda; [lia|exact D].
  Qed.

  Lemma K3_regular : ~ (p | lambda ^ 4 - 256) -> exists D, init slv q p prec f = OK D /\ zlen (r_basis D) = 21 /\
    K3_dwork lu inv p lambda = (Frob <- frob_of slv q p prec 3 f true N cprec ;; charpoly_frob Frob cprec p 2) /\
    (words_fine slv q p prec 3 4 f N -> matrix_result q p 3 4 f (r_basis D) N (frob_of slv q p prec 3 f true N cprec)).
  Proof.
    intros ND. destruct tuples_3_4 as (tl & Htl). destruct args_facts as (A & LN & BN & LC). destruct (C64_polynomial (lambda mod p) 0 0 0 0) as (W & _).
    assert (NDf : ~ (p | (lambda mod p) ^ 4 - 256)) by (intros X; apply ND; apply (div_mod_lambda p); [lia|exact X]).
    pose proof (proj2 (proj2 (C64_smooth p _ Pp p3)) NDf) as NDG. pose proof (proj2 (proj1 (C64_smooth p _ Pp p3)) NDf) as SG.
    destruct (init_ND_succeeds p prec lu inv 3 4 f tl Pp A HL HI ltac:(discriminate) W ltac:(lia) ltac:(lia) Htl NDG) as (o & Ho & En & Ed & _).
    pose proof (init_ND_dr _ _ _ _ _ _ Ho) as HDo.
    pose proof (C53_table_length p prec lu inv 3 4 f tl (nd_dr o) prec N cprec Pp p3 A HL HI ltac:(discriminate) W Htl HA HDo) as LB.
    exists (nd_dr o). split; [exact HDo|]. split; [lia|]. split.
    - rewrite K3_unfold. unfold frob_of. rewrite Ho. cbn [bind]. destruct (Z.eqb_spec (zlen (r_basis (nd_dr o)) + 1) (zlen cprec)); [|lia]. reflexivity.
    - intros WF. destruct (frob_of_ok p prec lu inv 3 4 f N cprec prec N Pp p3 A HL HI ltac:(discriminate) W HA LN BN true SG (fun _ => NDG) (fun _ => WF)) as (D' & HD' & _ & MR).
      rewrite HDo in HD'. injection HD' as <-. exact MR.
  Qed.
End Dwork.

(** C64: the program K3_dwork.  For a singular member it prints a message, goes on,
    and a failed assertion stops it; no polynomial is printed.  Otherwise the basis
    has 21 elements and the result is that of the last phase for a matrix whose
    columns are the images of the basis under Frobenius. *)
Theorem C64_K3_dwork : forall lu inv p lambda prec N cprec, prime p -> 3 <= p -> ech_spec p lu -> inv_spec p inv ->
  default_args p 3 4 = OK (prec, N, cprec) ->
  let q := p ^ prec in
  let slv := padic_solver lu inv p q prec in
  let f := quartic (lambda mod p) in
  ((p | lambda ^ 4 - 256) /\ K3_dwork lu inv p lambda = Err EAssert) \/
  (~ (p | lambda ^ 4 - 256) /\ exists D, init slv q p prec f = OK D /\ zlen (r_basis D) = 21 /\
     (words_fine slv q p prec 3 4 f N ->
      exists r, matrix_result q p 3 4 f (r_basis D) N r /\ K3_dwork lu inv p lambda = (Frob <- r ;; charpoly_frob Frob cprec p 2))).
Proof.
  intros lu inv p lambda prec N cprec Pp p3 HL HI HA q slv f. destruct (Zdivide_dec p (lambda ^ 4 - 256)) as [D|D].
  - left. split; auto. now apply (K3_singular lu inv p lambda prec N cprec).
  - right. split; auto. destruct (K3_regular lu inv p lambda prec N cprec Pp p3 HL HI HA D) as (o & H1 & H2 & H3 & H4).
    exists o. split; auto. split; auto. intros WF. eexists. split; [exact (H4 WF)|exact H3].
Qed.
Print Assumptions C64_K3_dwork.

(** the two programs print the same for every parameter 0 <= lambda < p that is not
    singular: the same polynomial, or both stop at the same assertion; on a singular
    member both stop, K3_dwork2 with an abort.  Neither the random matrices nor the
    libraries used only by zeta_function matter. *)
Theorem C64_same_output : forall lu gauss inv det rnd p lambda, prime p -> 3 <= p -> ech_spec p lu -> inv_spec p inv -> 0 <= lambda < p ->
  (~ (p | lambda ^ 4 - 256) -> K3_dwork2 lu gauss inv det rnd p lambda = K3_dwork lu inv p lambda) /\
  ((p | lambda ^ 4 - 256) -> K3_dwork2 lu gauss inv det rnd p lambda = Err EAbort /\ K3_dwork lu inv p lambda = Err EAssert).
Proof.
  intros lu gauss inv det rnd p lambda Pp p3 HL HI Hr. destruct (default_args p 3 4) as [[[prec N] cprec]|e] eqn:HA; [|discriminate].
  destruct tuples_3_4 as (tl & Htl). destruct (args_facts p prec N cprec p3 HA) as (A & LN & BN & LC). destruct (q_facts p prec N cprec p3 HA) as (Q1 & Q2 & Q3).
  assert (El : lambda mod p = lambda) by (apply Z.mod_small; lia).
  assert (HZ : zeta_args p (Z.of_nat 3) 4 0 true = OK (prec, N, cprec, true)) by (unfold zeta_args; change (Z.of_nat 3) with 3; rewrite HA; reflexivity).
  destruct (C64_polynomial lambda 0 0 0 0) as (W & _).
  assert (Ep : forall m, p <= m -> poly_mod m (quartic lambda) = quartic lambda).
  { intros m Hm. rewrite quartic_dw. unfold poly_mod, dw. cbn [map fst snd]. rewrite (Z.mod_small 1), (Z.mod_small lambda) by lia. reflexivity. }
  assert (U : K3_dwork2 lu gauss inv det rnd p lambda =
    (r <- (sm <- is_smooth lu p (p ^ prec) (quartic lambda) ;;
     _ <- check sm EAbort ;;
     gn <- pick_model lu gauss det p (p ^ prec) rnd true (quartic lambda) (quartic lambda) ;;
     Frob <- frob_of (padic_solver lu inv p (p ^ prec) prec) (p ^ prec) p prec 3 (fst gn) (snd gn) N cprec ;;
     cp <- zeta_finish p (Z.of_nat 3) 0 true Frob cprec ;;
     OK (cp, Frob)) ;; OK (fst r))).
  { unfold K3_dwork2, zeta_default. rewrite (run_unfold lu gauss inv det rnd 3 4 (quartic lambda) p 0 true true prec N cprec true ltac:(discriminate) W HZ).
    rewrite (Ep p), (Ep (p ^ prec)) by lia. reflexivity. }
  destruct (is_smooth_ok p (p ^ prec) lu (quartic lambda) 3 4 tl Pp Q1 HL ltac:(discriminate) W ltac:(lia) Htl) as (b & Eb & Hb).
  destruct (C47_isND p (p ^ prec) lu (quartic lambda) 3 4 tl Pp Q1 HL ltac:(lia) Htl ltac:(discriminate) W) as (c & Ec & Hc).
  destruct (C64_smooth p lambda Pp p3) as (S1 & S2). split; intros D.
  - rewrite U, Eb. cbn [bind]. replace b with true by (symmetry; apply Hb; exact (proj2 S1 D)). cbn [check bind].
    unfold pick_model. rewrite Ec. replace c with true by (symmetry; apply Hc; exact (proj2 S2 D)). cbn [bind negb andb fst snd].
    destruct (K3_regular lu inv p lambda prec N cprec Pp p3 HL HI HA D) as (o & _ & _ & H3 & _). rewrite El in H3. rewrite H3. clear H3.
    destruct (frob_of _ _ _ _ _ _ _ _ _) as [M|e]; cbn [bind]; [|reflexivity]. unfold zeta_finish. change (Z.to_nat (Z.of_nat 3 - 1)) with 2%nat.
    destruct (charpoly_frob M cprec p 2); reflexivity.
  - split; [|now apply (K3_singular lu inv p lambda prec N cprec)]. rewrite U, Eb. cbn [bind]. destruct b; [|reflexivity].
    exfalso. exact (proj1 S1 (proj1 Hb eq_refl) D).
Qed.
Print Assumptions C64_same_output.

(** if every matrix that represents Frobenius on the basis determines the polynomial
    P to the precisions of the table, then K3_dwork prints P, unless an assertion fails *)
Theorem C64_result : forall lu inv p lambda prec N cprec P, prime p -> 3 <= p -> ech_spec p lu -> inv_spec p inv ->
  default_args p 3 4 = OK (prec, N, cprec) -> ~ (p | lambda ^ 4 - 256) -> weil p 21 2 1 P ->
  let q := p ^ prec in
  let slv := padic_solver lu inv p q prec in
  let f := quartic (lambda mod p) in
  words_fine slv q p prec 3 4 f N ->
  (forall D M, init slv q p prec f = OK D -> matrix_result q p 3 4 f (r_basis D) N (OK M) ->
     forall i, (i < length P)%nat -> (p ^ nth i cprec 0 | nth i P 0 - nth i (char_coefs (length M) M) 0)) ->
  K3_dwork lu inv p lambda = Err EAssert \/ K3_dwork lu inv p lambda = OK P.
Proof.
  intros lu inv p lambda prec N cprec P Pp p3 HL HI HA ND WP q slv f WF H.
  destruct (C64_K3_dwork lu inv p lambda prec N cprec Pp p3 HL HI HA) as [(X & _)|(_ & D & HD & LB & R)]; [now destruct ND|].
  destruct (R WF) as (r & MR & ->). destruct MR as [(M & -> & SH & CL)|(-> & _)]; [right|left; reflexivity]. cbn [bind].
  specialize (H D M HD (or_introl (ex_intro _ M (conj eq_refl (conj SH CL))))).
  assert (LM : length M = 21%nat). { rewrite (proj1 SH). unfold zlen in LB. lia. }
  assert (Podd : Z.odd p = true). { destruct (Z.odd p) eqn:O; auto. exfalso. rewrite <- Z.negb_even in O. apply negb_false_iff in O. apply Z.even_spec in O. destruct O as (k & ->).
    destruct (prime_divisors (2 * k) Pp 2 ltac:(exists k; ring)) as [X|[X|[X|X]]]; lia. }
  apply (C16_lift_unambiguous p 3 4 prec N cprec (length M) 1 P M p3 Podd HA); auto.
  - rewrite LM. reflexivity.
  - rewrite LM. exact WP.
  - rewrite <- (proj1 SH) in SH. exact SH.
  - intros i Hi. apply H. rewrite (weil_len _ _ _ _ _ WP). lia.
Qed.
Print Assumptions C64_result.

(** lambda = 1: 1 - 256 = - 3 * 5 * 17, so the member is smooth modulo 7 and singular modulo 5 *)
Example C64_ex : prime 7 /\ ~ (7 | 1 ^ 4 - 256) /\ prime 5 /\ (5 | 1 ^ 4 - 256) /\
  (exists a, default_args 7 3 4 = OK a) /\ K3_dwork lu_inst inv_fast 5 1 = Err EAssert /\ ~ smooth 5 3 4 (quartic 1) /\ non_degenerate 7 3 4 (quartic 1).
Proof.
  assert (D5 : (5 | 1 ^ 4 - 256)) by (exists (-51); reflexivity). assert (D7 : ~ (7 | 1 ^ 4 - 256)) by (intros (k & Hk); change (1 ^ 4 - 256) with (-255) in Hk; lia).
  split; [exact prime_7|]. split; [exact D7|]. split; [exact prime_5|]. split; [exact D5|]. split; [eexists; reflexivity|]. split; [|split].
  - apply (proj2 (C64_same_output lu_inst lu_inst inv_fast (fun _ _ _ => 0) (fun _ => ([], O)) 5 1 prime_5 ltac:(lia) (lu_inst_spec 5 prime_5) (inv_fast_ok 5 prime_5) ltac:(lia)) D5).
  - intros S. exact (proj1 (proj1 (C64_smooth 5 1 prime_5 ltac:(lia))) S D5).
  - apply (proj2 (C64_smooth 7 1 prime_7 ltac:(lia))). exact D7.
Qed.
