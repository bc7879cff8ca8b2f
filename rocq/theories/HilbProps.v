(** Property C53: the assertions of the two constructors hold exactly for smooth
    (non-degenerate) polynomials. *)
From Coq Require Import ZArith List Bool Lia Znumtheory.
From Verif Require Import Base VecModel VecSpec ToolsModel ToolsSpec ToolsProofs MatModel MatProofs DRModel DRSpec DRProofs
  NDModel NDSpec SolveModel SolveSpec SolveProofs SmoothProofs ChangeModel ChangeSpec ChangeProofs ArgsModel ArgsProofs LuInst HilbCode.
Import ListNotations.
Open Scope Z_scope.

(** the constructor de_Rham_local returns, that is all its assertions hold, if and
    only if f is smooth modulo p (every form of degree (d-2)(n+1)+1 is in the
    Jacobian ideal) and p does not divide d *)
Theorem C53_constructor : forall p prec lu inv n d f tl,
  prime p -> 1 <= prec -> ech_spec p lu -> inv_spec p inv -> f <> [] -> wf_poly n d f -> Z.of_nat n < d -> 2 <= d -> init_tuples n d = OK tl ->
  (exists D, init (padic_solver lu inv p (p ^ prec) prec) (p ^ prec) p prec f = OK D) <->
  (forall G, in_jacobian p n d f ((d - 2) * (Z.of_nat n + 1) + 1) G) /\ ~ (p | d).
Proof.
  intros p prec lu inv n d f tl Pp Hprec HE HI Hf W Hnd H2 Htl. split.
  - intros (D & HD). eapply init_smooth; eauto.
  - intros (SM & Hp). destruct (init_succeeds p prec lu inv n d f tl Pp Hprec HE HI Hf W Hnd H2 Htl (or_intror Hp) SM) as (D & HD & _). eauto.
Qed.
Print Assumptions C53_constructor.

(** for d >= 3 the second condition follows from the first *)
Theorem C53_constructor_cubic : forall p prec q lu inv n d f tl,
  prime p -> 1 <= prec -> (p | q) -> ech_spec p lu -> inv_spec p inv -> f <> [] -> wf_poly n d f -> Z.of_nat n < d -> 3 <= d -> init_tuples n d = OK tl ->
  (exists D, init (padic_solver lu inv p (p ^ prec) prec) (p ^ prec) p prec f = OK D) <-> is_smooth lu p q f = OK true.
Proof.
  intros p prec q lu inv n d f tl Pp Hprec Hq HE HI Hf W Hnd H3 Htl. assert (H2 : 2 <= d) by lia.
  destruct (is_smooth_ok p q lu f n d tl Pp Hq HE Hf W H2 Htl) as (b & Eb & Hb). split.
  - intros (D & HD). destruct (init_smooth p prec lu inv n d f tl Pp Hprec HE HI Hf W Hnd H2 Htl D HD) as (SM & _). rewrite Eb. f_equal. now apply Hb.
  - intros E. rewrite Eb in E. injection E as E. pose proof (proj1 Hb E) as SM.
    destruct (init_succeeds p prec lu inv n d f tl Pp Hprec HE HI Hf W Hnd H2 Htl (or_introl H3) SM) as (D & HD & _). eauto.
Qed.
Print Assumptions C53_constructor_cubic.

(** the basis it builds has the dimension of the primitive cohomology *)
Theorem C53_dimension : forall p prec lu inv n d f tl D,
  prime p -> 1 <= prec -> ech_spec p lu -> inv_spec p inv -> f <> [] -> wf_poly n d f -> Z.of_nat n < d -> 2 <= d -> init_tuples n d = OK tl ->
  init (padic_solver lu inv p (p ^ prec) prec) (p ^ prec) p prec f = OK D ->
  d * zlen (r_basis D) = (d - 1) ^ (Z.of_nat n + 1) + (-1) ^ (Z.of_nat n + 1) * (d - 1).
Proof.
  intros p prec lu inv n d f tl D Pp Hprec HE HI Hf W Hnd H2 Htl HD.
  destruct (init_smooth p prec lu inv n d f tl Pp Hprec HE HI Hf W Hnd H2 Htl D HD) as (SM & Hp).
  destruct (init_succeeds p prec lu inv n d f tl Pp Hprec HE HI Hf W Hnd H2 Htl (or_intror Hp) SM) as (D' & HD' & _ & _ & _ & _ & _ & _ & L). rewrite HD in HD'. injection HD' as <-. exact L.
Qed.
Print Assumptions C53_dimension.

(** the constructor de_Rham_non_degenerate_local returns if and only if f is
    non-degenerate modulo p; its basis then has d^n elements *)
Theorem C53_constructor_ND : forall p prec lu inv n d f tl,
  prime p -> 1 <= prec -> ech_spec p lu -> inv_spec p inv -> f <> [] -> wf_poly n d f -> Z.of_nat n < d -> 2 <= d -> init_tuples n d = OK tl ->
  ((exists N, init_ND (padic_solver lu inv p (p ^ prec) prec) (p ^ prec) p prec f = OK N) <-> non_degenerate p n d f) /\
  (forall N, init_ND (padic_solver lu inv p (p ^ prec) prec) (p ^ prec) p prec f = OK N ->
     zlen (nd_basis N) = d ^ Z.of_nat n /\
     d * zlen (r_basis (nd_dr N)) = (d - 1) ^ (Z.of_nat n + 1) + (-1) ^ (Z.of_nat n + 1) * (d - 1)).
Proof.
  intros p prec lu inv n d f tl Pp Hprec HE HI Hf W Hnd H2 Htl. split; [split|].
  - intros (N & HN). eapply init_ND_nd; eauto.
  - intros ND. destruct (init_ND_succeeds p prec lu inv n d f tl Pp Hprec HE HI Hf W Hnd H2 Htl ND) as (N & HN & _). eauto.
  - intros N HN. pose proof (init_ND_nd p prec lu inv n d f tl Pp Hprec HE HI Hf W Hnd H2 Htl N HN) as ND.
    destruct (init_ND_succeeds p prec lu inv n d f tl Pp Hprec HE HI Hf W Hnd H2 Htl ND) as (N' & HN' & _ & _ & L). rewrite HN in HN'. injection HN' as <-. exact L.
Qed.
Print Assumptions C53_constructor_ND.

(** a non-degenerate polynomial is smooth, and p does not divide its degree *)
Theorem C53_nd_smooth : forall p n d f tl,
  prime p -> f <> [] -> wf_poly n d f -> Z.of_nat n < d -> 2 <= d -> init_tuples n d = OK tl -> non_degenerate p n d f ->
  (forall G, in_jacobian p n d f ((d - 2) * (Z.of_nat n + 1) + 1) G) /\ ~ (p | d).
Proof.
  intros p n d f tl Pp Hf W Hnd H2 Htl ND.
  exact (nd_smooth p 1 lu_inst inv_inst n d f tl Pp (Z.le_refl 1) (lu_inst_spec p Pp) (inv_inst_ok p Pp) W Hnd H2 Htl ND).
Qed.
Print Assumptions C53_nd_smooth.

(** the assertion of zeta_function on the length of the basis (wrapper 138-139 and
    146-147) holds for every supported (n, d) *)
Theorem C53_table_length : forall p prec lu inv n d f tl D prec0 N cprec,
  prime p -> 3 <= p -> 1 <= prec -> ech_spec p lu -> inv_spec p inv -> f <> [] -> wf_poly n d f -> init_tuples n d = OK tl ->
  default_args p (Z.of_nat n) d = OK (prec0, N, cprec) ->
  init (padic_solver lu inv p (p ^ prec) prec) (p ^ prec) p prec f = OK D -> zlen (r_basis D) + 1 = zlen cprec.
Proof.
  intros p prec lu inv n d f tl D prec0 N cprec Pp P3 Hprec HE HI Hf W Htl HA HD.
  destruct (default_args_ok p (Z.of_nat n) d _ P3 HA) as (_ & _ & L & _). unfold zlen at 2. rewrite L.
  assert (X : Z.of_nat n < d /\ 2 <= d). { apply default_args_cases in HA. repeat destruct HA as [HA|HA]; destruct HA as (-> & -> & _); lia. }
  f_equal. apply dim_H_eq; [apply X|]. apply (C53_dimension p prec lu inv n d f tl D); auto; apply X.
Qed.
Print Assumptions C53_table_length.

Ltac wf_ex := split;
  [repeat constructor; cbn [In]; try tauto; intros k v H; repeat destruct H as [H|H]; try contradiction; now injection H as <- <-
  |let a := fresh in let c := fresh in let H := fresh in
   intros a c H; repeat destruct H as [H|H]; try contradiction; injection H as <- <-; repeat split; repeat constructor; lia].

(** for quadrics isSmooth does not suffice: x0 x1 over F_2 is smooth, and the
    constructor fails its assertion d % p != 0 *)
Theorem C53_quadric_char2_refuted : exists p q f, prime p /\ (p | q) /\ wf_poly 1 2 f /\ is_smooth lu_inst p q f = OK true /\
  (forall slv prec, init slv q p prec f = Err EAssert).
Proof.
  exists 2, 4, [([1; 1], 1)]. split; [apply prime_2|]. split; [exists 2; reflexivity|]. split.
  { wf_ex. }
  split; [vm_compute; reflexivity|]. intros slv prec. reflexivity.
Qed.
Print Assumptions C53_quadric_char2_refuted.

(** over F_5, to precision 2: x0^3 + x1^3 is non-degenerate (2 = (2^2 + 2) / 3 forms,
    3 elements in the larger basis); x0 x1 (x0 + x1) is smooth but degenerate; x0^3 is singular *)
Definition fer3 : poly := [([0; 3], 1); ([3; 0], 1)].
Definition bin3 : poly := [([1; 2], 1); ([2; 1], 1)].
Example C53_ex : wf_poly 1 3 fer3 /\ wf_poly 1 3 bin3 /\ (exists tl, init_tuples 1 3 = OK tl) /\ prime 5 /\
  (let r := init (padic_solver lu_inst inv_inst 5 25 2) 25 5 2 in
   match r fer3 with OK D => zlen (r_basis D) = 2 | Err _ => False end /\
   match r bin3 with OK D => zlen (r_basis D) = 2 | Err _ => False end /\
   r [([3; 0], 1)] = Err EAssert) /\
  (let r := init_ND (padic_solver lu_inst inv_inst 5 25 2) 25 5 2 in
   match r fer3 with OK N => zlen (nd_basis N) = 3 | Err _ => False end /\
   r bin3 = Err EAssert).
Proof.
  split. { wf_ex. } split. { wf_ex. }
  split; [eexists; vm_compute; reflexivity|]. split.
  { apply prime_intro; [lia|]. intros k Hk. assert (C : k = 1 \/ k = 2 \/ k = 3 \/ k = 4) by lia. repeat destruct C as [->|C]; try subst k; apply Zgcd_1_rel_prime; reflexivity. }
  split; [split; [|split]|split]; vm_compute; reflexivity.
Qed.
