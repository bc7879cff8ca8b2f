(** C63: the program examples/frob.cc.  A file in the documented form is read as
    documented, provided that the general form ends with a newline and the short
    form is not followed by six; the table of the short form is that of
    default_args for every odd prime; the program refuses exactly the polynomials
    that are not smooth, and otherwise writes the matrix of Frobenius of the
    polynomial it prints; what it writes is again an input file for the same
    result. *)
From Coq Require Import ZArith Znumtheory List Bool Ascii Lia QArith.
From Verif Require Import Base VecModel VecSpec ToolsModel ToolsSpec MatModel MatProofs DRModel DRSpec DRProofs FrobModel NDModel FrobNDModel NDSpec SolveModel SolveSpec LuInst LuFast
  ChangeModel ChangeSpec ChangeProofs ChangeFind ChangeProps ArgsModel ArgsProofs CharModel CharSpec CharProps PicardModel IoModel ZetaProps RunModel RunProofs RunProps CtorModel CtorSpec ExModel ExSpec ExIdent ExProofs.
Import ListNotations.
Open Scope Z_scope.

(** ** the input *)
Theorem C63_reads_general : forall p prec n d f N cprec rest, 1 < p -> 0 < prec -> (1 <= count_nl rest)%nat ->
  read_input (general_file p prec n d f N cprec ++ rest) = OK (mk_input p prec n d (map (fun c => c mod p) f) N cprec).
Proof. exact read_general. Qed.
Print Assumptions C63_reads_general.

(** the precisions of the short form are those of default_args *)
Theorem C63_reads_short : forall p f rest, prime p -> 3 <= p -> (count_nl rest <= 5)%nat ->
  exists prec N cprec, default_args p 3 4 = OK (prec, N, cprec) /\
    read_input (short_file p f ++ rest) = OK (mk_input p prec 3 4 (map (fun c => c mod p) f) N cprec).
Proof.
  intros p f rest Pp P3 Hr. destruct (k3_ok p Pp P3) as ([[prec N] cprec] & K & D). exists prec, N, cprec. split; auto. exact (read_short p f rest _ K Hr).
Qed.
Print Assumptions C63_reads_short.

(** in characteristic 2 the table has a row that the short form does not have *)
Theorem C63_short_even_refuted : forall f rest, (count_nl rest <= 5)%nat ->
  (exists a, default_args 2 3 4 = OK a) /\ read_input (short_file 2 f ++ rest) = Err EAssert.
Proof.
  intros f rest Hr. split; [eexists; vm_compute; reflexivity|]. unfold read_input. rewrite count_app, count_short. destruct (Nat.ltb_spec (1 + count_nl rest) 7); [|lia].
  unfold short_file, newline. rewrite <- !app_assoc. cbn [app]. rewrite read_Z. reflexivity.
Qed.
Print Assumptions C63_short_even_refuted.

(** a file in the general form without the last newline is taken for a short one,
    and a short one followed by empty lines for a general one; both fail *)
Theorem C63_last_newline_refuted : forall p prec n d f N cprec, exists e, read_input (general_file p prec n d f N cprec) = Err e.
Proof. exact read_general_short. Qed.
Print Assumptions C63_last_newline_refuted.
Theorem C63_empty_lines_refuted : forall p f rest, (6 <= count_nl rest)%nat -> exists e, read_input (short_file p f ++ rest) = Err e.
Proof. exact read_short_general. Qed.
Print Assumptions C63_empty_lines_refuted.

(** without the fourth argument a non-degenerate model is searched for as with the
    argument 100 p (examples/frob.cc 94-96), for both forms of the file *)
Theorem C63_default_tries : forall L p prec n d f N cprec rest, 
  (1 < p -> 0 < prec -> (1 <= count_nl rest)%nat ->
   frob_main L None (general_file p prec n d f N cprec ++ rest) = frob_main L (Some (100 * p)) (general_file p prec n d f N cprec ++ rest)) /\
  (prime p -> 3 <= p -> (count_nl rest <= 5)%nat ->
   frob_main L None (short_file p f ++ rest) = frob_main L (Some (100 * p)) (short_file p f ++ rest)).
Proof.
  intros L p prec n d f N cprec rest. split.
  - intros Hp Hprec Hr. unfold frob_main. rewrite C63_reads_general by auto. cbn [bind in_p]. now rewrite Z.mul_comm.
  - intros Pp P3 Hr. unfold frob_main. destruct (C63_reads_short p f rest Pp P3 Hr) as (prec' & N' & c' & _ & E). rewrite E. cbn [bind in_p]. now rewrite Z.mul_comm.
Qed.
Print Assumptions C63_default_tries.

(** ** the output is an input *)
Theorem C63_output_is_input : forall L tries s o wall user, frob_main L tries s = OK o ->
  exists rest i, i = o_in o /\
    output_text o wall user = general_file (in_p i) (in_prec i) (in_n i) (in_d i) (in_f i) (in_N i) (in_cprec i) ++ rest /\
    frob_main L tries (output_text o wall user) = OK o.
Proof.
  intros L tries s o wall user H. destruct (output_general o wall user) as (rest & _ & E). exists rest, (o_in o). split; auto. split; auto.
  exact (main_again L tries s o wall user H).
Qed.
Print Assumptions C63_output_is_input.

(** ** the computation *)
(** g is f(Mx) with det M = 1 and non-degenerate, or f is degenerate, M is zero and
    g is f *)
Definition moved (p : Z) (n : nat) (d : Z) (f : poly) (M : mat) (g : poly) (nd : bool) : Prop :=
  (nd = true /\ shape M (S n) (S n) /\ cong p (detf (S n) (mget M)) 1 /\ substitutes p f M g /\ non_degenerate p n d g /\
    (non_degenerate p n d f -> M = ident (S n) /\ forall e, cong p (coef g e) (coef f e))) \/
  (nd = false /\ M = mzero (S n) (S n) /\ g = f /\ ~ non_degenerate p n d f).

Definition libs_ok (p : Z) (n : nat) (L : libs) : Prop :=
  ech_spec p (l_lu L) /\ ech_spec p (l_gauss L) /\ inv_spec p (l_inv L) /\ det_spec p (l_det L) /\
  (forall j, (snd (l_rnd L j) < S n)%nat /\ Forall (fun A => shape A (S n) (S n) /\ mreduced p A) (fst (l_rnd L j)) /\
    Exists (invertible p (S n)) (fst (l_rnd L j))).

(** the last lines of the output (frob.cc 217-228) *)
Definition finish (L : libs) (i : input) (n : nat) (M : mat) (fv : list Z) (Frob : mat) (cp : list Z) : res output :=
  rank <- (if (Z.of_nat n =? 3) && (in_d i =? 4) then geometric_picard (l_fuel L) (l_x L) (l_cyc L) (l_factor L) cp (in_p i) (Z.of_nat n - 1) else OK 0) ;;
  OK (mk_output i M fv Frob cp rank).

Theorem C63_general : forall L tries p prec n d v N cprec rest, prime p -> 3 <= p -> 1 <= prec -> libs_ok p n L ->
  (exists a, default_args p (Z.of_nat n) d = OK a) -> (1 <= count_nl rest)%nat ->
  let td := enum (S n) (Z.to_nat d) in
  let q := p ^ prec in
  let slv := padic_solver (l_lu L) (l_inv L) p q prec in
  let i := mk_input p prec (Z.of_nat n) d (map (fun c => c mod p) v) N cprec in
  let run := frob_main L tries (general_file p prec (Z.of_nat n) d v N cprec ++ rest) in
  (length v <> length td -> run = Err EAssert) /\
  (length v = length td -> (exists c, In c v /\ ~ (p | c)) ->
   exists f, wf_poly n d f /\ lists td (map (fun c => c mod p) v) f /\
   ((~ smooth p n d f /\ run = Err EAbort) \/
    (smooth p n d f /\ exists M g nd fv D, moved p n d f M g nd /\ wf_poly n d g /\ smooth p n d g /\ lists td fv g /\ init slv q p prec g = OK D /\
       zlen (r_basis D) = dim_H (Z.of_nat n) d /\
       (length N = n -> (forall x, In x N -> x <= 28) -> nd = false \/ words_fine slv q p prec n d g N ->
        (zlen cprec <> dim_H (Z.of_nat n) d + 1 -> run = Err EAssert) /\
        (zlen cprec = dim_H (Z.of_nat n) d + 1 -> exists r, matrix_result q p n d g (r_basis D) N r /\
          run = (Frob <- r ;; cp <- charpoly_frob Frob cprec p (n - 1) ;; finish L i n M fv Frob cp)))))).
Proof.
  intros L tries p prec n d v N cprec rest Pp p3 Hprec (HL & HG & HI & HD & Hrnd) ([[prec0 N0] c0] & HA) Hr td q slv i run.
  assert (ER : exists t, run = frob_compute L t i).
  { unfold run, frob_main. rewrite C63_reads_general by lia. cbn [bind]. fold i. eauto. }
  destruct ER as (t & ER). split.
  - intros HLn. rewrite ER. apply (compute_length L t i n prec0 N0 c0); auto. cbn [in_f i]. now rewrite map_length.
  - intros HLn (c & Hc & Nc).
    assert (LF : length (in_f i) = length td) by (cbn [in_f i]; now rewrite map_length).
    assert (RF : forall x, In x (in_f i) -> 0 <= x < in_p i).
    { cbn [in_f in_p i]. intros x Hx. apply in_map_iff in Hx. destruct Hx as (y & <- & _). apply Z.mod_pos_bound. lia. }
    assert (NF : exists x, In x (in_f i) /\ x <> 0).
    { exists (c mod p). split; [cbn [in_f i]; apply in_map_iff; eauto|]. intros X. apply Nc. apply Z.mod_divide; [lia|auto]. }
    destruct (f_facts i n prec0 N0 c0 HA LF RF NF) as (W & Li & Hf & _). exists (vector_poly td (in_f i)). split; auto. split; auto.
    destruct (default_args_ok p (Z.of_nat n) d _ p3 HA) as (_ & _ & L3 & _).
    assert (L4 : zlen c0 = dim_H (Z.of_nat n) d + 1) by (unfold zlen; lia).
    destruct (compute_ok L t i n prec0 N0 c0 Pp p3 Hprec eq_refl HA HL HG HI HD Hrnd LF RF NF) as [(NS & E)|(SM & M & g & nd & fv & D & CA & Wg & SG & Lf & HDD & LD & R)].
    + left. split; auto. now rewrite ER.
    + right. split; auto. exists M, g, nd, fv, D. split; [|do 4 (split; [assumption|])].
      * destruct CA as [(C1 & C2 & C3 & C4 & C5)|C]; [left|right; exact C]. split; auto. split; auto. split; auto. split; auto.
        eapply cov_substitutes; eauto.
      * split; [lia|]. intros LN BN WF. destruct (R LN BN WF) as (R1 & R2). rewrite ER. split; intros HC.
        { apply R1. cbn [in_cprec i]. lia. }
        { destruct R2 as (r & MR & Er); [cbn [in_cprec i]; lia|]. exists r. split; auto. }
Qed.
Print Assumptions C63_general.

(** the zero polynomial is not refused: the map is empty and its first element is
    read *)
Theorem C63_zero_refuted : forall L tries p prec n d v N cprec rest, 3 <= p -> 1 <= prec ->
  (exists a, default_args p (Z.of_nat n) d = OK a) -> (1 <= count_nl rest)%nat ->
  length v = length (enum (S n) (Z.to_nat d)) -> (forall c, In c v -> (p | c)) ->
  frob_main L tries (general_file p prec (Z.of_nat n) d v N cprec ++ rest) = Err EUB.
Proof.
  intros L tries p prec n d v N cprec rest p3 Hprec ([[prec0 N0] c0] & HA) Hr HLn Z0.
  unfold frob_main. rewrite C63_reads_general by lia. cbn [bind].
  apply (compute_zero L _ (mk_input p prec (Z.of_nat n) d (map (fun c => c mod p) v) N cprec) n prec0 N0 c0); cbn [in_n in_f in_p in_d]; auto.
  - now rewrite map_length.
  - intros x Hx. apply in_map_iff in Hx. destruct Hx as (y & <- & Hy). apply Z.mod_divide; [lia|auto].
Qed.
Print Assumptions C63_zero_refuted.

(** if every matrix that represents Frobenius on the basis determines the polynomial
    P to the precisions of the table, then P is what is written, unless an assertion
    fails *)
Theorem C63_result : forall L tries p prec n d v prec0 N0 N cprec rest P, prime p -> 3 <= p -> 1 <= prec -> libs_ok p n L ->
  default_args p (Z.of_nat n) d = OK (prec0, N0, cprec) -> (1 <= count_nl rest)%nat -> length N = n -> (forall x, In x N -> x <= 28) ->
  let td := enum (S n) (Z.to_nat d) in
  let q := p ^ prec in
  let slv := padic_solver (l_lu L) (l_inv L) p q prec in
  let i := mk_input p prec (Z.of_nat n) d (map (fun c => c mod p) v) N cprec in
  let run := frob_main L tries (general_file p prec (Z.of_nat n) d v N cprec ++ rest) in
  length v = length td -> (exists c, In c v /\ ~ (p | c)) ->
  weil p (Z.to_nat (dim_H (Z.of_nat n) d)) (n - 1) 1 P ->
  (forall f, lists td (map (fun c => c mod p) v) f -> wf_poly n d f ->
   smooth p n d f /\ forall M g nd D F, moved p n d f M g nd -> init slv q p prec g = OK D ->
     (nd = true -> words_fine slv q p prec n d g N) /\
     (matrix_result q p n d g (r_basis D) N (OK F) ->
      forall j, (j < length P)%nat -> (p ^ nth j cprec 0 | nth j P 0 - nth j (char_coefs (length F) F) 0))) ->
  run = Err EAssert \/ exists M fv F, run = finish L i n M fv F P.
Proof.
  intros L tries p prec n d v prec0 N0 N cprec rest P Pp p3 Hprec HLi HA Hr LN BN td q slv i run HLn Hc WP H.
  destruct (C63_general L tries p prec n d v N cprec rest Pp p3 Hprec HLi (ex_intro _ _ HA) Hr) as (_ & G).
  destruct (G HLn Hc) as (f & W & Li & [(NS & _)|(SM & M & g & nd & fv & D & MV & Wg & SG & Lf & HDD & LD & R)]); clear G; destruct (H f Li W) as (SM' & HH); [now destruct NS|].
  destruct (HH M g nd D [] MV HDD) as (WF & _). fold q slv run i in R.
  destruct (default_args_ok p (Z.of_nat n) d _ p3 HA) as (_ & _ & L3 & _).
  destruct (R LN BN) as (_ & R2); [destruct nd; auto|]. destruct R2 as (r & MR & ER); [unfold zlen; lia|]. rewrite ER.
  destruct MR as [(F & -> & SH & CL)|(-> & _)]; [right|left; reflexivity]. exists M, fv, F. cbn [bind].
  destruct (HH M g nd D F MV HDD) as (_ & HP). specialize (HP (or_introl (ex_intro _ F (conj eq_refl (conj SH CL))))).
  assert (LM : length F = Z.to_nat (dim_H (Z.of_nat n) d)). { rewrite (proj1 SH). unfold zlen in LD. lia. }
  assert (Podd : Z.odd p = true). { destruct (Z.odd p) eqn:O; auto. exfalso. rewrite <- Z.negb_even in O. apply negb_false_iff in O. apply Z.even_spec in O. destruct O as (k & ->).
    destruct (prime_divisors (2 * k) Pp 2 ltac:(exists k; ring)) as [X|[X|[X|X]]]; lia. }
  pose proof (default_dims _ _ _ _ HA) as (D1 & _).
  replace (n - 1)%nat with (Z.to_nat (Z.of_nat n - 1)) by lia.
  rewrite (C16_lift_unambiguous p (Z.of_nat n) d prec0 N0 cprec (length F) 1 P F p3 Podd HA); [reflexivity| | | | |reflexivity].
  - rewrite LM. rewrite Z2Nat.id; auto. unfold zlen in LD. lia.
  - rewrite LM. replace (Z.to_nat (Z.of_nat n - 1)) with (n - 1)%nat by lia. exact WP.
  - rewrite <- (proj1 SH) in SH. exact SH.
  - intros j Hj. apply HP. rewrite (weil_len _ _ _ _ _ WP). lia.
Qed.
Print Assumptions C63_result.

(** ** runs *)
Definition L1 : libs := mk_libs lu_inst gauss_inst inv_fast det_inst rnd1 0 (fun _ => 0%Q) (fun _ => []) (fun _ => []).
(** the coefficients of a cubic curve in the order of the monomials, and the files *)
Definition cubic_vec (f : poly) : list Z := map (fun e => coef f e) (enum 3 3).
Definition cubic_file (f : poly) : text := general_file 17 1 2 3 (cubic_vec f) [0; 1] [3; 1; 1] ++ newline.
Definition shown (r : res output) : res (list Z * list Z * mat * Z) := o <- r ;; OK (o_f o, o_cp o, o_M o, o_rank o).

(** degenerate, non-degenerate, and not smooth; the numbers of points are those of
    C54_ex.  A single attempt is made to find a change of variables. *)
Example C63_runs :
  shown (frob_main L1 (Some 1) (cubic_file ec17)) = OK (map (fun c => c mod 17) (cubic_vec ec17), [17; -1; 1], mzero 3 3, 0) /\
  shown (frob_main L1 (Some 1) (cubic_file hesse)) = OK (cubic_vec hesse, [17; -6; 1], ident 3, 0) /\
  frob_main L1 (Some 1) (cubic_file cusp) = Err EAbort.
Proof. split; [|split]; vm_compute; reflexivity. Qed.
(** these files satisfy the hypotheses of [C63_general] *)
Example C63_ex_hyps : prime 17 /\ libs_ok 17 2 L1 /\ (exists a, default_args 17 2 3 = OK a) /\ count_nl newline = 1%nat /\
  length (cubic_vec ec17) = length (enum 3 3) /\ (exists c, In c (cubic_vec ec17) /\ ~ (17 | c)) /\
  zlen [3; 1; 1] = dim_H 2 3 + 1 /\ length [0; 1] = 2%nat /\ (forall x, In x [0; 1] -> x <= 28).
Proof.
  destruct C54_ex_hyps as (H1 & H2 & H3 & H4 & H5 & _ & _ & _ & _ & H6). split; auto. split; [split; [exact H2|split; [exact H3|split; [exact H4|split; [exact H5|exact H6]]]]|].
  split; [eexists; reflexivity|]. split; auto. split; auto. split; [exists (-3); split; [vm_compute; tauto|]|].
  - intros (k & Hk). lia.
  - split; auto. split; auto. intros x [<-|[<-|[]]]; lia.
Qed.

(** the absolute precision is not compared with the precision of the matrix: with
    the matrix modulo 17, the precisions 17^2 and the curve with 19 points, no
    assertion fails and the polynomial that is written has the wrong constant term
    (the input file example_quartic_curve_modp.input has precisions of this kind) *)
Definition twist : poly := [([0; 0; 3], -13); ([0; 2; 1], 1); ([1; 0; 2], -9); ([3; 0; 0], -1)].
Theorem C63_precision_refuted : exists o o',
  frob_main L1 (Some 0) (general_file 17 1 2 3 (cubic_vec twist) [0; 1] [3; 1; 1] ++ newline) = OK o /\ o_cp o = [17; 1; 1] /\
  frob_main L1 (Some 0) (general_file 17 1 2 3 (cubic_vec twist) [0; 1] [2; 2; 2] ++ newline) = OK o' /\ nth 0 (o_cp o') 0 = 39321 /\
  points twist 17 = 17 + 1 + 1.
Proof. eexists. eexists. split; [vm_compute; reflexivity|]. split; [reflexivity|]. split; [vm_compute; reflexivity|]. split; vm_compute; reflexivity. Qed.
Print Assumptions C63_precision_refuted.
