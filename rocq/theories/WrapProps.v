(** C72: the inputs that come with the programs are read as they are meant, have
    the precisions of the table, and are smooth, so that no program refuses them. *)
From Coq Require Import Ascii String ZArith Znumtheory List Bool Lia QArith Setoid Morphisms Ring.
From Verif Require Import Base VecModel VecSpec ToolsModel ToolsSpec MatModel MatProofs DRModel DRSpec DRProofs FrobModel NDModel FrobNDModel NDSpec SolveModel SolveSpec LuInst LuFast
  SmoothProofs ChangeModel ChangeSpec ChangeProofs ChangeProps ArgsModel ArgsProofs CharModel CharSpec CharProps PicardModel IoModel ZetaModel ZetaProps RunModel RunProofs RunProps
  InvModel ExpModel ExModel ExSpec ExProps PtSpec PtProofs PtMain PtProps DwModel DwProps ChangeFind ExProofs ChangeFind  HilbProps WrapModel.
Import ListNotations.
Open Scope Z_scope.

(** ** the polynomials meant *)
Definition genus3_poly : poly := [([0; 0; 4], 2); ([0; 2; 2], 3); ([0; 4; 0], 2); ([1; 0; 3], -4); ([1; 1; 2], -3); ([1; 2; 1], -3);
  ([1; 3; 0], -4); ([2; 0; 2], 1); ([2; 1; 1], 3); ([2; 2; 0], 1); ([3; 0; 1], 1); ([3; 1; 0], 1)].
(** x^4 + x y^3 + z w^3 + x^3 y + z^3 w, as in the comment at
    examples/zeta_function_wrapper_K3.cc 15-19 *)
Definition K3_poly : poly := [([0; 0; 1; 3], 1); ([0; 0; 3; 1], 1); ([1; 3; 0; 0], 1); ([3; 1; 0; 0], 1); ([4; 0; 0; 0], 1)].
(** z^3 w - z w^3 + x^3 y - x y^3 modulo 5 *)
Definition surface_poly : poly := [([0; 0; 1; 3], 4); ([0; 0; 3; 1], 1); ([1; 3; 0; 0], 4); ([3; 1; 0; 0], 1)].
Definition curve_poly : poly := [([0; 0; 4], 1); ([0; 1; 3], 6); ([0; 2; 2], 15); ([0; 3; 1], 7); ([0; 4; 0], 1); ([1; 1; 2], 15);
  ([1; 2; 1], 16); ([1; 3; 0], 1); ([2; 0; 2], 5); ([2; 2; 0], 16); ([3; 1; 0], 14); ([4; 0; 0], 15)].

(** ** smoothness of the surfaces, by points over fields (C65) *)
Section Field.
  Variable F : fld.
  Notation "0f" := (f0 F). Notation "1f" := (f1 F).
  Infix "+f" := (fadd F) (at level 50, left associativity).
  Infix "*f" := (fmul F) (at level 40, left associativity).
  Infix "==" := (feq F) (at level 70).
  Existing Instance feq_E. Existing Instance fadd_P. Existing Instance fmul_P. Existing Instance fopp_P.
  Add Ring Fring3 : (f_ring F) (setoid (feq_equiv F) (f_reqe F)).
  Notation ofZ := (fofZ F).

  Lemma pow_zero a : fpow F a 5 == 0f -> ~ a == 0f -> False.
  Proof.
    intros H N. apply (f_inv F a N). intros (b & Hb). apply (f_one F).
    transitivity (fpow F (a *f b) 5).
    - cbn -[fadd fmul fopp f0 f1 feq car]. rewrite Hb. ring.
    - transitivity (fpow F a 5 *f fpow F b 5); [cbn -[fadd fmul fopp f0 f1 feq car]; ring|]. rewrite H. ring.
  Qed.
  Lemma K3xy1 x y z w : ofZ 23 == 0f -> feval F (partial K3_poly 0) [x; y; z; w] == 0f -> feval F (partial K3_poly 1) [x; y; z; w] == 0f -> fpow F x 5 == 0f.
  Proof.
    intros H0 H1 H2.
    transitivity ((ofZ (-2) *f x *f y +f ofZ (3) *f x *f x) *f feval F (partial K3_poly 0) [x; y; z; w] +f (ofZ (-7) *f y *f y +f ofZ (-1) *f x *f y +f ofZ (-11) *f x *f x) *f feval F (partial K3_poly 1) [x; y; z; w] +f ofZ 23 *f (ofZ (1) *f x *f y *f y *f y *f y +f ofZ (2) *f x *f x *f x *f y *f y)).
    - clear. cbv -[fadd fmul fopp f0 f1 feq car]. ring.
    - rewrite H0, H1, H2. ring.
  Qed.
  Lemma K3xy2 x y z w : ofZ 23 == 0f -> feval F (partial K3_poly 0) [x; y; z; w] == 0f -> feval F (partial K3_poly 1) [x; y; z; w] == 0f -> fpow F y 5 == 0f.
  Proof.
    intros H0 H1 H2.
    transitivity ((ofZ (1) *f y *f y +f ofZ (8) *f x *f y +f ofZ (-3) *f x *f x) *f feval F (partial K3_poly 0) [x; y; z; w] +f (ofZ (5) *f y *f y +f ofZ (-11) *f x *f x) *f feval F (partial K3_poly 1) [x; y; z; w] +f ofZ 23 *f (ofZ (-1) *f x *f y *f y *f y *f y +f ofZ (-1) *f x *f x *f x *f x *f y +f ofZ (1) *f x *f x *f x *f x *f x)).
    - clear. cbv -[fadd fmul fopp f0 f1 feq car]. ring.
    - rewrite H0, H1, H2. ring.
  Qed.
  Lemma K3zw1 x y z w : ofZ 23 == 0f -> feval F (partial K3_poly 2) [x; y; z; w] == 0f -> feval F (partial K3_poly 3) [x; y; z; w] == 0f -> fpow F z 5 == 0f.
  Proof.
    intros H0 H1 H2.
    transitivity ((ofZ (-4) *f z *f w) *f feval F (partial K3_poly 2) [x; y; z; w] +f (ofZ (9) *f w *f w +f ofZ (1) *f z *f z) *f feval F (partial K3_poly 3) [x; y; z; w] +f ofZ 23 *f (ofZ (-1) *f z *f w *f w *f w *f w)).
    - clear. cbv -[fadd fmul fopp f0 f1 feq car]. ring.
    - rewrite H0, H1, H2. ring.
  Qed.
  Lemma K3zw2 x y z w : ofZ 23 == 0f -> feval F (partial K3_poly 2) [x; y; z; w] == 0f -> feval F (partial K3_poly 3) [x; y; z; w] == 0f -> fpow F w 5 == 0f.
  Proof.
    intros H0 H1 H2.
    transitivity ((ofZ (1) *f w *f w +f ofZ (9) *f z *f z) *f feval F (partial K3_poly 2) [x; y; z; w] +f (ofZ (-4) *f z *f w) *f feval F (partial K3_poly 3) [x; y; z; w] +f ofZ 23 *f (ofZ (-1) *f z *f z *f z *f z *f w)).
    - clear. cbv -[fadd fmul fopp f0 f1 feq car]. ring.
    - rewrite H0, H1, H2. ring.
  Qed.
  Lemma Sxy1 x y z w : ofZ 5 == 0f -> feval F (partial surface_poly 0) [x; y; z; w] == 0f -> feval F (partial surface_poly 1) [x; y; z; w] == 0f -> fpow F x 5 == 0f.
  Proof.
    intros H0 H1 H2.
    transitivity ((ofZ (-2) *f x *f y) *f feval F (partial surface_poly 0) [x; y; z; w] +f (ofZ (-1) *f y *f y +f ofZ (1) *f x *f x) *f feval F (partial surface_poly 1) [x; y; z; w] +f ofZ 5 *f (ofZ (4) *f x *f y *f y *f y *f y +f ofZ (-1) *f x *f x *f x *f y *f y)).
    - clear. cbv -[fadd fmul fopp f0 f1 feq car]. ring.
    - rewrite H0, H1, H2. ring.
  Qed.
  Lemma Sxy2 x y z w : ofZ 5 == 0f -> feval F (partial surface_poly 0) [x; y; z; w] == 0f -> feval F (partial surface_poly 1) [x; y; z; w] == 0f -> fpow F y 5 == 0f.
  Proof.
    intros H0 H1 H2.
    transitivity ((ofZ (-1) *f y *f y +f ofZ (1) *f x *f x) *f feval F (partial surface_poly 0) [x; y; z; w] +f (ofZ (2) *f x *f y) *f feval F (partial surface_poly 1) [x; y; z; w] +f ofZ 5 *f (ofZ (1) *f y *f y *f y *f y *f y +f ofZ (-5) *f x *f x *f y *f y *f y +f ofZ (-1) *f x *f x *f x *f x *f y)).
    - clear. cbv -[fadd fmul fopp f0 f1 feq car]. ring.
    - rewrite H0, H1, H2. ring.
  Qed.
  Lemma Szw1 x y z w : ofZ 5 == 0f -> feval F (partial surface_poly 2) [x; y; z; w] == 0f -> feval F (partial surface_poly 3) [x; y; z; w] == 0f -> fpow F z 5 == 0f.
  Proof.
    intros H0 H1 H2.
    transitivity ((ofZ (-2) *f z *f w) *f feval F (partial surface_poly 2) [x; y; z; w] +f (ofZ (-1) *f w *f w +f ofZ (1) *f z *f z) *f feval F (partial surface_poly 3) [x; y; z; w] +f ofZ 5 *f (ofZ (4) *f z *f w *f w *f w *f w +f ofZ (-1) *f z *f z *f z *f w *f w)).
    - clear. cbv -[fadd fmul fopp f0 f1 feq car]. ring.
    - rewrite H0, H1, H2. ring.
  Qed.
  Lemma Szw2 x y z w : ofZ 5 == 0f -> feval F (partial surface_poly 2) [x; y; z; w] == 0f -> feval F (partial surface_poly 3) [x; y; z; w] == 0f -> fpow F w 5 == 0f.
  Proof.
    intros H0 H1 H2.
    transitivity ((ofZ (-1) *f w *f w +f ofZ (1) *f z *f z) *f feval F (partial surface_poly 2) [x; y; z; w] +f (ofZ (2) *f z *f w) *f feval F (partial surface_poly 3) [x; y; z; w] +f ofZ 5 *f (ofZ (1) *f w *f w *f w *f w *f w +f ofZ (-5) *f z *f z *f w *f w *f w +f ofZ (-1) *f z *f z *f z *f z *f w)).
    - clear. cbv -[fadd fmul fopp f0 f1 feq car]. ring.
    - rewrite H0, H1, H2. ring.
  Qed.
End Field.

Lemma four_zeros F x y z w : feq F (fpow F x 5) (f0 F) -> feq F (fpow F y 5) (f0 F) -> feq F (fpow F z 5) (f0 F) -> feq F (fpow F w 5) (f0 F) ->
  (exists i, (i <= 3)%nat /\ ~ feq F (nth i [x; y; z; w] (f0 F)) (f0 F)) -> False.
Proof.
  intros Hx Hy Hz Hw (i & Hi & N). destruct i as [|[|[|[|i]]]]; cbn [nth] in N; [now apply (pow_zero F x)|now apply (pow_zero F y)|now apply (pow_zero F z)|now apply (pow_zero F w)|lia].
Qed.

Ltac no_zero L1 L2 L3 L4 :=
  intros F Hp v (Hl & Hi & Hz); destruct v as [|x [|y [|z [|w [|t v]]]]]; try discriminate Hl;
  pose proof (Hz 0%nat ltac:(lia)) as Z0; pose proof (Hz 1%nat ltac:(lia)) as Z1; pose proof (Hz 2%nat ltac:(lia)) as Z2; pose proof (Hz 3%nat ltac:(lia)) as Z3;
  exact (four_zeros F x y z w (L1 F x y z w Hp Z0 Z1) (L2 F x y z w Hp Z0 Z1) (L3 F x y z w Hp Z2 Z3) (L4 F x y z w Hp Z2 Z3) Hi).

Lemma K3_wf : wf_poly 3 4 K3_poly.
Proof. wf_ex. Qed.
Lemma surface_wf : wf_poly 3 4 surface_poly.
Proof. wf_ex. Qed.
Lemma genus3_wf : wf_poly 2 4 genus3_poly.
Proof. wf_ex. Qed.
Lemma curve_wf : wf_poly 2 4 curve_poly.
Proof. wf_ex. Qed.

Lemma prime_23' : prime 23.
Proof. apply prime_intro; [lia|]. intros m Hm. apply Zgcd_1_rel_prime.
  assert (C : forallb (fun m => Z.gcd (Z.of_nat m) 23 =? 1) (seq 1 22) = true) by reflexivity. rewrite forallb_forall in C.
  specialize (C (Z.to_nat m) ltac:(apply in_seq; lia)). rewrite Z2Nat.id in C by lia. now apply Z.eqb_eq. Qed.
Lemma prime_5' : prime 5.
Proof. apply prime_intro; [lia|]. intros m Hm. apply Zgcd_1_rel_prime.
  assert (C : forallb (fun m => Z.gcd (Z.of_nat m) 5 =? 1) (seq 1 4) = true) by reflexivity. rewrite forallb_forall in C.
  specialize (C (Z.to_nat m) ltac:(apply in_seq; lia)). rewrite Z2Nat.id in C by lia. now apply Z.eqb_eq. Qed.

Lemma K3_smooth : smooth 23 3 4 K3_poly.
Proof.
  destruct tuples_3_4 as (tl & Htl). apply (C65_smooth 23 3 4 K3_poly tl prime_23' ltac:(discriminate) K3_wf ltac:(lia) Htl).
  no_zero K3xy1 K3xy2 K3zw1 K3zw2.
Qed.
Lemma surface_smooth : smooth 5 3 4 surface_poly.
Proof.
  destruct tuples_3_4 as (tl & Htl). apply (C65_smooth 5 3 4 surface_poly tl prime_5' ltac:(discriminate) surface_wf ltac:(lia) Htl).
  no_zero Sxy1 Sxy2 Szw1 Szw2.
Qed.
Lemma tuples_2_4 : exists tl, init_tuples 2 4 = OK tl.
Proof. apply init_tuples_total. reflexivity. Qed.
Lemma plane_smooth f : wf_poly 2 4 f -> f <> [] -> is_smooth lu_inst 17 17 f = OK true -> smooth 17 2 4 f.
Proof.
  intros W Hf E. destruct tuples_2_4 as (tl & Htl).
  destruct (is_smooth_ok 17 17 lu_inst f 2 4 tl prime_17 (Z.divide_refl _) (lu_inst_spec 17 prime_17) Hf W ltac:(lia) Htl) as (b & Eb & Hb).
  rewrite E in Eb. injection Eb as <-. exact (proj1 Hb eq_refl).
Qed.
Lemma genus3_smooth : smooth 17 2 4 genus3_poly.
Proof. apply plane_smooth; [exact genus3_wf|discriminate|vm_compute; reflexivity]. Qed.
Lemma curve_smooth : smooth 17 2 4 curve_poly.
Proof. apply plane_smooth; [exact curve_wf|discriminate|vm_compute; reflexivity]. Qed.

(** ** the two wrapper examples (and two of the three tests of test_zeta_function):
    the text is read as the polynomial meant, and for every linear algebra library
    that is right and all random values the polynomial is not refused *)
Definition accepted (input : text) (p : Z) (n : nat) (d : Z) (f : poly) : Prop :=
  zeta_input_text input = OK (p, f) /\ wf_poly n d f /\ smooth p n d f /\
  forall lu gauss inv det rnd, ech_spec p lu -> ech_spec p gauss -> inv_spec p inv -> det_spec p det ->
  (forall i, (snd (rnd i) < S n)%nat /\ Forall (fun A => shape A (S n) (S n) /\ mreduced p A) (fst (rnd i)) /\
    Exists (invertible p (S n)) (fst (rnd i))) ->
  exists prec N cprec g nd D, default_args p (Z.of_nat n) d = OK (prec, N, cprec) /\ let q := p ^ prec in let slv := padic_solver lu inv p q prec in
    chosen p q n d true f g nd /\ smooth p n d g /\ init slv q p prec g = OK D /\ Z.of_nat (length (r_basis D)) = dim_H (Z.of_nat n) d /\
    (nd = false \/ words_fine slv q p prec n d g N -> exists r, matrix_result q p n d g (r_basis D) N r /\
       wrapper_main lu gauss inv det rnd input = (Frob <- r ;; charpoly_frob Frob cprec p (n - 1))).

Lemma accepted_intro input p n d f : prime p -> 3 <= p -> f <> [] -> zeta_input_text input = OK (p, f) -> wf_poly n d f -> smooth p n d f ->
  (exists a, default_args p (Z.of_nat n) d = OK a) -> accepted input p n d f.
Proof.
  intros Pp p3 Hf HI W SM ([[prec N] cprec] & HA). split; [exact HI|]. split; [exact W|]. split; [exact SM|].
  intros lu gauss inv det rnd HL HG HV HD Hrnd.
  assert (HZ : zeta_args p (Z.of_nat n) d 0 true = OK (prec, N, cprec, true)) by (unfold zeta_args; rewrite HA; reflexivity).
  destruct (C54_zeta_function lu gauss inv det rnd n d f p 0 true true prec N cprec true Pp p3 ltac:(lia) HL HG HV HD Hf W HZ Hrnd) as [(NS & _)|(_ & g & nd & D & C & _ & SG & ED & LB & R)]; [now destruct NS|].
  exists prec, N, cprec, g, nd, D. split; [exact HA|]. cbv zeta. split; [exact C|]. split; [exact SG|]. split; [exact ED|].
  destruct (default_args_ok p _ d _ p3 HA) as (_ & _ & L3 & _). split; [unfold zlen in LB; lia|].
  intros WF. destruct (R WF) as (r & MR & ER). exists r. split; [exact MR|]. unfold wrapper_main. rewrite HI. cbn [bind fst snd]. unfold zeta_default. rewrite ER.
  destruct r as [M|e]; [|reflexivity]. cbn [bind]. unfold zeta_finish. replace (Z.to_nat (Z.of_nat n - 1)) with (n - 1)%nat by lia.
  destruct (charpoly_frob M cprec p (n - 1)); reflexivity.
Qed.

Theorem C72_genus3 : accepted genus3_in 17 2 4 genus3_poly.
Proof.
  apply accepted_intro; [exact prime_17|lia|discriminate|vm_compute; reflexivity|exact genus3_wf|exact genus3_smooth|eexists; vm_compute; reflexivity].
Qed.
Print Assumptions C72_genus3.
Theorem C72_K3 : accepted K3_in 23 3 4 K3_poly.
Proof.
  apply accepted_intro; [exact prime_23'|lia|discriminate|vm_compute; reflexivity|exact K3_wf|exact K3_smooth|eexists; vm_compute; reflexivity].
Qed.
Print Assumptions C72_K3.

(** ** the input files of examples/frob.cc *)
Definition file_accepted (s : text) (p prec : Z) (n : nat) (d : Z) (f : poly) (N cprec : list Z) : Prop :=
  forall L tries, libs_ok p n L ->
  exists v i M g nd fv D, let q := p ^ prec in let slv := padic_solver (l_lu L) (l_inv L) p q prec in
    lists (enum (S n) (Z.to_nat d)) v f /\ i = mk_input p prec (Z.of_nat n) d v N cprec /\ read_input s = OK i /\
    moved p n d f M g nd /\ smooth p n d g /\ init slv q p prec g = OK D /\ Z.of_nat (length (r_basis D)) = dim_H (Z.of_nat n) d /\
    (nd = false \/ words_fine slv q p prec n d g N -> exists r, matrix_result q p n d g (r_basis D) N r /\
       frob_main L tries s = (Frob <- r ;; cp <- charpoly_frob Frob cprec p (n - 1) ;; finish L i n M fv Frob cp)).

Lemma file_intro s p prec n d f v N cprec : prime p -> 3 <= p -> 1 <= prec -> read_input s = OK (mk_input p prec (Z.of_nat n) d v N cprec) ->
  (exists a, default_args p (Z.of_nat n) d = OK a) -> length v = length (enum (S n) (Z.to_nat d)) -> (forall x, In x v -> 0 <= x < p) -> (exists x, In x v /\ x <> 0) ->
  vector_poly (enum (S n) (Z.to_nat d)) v = f -> smooth p n d f ->
  length N = n -> (forall x, In x N -> x <= 28) -> Z.of_nat (length cprec) = dim_H (Z.of_nat n) d + 1 -> file_accepted s p prec n d f N cprec.
Proof.
  intros Pp p3 Hprec HR ([[prec0 N0] c0] & HA) LF RF NF <- SM LN BN LC L tries (HL & HG & HI & HD & Hrnd).
  set (i := mk_input p prec (Z.of_nat n) d v N cprec) in *. exists v, i.
  destruct (default_args_ok p (Z.of_nat n) d _ p3 HA) as (_ & _ & L3 & _).
  assert (L4 : zlen c0 = dim_H (Z.of_nat n) d + 1) by (unfold zlen; lia).
  set (t := match tries with Some t => t | None => in_p i * 100 end).
  destruct (f_facts i n prec0 N0 c0 HA LF RF NF) as (W & Li & Hf & _).
  destruct (compute_ok L t i n prec0 N0 c0 Pp p3 Hprec eq_refl HA HL HG HI HD Hrnd LF RF NF) as [(NS & E)|(_ & M & g & nd & fv & D & CA & Wg & SG & Lf & HDD & LD & R)]; [now destruct NS|].
  exists M, g, nd, fv, D. cbv zeta. split; [exact Li|]. split; [reflexivity|]. split; [exact HR|]. split.
  { destruct CA as [(C1 & C2 & C3 & C4 & C5)|C]; [left|right; exact C]. split; auto. split; auto. split; auto. split; auto. eapply cov_substitutes; eauto. }
  split; [exact SG|]. split; [exact HDD|]. split; [unfold zlen in *; lia|]. intros WF.
  destruct (R LN BN WF) as (_ & R2). destruct R2 as (r & MR & Er); [cbn [in_cprec i]; unfold zlen in *; lia|].
  exists r. split; [exact MR|]. unfold frob_main. rewrite HR. cbn [bind]. fold t. exact Er.
Qed.

(** the quartic curve: the precisions of the file are those of the table *)
Theorem C72_curve : default_args 17 2 4 = OK (3, [2; 2], [4; 3; 2; 2; 2; 2; 2]) /\
  file_accepted curve_file 17 3 2 4 curve_poly [2; 2] [4; 3; 2; 2; 2; 2; 2].
Proof.
  split; [vm_compute; reflexivity|]. apply (file_intro _ _ _ _ _ _ [1; 6; 15; 7; 1; 0; 15; 16; 1; 5; 0; 16; 0; 14; 15]); try exact prime_17; try exact curve_smooth; try lia; try (vm_compute; reflexivity).
  - eexists; vm_compute; reflexivity.
  - intros x Hx; cbn in Hx; lia.
  - exists 1. split; [now left|lia].
  - intros x Hx; cbn in Hx; lia.
Qed.
Print Assumptions C72_curve.

(** the same curve modulo 17: the precisions N and the working precision are smaller
    than those of the table, the absolute precisions are the same *)
Theorem C72_curve_modp : file_accepted curve_modp_file 17 1 2 4 curve_poly [0; 1] [4; 3; 2; 2; 2; 2; 2].
Proof.
  apply (file_intro _ _ _ _ _ _ [1; 6; 15; 7; 1; 0; 15; 16; 1; 5; 0; 16; 0; 14; 15]); try exact prime_17; try exact curve_smooth; try lia; try (vm_compute; reflexivity).
  - eexists; vm_compute; reflexivity.
  - intros x Hx; cbn in Hx; lia.
  - exists 1. split; [now left|lia].
  - intros x Hx; cbn in Hx; lia.
Qed.
Print Assumptions C72_curve_modp.

(** the quartic surface *)
Theorem C72_surface : default_args 5 3 4 = OK (9, [4; 5; 5], [23; 22; 21; 20; 19; 18; 17; 16; 15; 14; 13; 12; 11; 10; 9; 8; 7; 6; 5; 4; 4; 4]) /\
  file_accepted surface_file 5 9 3 4 surface_poly [4; 5; 5] [23; 22; 21; 20; 19; 18; 17; 16; 15; 14; 13; 12; 11; 10; 9; 8; 7; 6; 5; 4; 4; 4].
Proof.
  split; [vm_compute; reflexivity|].
  apply (file_intro _ _ _ _ _ _ [0; 4; 0; 1; 0; 0; 0; 0; 0; 0; 0; 0; 0; 0; 0; 0; 0; 0; 0; 0; 0; 0; 0; 0; 4; 0; 0; 0; 0; 0; 0; 0; 0; 1; 0]); try exact prime_5'; try exact surface_smooth; try lia; try (vm_compute; reflexivity).
  - eexists; vm_compute; reflexivity.
  - intros x Hx; cbn in Hx; lia.
  - exists 4. split; [right; now left|lia].
  - intros x Hx; cbn in Hx; lia.
Qed.
Print Assumptions C72_surface.

(** the polynomial of test_dwork is the member 1 of the pencil of C64; it is smooth
    and even non-degenerate, so that it is used as it is *)
Theorem C72_dwork : zeta_input_vectors dwork_mon dwork_coef = OK (quartic 1) /\ smooth 23 3 4 (quartic 1) /\ non_degenerate 23 3 4 (quartic 1).
Proof.
  split; [vm_compute; reflexivity|]. destruct (C64_smooth 23 1 prime_23' ltac:(lia)) as (A & B).
  assert (D : ~ (23 | 1 ^ 4 - 256)) by (intros K; apply Z.mod_divide in K; [vm_compute in K; discriminate|lia]).
  split; [now apply A|now apply B].
Qed.
Print Assumptions C72_dwork.

(** the hypotheses on the library and the random values in [C72_genus3] and
    [C72_curve] can be met *)
Example C72_ex_hyps : ech_spec 17 lu_inst /\ ech_spec 17 gauss_inst /\ inv_spec 17 inv_fast /\ det_spec 17 det_inst /\
  forall i, (snd (rnd1 i) < 3)%nat /\ Forall (fun A => shape A 3 3 /\ mreduced 17 A) (fst (rnd1 i)) /\ Exists (invertible 17 3) (fst (rnd1 i)).
Proof.
  destruct C54_ex_hyps as (_ & A & B & C & D & _ & _ & _ & _ & E). auto.
Qed.
(** a text with a mistake, a bracket left out, is not read *)
Example C72_read_ex : zeta_input_text (lines ["17"%string; "[[1 2 1] [2 0 2]"%string; "[-3 1]"%string]) = Err EAbort.
Proof. vm_compute. reflexivity. Qed.
