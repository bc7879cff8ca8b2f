(** C56: what the self-tests of the reduction routines return. *)
From Coq Require Import ZArith List Bool Lia Znumtheory.
From Verif Require Import Base VecModel VecSpec VecProofs ToolsModel ToolsSpec MatModel MatProofs DRModel DRSpec DRProofs DRRed DRPath NDModel NDSpec NDRed NDBasis FrobModel FrobTop
  TestModel UniqCode TestProofs TestBasis UniqProps DRLemmas NDProps.
Import ListNotations.
Open Scope Z_scope.

Lemma init_rem slv q p prec f D : init slv q p prec f = OK D -> prime p -> ~ (p | r_d D).
Proof.
  unfold init. destruct f as [|[a0 c0] f]; [discriminate|].
  intros H Pp. repeat (apply bind_ok in H; destruct H as (? & ? & H)). injection H as <-. cbn [r_d]. intros Dv. apply Z.rem_divide in Dv; [|pose proof (prime_ge_2 p Pp); lia].
  repeat match goal with X : check _ _ = OK _ |- _ => unfold check in X end.
  match goal with X : context [Z.rem _ _] |- _ => rewrite Dv in X; discriminate end.
Qed.

(** C56, the test that reduces a random form along random paths: whatever the
    random numbers, it never reports a failure, never fails an assertion and never
    has undefined behaviour.  The only way not to return is to be waiting for more
    random numbers, and then there are some that make it return. *)
Theorem C56_test_paths_J : forall slv p prec f D,
  init slv (p ^ prec) p prec f = OK D -> wf_poly (r_n D) (r_d D) f -> solver_ok (p ^ prec) slv -> prime p -> 1 <= prec -> (1 <= r_n D)%nat ->
  forall trials paths, 0 < trials -> 0 < paths -> forall rs,
  (exists rest, test_paths_J slv D trials paths rs = OK (true, rest)) \/
  (test_paths_J slv D trials paths rs = Err EFuel /\ exists more, test_paths_J slv D trials paths (rs ++ more) = OK (true, [])).
Proof.
  intros slv p prec f D H W Hs Pp Hprec Hn trials paths H1 H2 rs. destruct (init_inv _ _ _ _ _ _ H W) as (inv & Eq & _).
  destruct (live_outcome _ _ (test_paths_J_live p prec slv D Pp Hprec inv Eq Hs Hn trials paths H1 H2) rs) as [(x & rest & -> & E)|(E & more & x & -> & E')]; [left|right]; eauto.
Qed.
Print Assumptions C56_test_paths_J.

Theorem C56_test_paths_ND : forall slv p prec f N,
  init_ND slv (p ^ prec) p prec f = OK N -> wf_poly (r_n (nd_dr N)) (r_d (nd_dr N)) f -> solver_ok (p ^ prec) slv -> prime p -> 1 <= prec -> (1 <= r_n (nd_dr N))%nat ->
  forall trials paths, 0 < trials -> 0 < paths -> forall rs,
  (exists rest, test_paths_ND slv N trials paths rs = OK (true, rest)) \/
  (test_paths_ND slv N trials paths rs = Err EFuel /\ exists more, test_paths_ND slv N trials paths (rs ++ more) = OK (true, [])).
Proof.
  intros slv p prec f N H W Hs Pp Hprec Hn trials paths H1 H2 rs. destruct (init_ND_inv _ _ _ _ _ _ H W) as (inv & Eq & _).
  destruct (live_outcome _ _ (test_paths_ND_live p prec slv N Pp Hprec inv Eq Hs Hn trials paths H1 H2) rs) as [(x & rest & -> & E)|(E & more & x & -> & E')]; [left|right]; eauto.
Qed.
Print Assumptions C56_test_paths_ND.

(** the other arguments: the test for the Jacobian ideal asserts that both numbers
    are positive; the other test asserts that they are not zero, so that it accepts
    a negative number of attempts (and does nothing) and aborts on a negative
    number of paths *)
Theorem C56_test_paths_arguments : forall slv D N trials paths rs,
  (trials <= 0 \/ paths <= 0 -> test_paths_J slv D trials paths rs = Err EAssert) /\
  (trials = 0 \/ paths = 0 -> test_paths_ND slv N trials paths rs = Err EAssert) /\
  (trials < 0 -> paths <> 0 -> test_paths_ND slv N trials paths rs = OK (true, rs)) /\
  (0 < trials -> paths < 0 -> test_paths_ND slv N trials paths rs = Err EAbort).
Proof.
  intros slv D N trials paths rs. unfold test_paths_J, test_paths_ND, dbind, dlift, check. cbv zeta. repeat split.
  - intros H. destruct (Z.ltb_spec 0 trials); cbn [bind fst snd]; auto. destruct (Z.ltb_spec 0 paths); cbn [bind fst snd]; auto. lia.
  - intros H. destruct (Z.eqb_spec trials 0); cbn [bind fst snd negb]; auto. destruct (Z.eqb_spec paths 0); cbn [bind fst snd negb]; auto. lia.
  - intros H1 H2. destruct (Z.eqb_spec trials 0); [lia|]. destruct (Z.eqb_spec paths 0); [lia|]. destruct (Z.ltb_spec trials 0); [|lia]. cbn [bind fst snd negb orb].
    replace (Z.to_nat trials) with O by lia. reflexivity.
  - intros H1 H2. destruct (Z.eqb_spec trials 0); [lia|]. destruct (Z.eqb_spec paths 0); [lia|]. destruct (Z.ltb_spec trials 0); [lia|]. destruct (Z.ltb_spec 0 paths); [lia|]. reflexivity.
Qed.
Print Assumptions C56_test_paths_arguments.

(** C56, the test that writes f^i x^b Omega / f^(m+i) in the basis, for i <= N: it
    returns true for as long as the factorials fit in 64 bits, i.e. as long as no
    basis element has a pole of order larger than 21 - N; otherwise the product
    overflows, which is undefined behaviour *)
Theorem C56_test_monomial_to_basis_J : forall slv p prec f D,
  init slv (p ^ prec) p prec f = OK D -> wf_poly (r_n D) (r_d D) f -> solver_ok (p ^ prec) slv -> prime p -> 1 <= prec -> (1 <= r_n D)%nat ->
  forall N, 0 <= N ->
  ((forall b, In b (r_basis D) -> pole_of (r_n D) (r_d D) b + N <= 21) -> test_monomial_to_basis_J slv D N = OK true) /\
  ((exists b, In b (r_basis D) /\ 21 < pole_of (r_n D) (r_d D) b + N) -> test_monomial_to_basis_J slv D N = Err EUB).
Proof.
  intros slv p prec f D H W Hs Pp Hprec Hn N HN. destruct (init_inv _ _ _ _ _ _ H W) as (inv & Eq & _).
  assert (Hs' : solver_ok (r_q D) slv) by (now rewrite Eq). assert (Hq : 2 <= r_q D) by (apply (q_two p prec D Pp Hprec Eq)).
  pose proof (test_mtb_ok p prec slv D (monomial_to_basis_J slv D) Pp Hprec inv Eq Hs Hn (init_rem _ _ _ _ _ _ H Pp) (mtb_ok slv D inv Hs' Hq Hn) N HN) as T.
  unfold test_monomial_to_basis_J. rewrite T. split.
  - intros A. rewrite (proj2 (forallb_forall _ _)); [reflexivity|]. intros b Hb. apply Z.leb_le. auto.
  - intros (b & Hb & B). destruct (forallb _ _) eqn:E; [|reflexivity]. rewrite forallb_forall in E. specialize (E b Hb). apply Z.leb_le in E. lia.
Qed.
Print Assumptions C56_test_monomial_to_basis_J.

Theorem C56_test_monomial_to_basis_ND : forall slv p prec f X,
  init_ND slv (p ^ prec) p prec f = OK X -> wf_poly (r_n (nd_dr X)) (r_d (nd_dr X)) f -> solver_ok (p ^ prec) slv -> prime p -> 1 <= prec -> (1 <= r_n (nd_dr X))%nat ->
  forall N, 0 <= N ->
  ((forall b, In b (r_basis (nd_dr X)) -> pole_of (r_n (nd_dr X)) (r_d (nd_dr X)) b + N <= 21) -> test_monomial_to_basis_ND slv X N = OK true) /\
  ((exists b, In b (r_basis (nd_dr X)) /\ 21 < pole_of (r_n (nd_dr X)) (r_d (nd_dr X)) b + N) -> test_monomial_to_basis_ND slv X N = Err EUB).
Proof.
  intros slv p prec f X H W Hs Pp Hprec Hn N HN. destruct (init_ND_inv _ _ _ _ _ _ H W) as (ninv & Eq & _).
  assert (Hs' : solver_ok (r_q (nd_dr X)) slv) by (now rewrite Eq). assert (Hq : 2 <= r_q (nd_dr X)) by (apply (q_two p prec (nd_dr X) Pp Hprec Eq)).
  assert (Hd : ~ (p | r_d (nd_dr X))).
  { clear - H Pp. unfold init_ND in H. apply bind_ok in H. destruct H as (D & H1 & H). do 4 (apply bind_ok in H; destruct H as (? & _ & H)). injection H as <-. exact (init_rem _ _ _ _ _ _ H1 Pp). }
  pose proof (test_mtb_ok p prec slv (nd_dr X) (monomial_to_basis_ND slv X) Pp Hprec (ni_dr _ _ ninv) Eq Hs Hn Hd (mtb_ND_ok slv X ninv Hs' Hq Hn) N HN) as T.
  unfold test_monomial_to_basis_ND. rewrite T. split.
  - intros A. rewrite (proj2 (forallb_forall _ _)); [reflexivity|]. intros b Hb. apply Z.leb_le. auto.
  - intros (b & Hb & B). destruct (forallb _ _) eqn:E; [|reflexivity]. rewrite forallb_forall in E. specialize (E b Hb). apply Z.leb_le in E. lia.
Qed.
Print Assumptions C56_test_monomial_to_basis_ND.

(** negative N *)
Theorem C56_test_monomial_to_basis_negative : forall slv D X,
  (forall N, N < -1 -> test_monomial_to_basis_J slv D N = Err EAbort /\ test_monomial_to_basis_ND slv X N = Err EAbort) /\
  test_monomial_to_basis_J slv D (-1) = Err EUB /\ test_monomial_to_basis_ND slv X (-1) = Err EUB.
Proof.
  intros slv D X. split; [|split; reflexivity]. intros N HN. unfold test_monomial_to_basis_J, test_monomial_to_basis_ND, test_mtb, check.
  destruct (Z.leb_spec (-1) N); [lia|]. split; reflexivity.
Qed.
Print Assumptions C56_test_monomial_to_basis_negative.

(** the cubic of C55 over Z/25: two random paths for one random form, with the
    random numbers left; N = 1 *)
Example C56_ex : test_paths_J ex5_slv (nd_dr ex5_N) 1 2 [0;3;5;1;2;1;2;2;1;1;1;0;2] = OK (true, [2;1;1;1;0;2]).
Proof. vm_compute. reflexivity. Qed.
Example C56_ex_ND : test_paths_ND ex5_slv ex5_N 1 2 [0;3;3;1;2;1;2;2;1;1;1;0;2;1;0;2;1;1;1;2;1;0;2;1;0] = OK (true, [1;0;2;1;0]).
Proof. vm_compute. reflexivity. Qed.
Example C56_ex_mtb : test_monomial_to_basis_J ex5_slv (nd_dr ex5_N) 1 = OK true /\ r_basis (nd_dr ex5_N) = [[0; 0; 0]; [3; 0; 0]] /\
  test_monomial_to_basis_ND ex_nslv ex_N 2 = OK true.
Proof. vm_compute. repeat split. Qed.

(** the claim "the test returns true for every N" is false: undefined behaviour *)
Theorem C56_test_always_true_refuted : exists slv p prec f D N, init slv (p ^ prec) p prec f = OK D /\ wf_poly (r_n D) (r_d D) f /\ solver_ok (p ^ prec) slv /\ prime p /\ 1 <= prec /\
  (1 <= r_n D)%nat /\ 0 <= N /\ test_monomial_to_basis_J slv D N = Err EUB.
Proof.
  destruct C55_ex_hyps as (H1 & H2 & H3 & H4 & H5). exists ex5_slv, 5, 2, ex5_f, (nd_dr ex5_N), 21.
  split; [exact H1|]. split; [exact H2|]. split; [exact H3|]. split; [exact H4|]. split; [discriminate|]. split; [exact H5|]. split; [discriminate|].
  refine (proj2 (C56_test_monomial_to_basis_J ex5_slv 5 2 ex5_f (nd_dr ex5_N) H1 H2 H3 H4 _ H5 21 _) _); [discriminate|discriminate|].
  exists [0; 0; 0]. split; vm_compute; auto.
Qed.
Print Assumptions C56_test_always_true_refuted.
