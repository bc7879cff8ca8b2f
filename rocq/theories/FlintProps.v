(** Property C61: the rectangles of the finite differences, and what they cost
    zeta_function. *)
From Coq Require Import ZArith List Bool Lia Znumtheory.
From Verif Require Import Base VecModel VecSpec VecProofs ToolsModel ToolsSpec ToolsProofs PolyProofs MatModel MatProofs FdModel FdSpec FdProofs DRModel DRSpec DRProofs DRRed NDRed
  FrobModel FrobSpec FrobTop FrobProps NDModel NDSpec NDBasis NDPoly NDProps FrobNDModel FrobND FrobNDTop FrobNDProps LinAlg SolveModel SolveSpec SolveProofs SolveProps SmoothProofs
  LuInst LuFast ChangeModel ChangeSpec ChangeProofs ChangeFind ChangeProps ArgsModel ArgsProofs CharModel CharSpec CharProps ZetaModel ZetaProofs ZetaProps RunModel HilbCode HilbProps RunProofs RunProps.
Import ListNotations.
Open Scope Z_scope.

(** C61: with the subtraction of whole matrices, which is commented out in the
    source, the finite differences are right for every matrix polynomial that is not
    zero *)
Theorem C61_full_subtraction : forall q d M k G, 2 <= q -> mp_ok q d M ->
  (exists e i j, nth j (nth i (nth e M []) []) 0 <> 0) ->
  zlen M - 1 < k <= q -> length G = d -> (forall x, In x G -> 0 <= x < q) ->
  finitediff_full q M k G = OK (map (fun x => x mod q) (mp_product d M (Z.to_nat k) G)).
Proof. exact finitediff_full_ok. Qed.
Print Assumptions C61_full_subtraction.

(** C61: and so are they if rectangle j contains the rectangles of the later
    coefficients *)
Theorem C61_joined_rectangles : forall q d M k G, 2 <= q -> mp_ok q d M ->
  (exists e i j, nth j (nth i (nth e M []) []) 0 <> 0) ->
  zlen M - 1 < k <= q -> length G = d -> (forall x, In x G -> 0 <= x < q) ->
  finitediff_joined q M k G = OK (map (fun x => x mod q) (mp_product d M (Z.to_nat k) G)).
Proof. exact finitediff_joined_ok. Qed.
Print Assumptions C61_joined_rectangles.

(** C61: for nested coefficients the rectangles of the source do no harm *)
Theorem C61_nested_same : forall q d M k G, 2 <= q -> mp_ok q d M -> nested M ->
  (exists e i j, nth j (nth i (nth e M []) []) 0 <> 0) ->
  zlen M - 1 < k <= q -> length G = d -> (forall x, In x G -> 0 <= x < q) ->
  finitediff q M k G = finitediff_joined q M k G.
Proof. intros. now rewrite (finitediff_ok q d), (finitediff_joined_ok q d). Qed.
Print Assumptions C61_nested_same.

(** C61: with the enlarged rectangles the FLINT routine makes k single steps, for
    every object and every u, v; compare [C36_flint_equals_steps] *)
Theorem C61_flint_equals_steps : forall slv q p prec f N,
  init_ND slv q p prec f = OK N -> wf_poly (r_n (nd_dr N)) (r_d (nd_dr N)) f -> solver_ok q slv -> 2 <= q ->
  (1 <= r_n (nd_dr N))%nat ->
  forall u v, length u = S (r_n (nd_dr N)) -> (r_d (nd_dr N) | zsum u) ->
  is_tuple (S (r_n (nd_dr N))) (r_d (nd_dr N)) v ->
  exists Ps, get_ND_poly_flint slv N u v = OK Ps /\
  forall k G, length G = length (nd_basis N) ->
  2 ^ 64 <= q \/ (Z.of_nat k <= Z.of_nat (r_n (nd_dr N)) + 1 /\ Z.of_nat k <= q) \/
    (2 <= q /\ Z.of_nat k <= q /\ (forall x, In x G -> 0 <= x < q) /\ exists e i j, nth j (nth i (nth e Ps []) []) 0 <> 0) ->
  exists A B, reduce_vector_ND_poly_flint_joined (r_n (nd_dr N)) q Ps (Z.of_nat k) G = OK A /\
    steps_down_ND slv N u v k G = OK B /\ length B = length (nd_basis N) /\ vcong q A B.
Proof.
  intros slv q p prec f N H W. destruct (init_ND_inv _ _ _ _ _ _ H W) as (inv & <- & _).
  intros Hs Hq Hn u v Lu Du Hv.
  destruct (reduce_vector_ND_poly_flint_joined_ok slv N inv Hs v Hv Hn Hq u) as (Ps & E & _ & _ & X); auto.
  exists Ps. auto.
Qed.
Print Assumptions C61_flint_equals_steps.

(** the two polynomials of C34 *)
Example C61_ex : mp_ok 9 1 [[[4]]; [[0]]; [[1]]] /\
  finitediff 9 [[[4]]; [[0]]; [[1]]] 6 [1] = OK [7] /\
  map (fun x => x mod 9) (mp_product 1 [[[4]]; [[0]]; [[1]]] 6 [1]) = [4] /\
  finitediff_full 9 [[[4]]; [[0]]; [[1]]] 6 [1] = OK [4] /\ finitediff_joined 9 [[[4]]; [[0]]; [[1]]] 6 [1] = OK [4] /\
  finitediff 11 [[[4]]; [[0]]; [[1]]] 6 [1] = Err EAssert /\
  finitediff_full 11 [[[4]]; [[0]]; [[1]]] 6 [1] = OK [8] /\ finitediff_joined 11 [[[4]]; [[0]]; [[1]]] 6 [1] = OK [8].
Proof.
  split; [|vm_compute; repeat split].
  intros A HA. cbn in HA. repeat destruct HA as [<-|HA]; [..|destruct HA]; (split; [reflexivity|]);
      intros r Hr; destruct Hr as [<-|[]]; (split; [reflexivity|]); intros x [<-|[]]; lia.
Qed.

(** ** diagonal cubics *)
Definition fer (a b c : Z) : poly := [([0; 0; 3], a); ([0; 3; 0], b); ([3; 0; 0], c)].
Definition fslv (p prec : Z) : solver := padic_solver lu_inst inv_fast p (p ^ prec) prec.
Lemma fer_wf a b c : wf_poly 2 3 (fer a b c).
Proof. wf_ex. Qed.
Lemma prime_7 : prime 7.
Proof. apply prime_intro; [lia|]. intros m Hm. apply Zgcd_1_rel_prime.
  assert (C : forallb (fun m => Z.gcd (Z.of_nat m) 7 =? 1) (seq 1 6) = true) by reflexivity. rewrite forallb_forall in C.
  specialize (C (Z.to_nat m) ltac:(apply in_seq; lia)). rewrite Z2Nat.id in C by lia. now apply Z.eqb_eq. Qed.
Lemma fer_tl : exists tl, init_tuples 2 3 = OK tl.
Proof. apply init_tuples_total. lia. Qed.
Lemma fer_smooth p q a b c : prime p -> (p | q) -> is_nd lu_inst p q (fer a b c) = OK true -> is_smooth lu_inst p q (fer a b c) = OK true ->
  smooth p 2 3 (fer a b c) /\ non_degenerate p 2 3 (fer a b c).
Proof.
  intros P Hpq E1 E2. destruct fer_tl as (tl & Htl). split.
  - destruct (is_smooth_ok p q lu_inst (fer a b c) 2 3 tl P Hpq (lu_inst_spec p P) ltac:(discriminate) (fer_wf a b c) ltac:(lia) Htl) as (x & E & X).
    rewrite E in E2. injection E2 as ->. exact (proj1 X eq_refl).
  - destruct (C47_isND p q lu_inst (fer a b c) 2 3 tl P Hpq (lu_inst_spec p P) ltac:(lia) Htl ltac:(discriminate) (fer_wf a b c)) as (x & E & X).
    rewrite E in E1. injection E1 as ->. exact (proj1 X eq_refl).
Qed.

Definition run_hyps (lu gauss : ech_fun) (inv : inv_fun) (det : Z -> nat -> mat -> Z) (rnd : nat -> list mat * nat) (n : nat) (d : Z) (f : poly) (p : Z) : Prop :=
  prime p /\ 3 <= p /\ ech_spec p lu /\ ech_spec p gauss /\ inv_spec p inv /\ det_spec p det /\ f <> [] /\ wf_poly n d f /\
  (forall i, (snd (rnd i) < S n)%nat /\ Forall (fun A => shape A (S n) (S n) /\ mreduced p A) (fst (rnd i)) /\
    Exists (invertible p (S n)) (fst (rnd i))).
Lemma fer_hyps p a b c : prime p -> 3 <= p -> run_hyps lu_inst gauss_inst inv_fast det_inst rnd1 2 3 (fer a b c) p.
Proof.
  intros P p3. split; [exact P|]. split; [exact p3|]. split; [now apply lu_inst_spec|]. split; [now apply gauss_inst_spec|]. split; [now apply inv_fast_ok|]. split; [apply det_inst_spec; lia|].
  split; [discriminate|]. split; [apply fer_wf|]. intros i. split; [cbn; lia|]. split.
  - constructor; [|constructor]. split; [repeat constructor|]. repeat constructor; lia.
  - left. exists (mget [[1; 0; 0]; [0; 1; 0]; [0; 0; 1]]). intros r s Hr Hs. apply cong_iff_mod; [lia|].
    assert (C : forallb (fun a => forallb (fun b => mm 3 (mget [[1; 0; 0]; [0; 1; 0]; [0; 0; 1]]) (mget [[1; 0; 0]; [0; 1; 0]; [0; 0; 1]]) a b =? delta a b) (seq 0 3)) (seq 0 3) = true) by reflexivity.
    rewrite forallb_forall in C. specialize (C r ltac:(apply in_seq; lia)). rewrite forallb_forall in C. specialize (C s ltac:(apply in_seq; lia)). apply Z.eqb_eq in C. now rewrite C.
Qed.

(** "zeta_function with the default arguments returns for every smooth
    non-degenerate hypersurface in its tables" is false: for the Fermat cubic over
    F_17 the final assertion of finitediff_flint_nmod fails.  The other method
    returns the matrix, and from it the right polynomial T^2 + 17 (18 points). *)
Theorem C61_fermat_cubic_refuted : exists lu gauss inv det rnd n d f p prec N cprec,
  run_hyps lu gauss inv det rnd n d f p /\ smooth p n d f /\ non_degenerate p n d f /\
  zeta_args p (Z.of_nat n) d 0 false = OK (prec, N, cprec, true) /\
  zeta_function lu gauss inv det rnd f p 0 false false = Err EAssert /\
  exists M, frob_of (padic_solver lu inv p (p ^ prec) prec) (p ^ prec) p prec n (poly_mod (p ^ prec) f) false N cprec = OK M /\
    zeta_finish p (Z.of_nat n) 0 true M cprec = OK [p; 0; 1] /\ points f (Z.to_nat p) = p + 1.
Proof.
  exists lu_inst, gauss_inst, inv_fast, det_inst, rnd1, 2%nat, 3, (fer 1 1 1), 17, 1, [0; 1], [3; 1; 1].
  split; [apply fer_hyps; [exact prime_17|lia]|].
  destruct (fer_smooth 17 17 1 1 1 prime_17 (Z.divide_refl _)) as (A & B); [vm_compute; reflexivity|vm_compute; reflexivity|].
  split; [exact A|]. split; [exact B|]. split; [vm_compute; reflexivity|]. split; [vm_compute; reflexivity|].
  exists [[0; 16]; [0; 0]]. split; [vm_compute; reflexivity|]. split; vm_compute; reflexivity.
Qed.
Print Assumptions C61_fermat_cubic_refuted.

(** "what zeta_function returns modulo p^abs is the polynomial of the number of
    points" is false: for 2x^3 + y^3 + 3z^3 over F_7 (9 points) and abs = 1 it returns
    T^2 + 2T instead of T^2 + T modulo 7; the other method is right *)
Theorem C61_wrong_value_refuted : exists lu gauss inv det rnd n d f p prec N cprec lift c M,
  run_hyps lu gauss inv det rnd n d f p /\ smooth p n d f /\ non_degenerate p n d f /\
  zeta_args p (Z.of_nat n) d 1 false = OK (prec, N, cprec, lift) /\
  zeta_function lu gauss inv det rnd f p 1 false false = OK ([0; c; 1], M) /\
  ~ cong p c (points f (Z.to_nat p) - (p + 1)) /\
  exists M' c', frob_of (padic_solver lu inv p (p ^ prec) prec) (p ^ prec) p prec n (poly_mod (p ^ prec) f) false N cprec = OK M' /\
    zeta_finish p (Z.of_nat n) 1 lift M' cprec = OK [0; c'; 1] /\ cong p c' (points f (Z.to_nat p) - (p + 1)).
Proof.
  exists lu_inst, gauss_inst, inv_fast, det_inst, rnd1, 2%nat, 3, (fer 3 1 2), 7, 1, [0; 1], [2; 2; 2], false, 2, [[0; 0]; [0; 5]].
  split; [apply fer_hyps; [exact prime_7|lia]|].
  destruct (fer_smooth 7 7 3 1 2 prime_7 (Z.divide_refl _)) as (A & B); [vm_compute; reflexivity|vm_compute; reflexivity|].
  split; [exact A|]. split; [exact B|]. split; [vm_compute; reflexivity|]. split; [vm_compute; reflexivity|].
  assert (E : points (fer 3 1 2) (Z.to_nat 7) - (7 + 1) = 1) by (vm_compute; reflexivity). rewrite E.
  split; [intros (k & Hk); lia|]. exists [[0; 0]; [0; 6]], 1. split; [vm_compute; reflexivity|]. split; [vm_compute; reflexivity|]. apply cong_refl.
Qed.
Print Assumptions C61_wrong_value_refuted.

(** so the condition on the words in [C60_zeta_matrix] cannot be dropped: the two
    branches of zeta_function give different matrices for the same polynomial *)
Theorem C61_branches_refuted : exists lu inv n d g p prec0 N0 cprec,
  prime p /\ 3 <= p /\ ech_spec p lu /\ inv_spec p inv /\ g <> [] /\ wf_poly n d g /\
  default_args p (Z.of_nat n) d = OK (prec0, N0, cprec) /\ non_degenerate p n d g /\
  let q := p ^ prec0 in
  let slv := padic_solver lu inv p q prec0 in
  exists M, frob_of slv q p prec0 n g false N0 cprec = OK M /\ frob_of slv q p prec0 n g true N0 cprec = Err EAssert.
Proof.
  exists lu_inst, inv_fast, 2%nat, 3, (fer 1 1 1), 17, 1, [0; 1], [3; 1; 1].
  split; [exact prime_17|]. split; [lia|]. split; [apply lu_inst_spec, prime_17|]. split; [apply inv_fast_ok, prime_17|]. split; [discriminate|]. split; [apply fer_wf|].
  split; [vm_compute; reflexivity|].
  split; [exact (proj2 (fer_smooth 17 17 1 1 1 prime_17 (Z.divide_refl _) ltac:(vm_compute; reflexivity) ltac:(vm_compute; reflexivity)))|].
  exists [[0; 16]; [0; 0]]. split; vm_compute; reflexivity.
Qed.
Print Assumptions C61_branches_refuted.
