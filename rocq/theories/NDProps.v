(** Properties C35 to C37: statements only. *)
From Coq Require Import ZArith List Lia Factorial.
From Verif Require Import Base VecModel VecSpec VecProofs ToolsModel ToolsSpec MatModel MatProofs DRModel DRSpec DRProofs
  DRRed DRStep DRFinal DRPath DRLemmas SolveModel SolveSpec LuInst SolveProofs SolveProps FdModel FdSpec
  NDModel NDSpec NDRed NDCol NDStep NDPoly NDBasis.
Import ListNotations.
Open Scope Z_scope.

(** C35, vector form over Z/q.  [u] is any integer vector whose sum is a multiple
    of d; its entries may be negative. *)
Theorem C35_reduce_vector_ND_preserves_class : forall slv q p prec f N,
  init_ND slv q p prec f = OK N -> wf_poly (r_n (nd_dr N)) (r_d (nd_dr N)) f -> solver_ok q slv ->
  (1 <= r_n (nd_dr N))%nat ->
  forall u v, length u = S (r_n (nd_dr N)) -> (r_d (nd_dr N) | zsum u) ->
  is_tuple (S (r_n (nd_dr N))) (r_d (nd_dr N)) v ->
  forall G, length G = length (nd_basis N) ->
  exists G', reduce_vector_ND slv N u v G = OK G' /\ length G' = length (nd_basis N) /\
    forall Phi, LGD q (r_n (nd_dr N)) (r_d (nd_dr N)) f u Phi ->
    cong q (ev_ND Phi u (nd_basis N) G') (ev_ND Phi (eplus u v) (nd_basis N) G).
Proof.
  intros slv q p prec f N H W. destruct (init_ND_inv _ _ _ _ _ _ H W) as (inv & <- & <-).
  intros Hs Hn u v Lu Du Hv G LG.
  now apply (reduce_vector_ND_class slv N inv Hs).
Qed.
Print Assumptions C35_reduce_vector_ND_preserves_class.

(** C35, vector form over Z *)
Theorem C35_reduce_vector_ND_ZZ_preserves_class : forall slv q p prec f N,
  init_ND slv q p prec f = OK N -> wf_poly (r_n (nd_dr N)) (r_d (nd_dr N)) f -> solver_ok q slv -> 2 <= q ->
  (1 <= r_n (nd_dr N))%nat ->
  forall u v, length u = S (r_n (nd_dr N)) -> (r_d (nd_dr N) | zsum u) ->
  is_tuple (S (r_n (nd_dr N))) (r_d (nd_dr N)) v ->
  forall G, length G = length (nd_basis N) ->
  exists G', reduce_vector_ND_ZZ slv N u v G = OK G' /\ length G' = length (nd_basis N) /\
    forall Phi, LGD q (r_n (nd_dr N)) (r_d (nd_dr N)) f u Phi ->
    cong q (ev_ND Phi u (nd_basis N) G') (ev_ND Phi (eplus u v) (nd_basis N) G).
Proof.
  intros slv q p prec f N H W. destruct (init_ND_inv _ _ _ _ _ _ H W) as (inv & <- & <-).
  intros Hs Hq Hn u v Lu Du Hv G LG.
  now apply (reduce_vector_ND_ZZ_class slv N inv Hs).
Qed.
Print Assumptions C35_reduce_vector_ND_ZZ_preserves_class.

(** C35, matrix form; r = q: Z/q, r = 0: Z *)
Theorem C35_reduction_matrix_ND_preserves_class : forall slv q p prec f N,
  init_ND slv q p prec f = OK N -> wf_poly (r_n (nd_dr N)) (r_d (nd_dr N)) f -> solver_ok q slv ->
  (1 <= r_n (nd_dr N))%nat ->
  forall r, (q | r) ->
  forall u v, length u = S (r_n (nd_dr N)) -> (r_d (nd_dr N) | zsum u) ->
  is_tuple (S (r_n (nd_dr N))) (r_d (nd_dr N)) v ->
  exists A, get_reduction_matrix_ND slv N r u v = OK A /\ shape A (length (nd_basis N)) (length (nd_basis N)) /\
    forall G, length G = length (nd_basis N) ->
    exists G', mat_vec r A G = OK G' /\ length G' = length (nd_basis N) /\
    forall Phi, LGD q (r_n (nd_dr N)) (r_d (nd_dr N)) f u Phi ->
    cong q (ev_ND Phi u (nd_basis N) G') (ev_ND Phi (eplus u v) (nd_basis N) G).
Proof.
  intros slv q p prec f N H W. destruct (init_ND_inv _ _ _ _ _ _ H W) as (inv & <- & <-).
  intros Hs Hn r Hr u v Lu Du Hv.
  now apply (get_reduction_matrix_ND_class slv N inv Hs).
Qed.
Print Assumptions C35_reduction_matrix_ND_preserves_class.

(** the functionals of C20 and C35 are related: one that kills the
    Griffiths-Dwork relations kills the logarithmic relations in W_u for u > 0 *)
Theorem C35_log_functionals : forall q n d f u phi, 1 <= d -> wf_poly n d f ->
  length u = S n -> positive u = true -> GD q n d f phi -> LGD q n d f u (log_of d phi).
Proof.
  intros q n d f u phi Hd W. apply GD_LGD; auto. intros a c Hin. now apply (proj2 W a c).
Qed.
Print Assumptions C35_log_functionals.

(** the conic over Z/9 with the solver of C18; the two sides are equal and not
    zero *)
Definition ex_nslv : solver := padic_solver lu_inst inv_inst 3 9 2.
Definition ex_N : dND :=
  match init_ND ex_nslv 9 3 2 ex_f with OK N => N | Err _ => mk_dND ex_D [] [] end.
Lemma ex_N_init : init_ND ex_nslv 9 3 2 ex_f = OK ex_N.
Proof. vm_compute. reflexivity. Qed.
Lemma ex_nslv_ok : solver_ok 9 ex_nslv.
Proof.
  apply (proj1 (C18_de_Rham_solver 3 2 lu_inst inv_inst Znumtheory.prime_3 ltac:(lia)
    (lu_inst_spec 3 Znumtheory.prime_3) (inv_inst_ok 3 Znumtheory.prime_3))).
Qed.

Example C35_ex : init_ND ex_nslv 9 3 2 ex_f = OK ex_N /\ wf_poly (r_n (nd_dr ex_N)) (r_d (nd_dr ex_N)) ex_f /\
  solver_ok 9 ex_nslv /\ r_n (nd_dr ex_N) = 1%nat /\ nd_basis ex_N = [[0; 0]; [1; 1]] /\
  LGD 9 (r_n (nd_dr ex_N)) (r_d (nd_dr ex_N)) ex_f [1; 3] (log_of 2 ex_phi) /\
  is_tuple 2 2 [1; 1] /\
  (exists G', reduce_vector_ND ex_nslv ex_N [1; 3] [1; 1] [1; 2] = OK G' /\
     ev_ND (log_of 2 ex_phi) [1; 3] (nd_basis ex_N) G' mod 9 =
     ev_ND (log_of 2 ex_phi) [2; 4] (nd_basis ex_N) [1; 2] mod 9 /\
     ev_ND (log_of 2 ex_phi) [2; 4] (nd_basis ex_N) [1; 2] mod 9 <> 0) /\
  reduce_vector_ND_ZZ ex_nslv ex_N [1; 3] [1; 1] [1; 2] = OK [42; 1].
Proof.
  split; [exact ex_N_init|]. split; [exact ex_wf|]. split; [exact ex_nslv_ok|].
  split; [reflexivity|]. split; [vm_compute; reflexivity|].
  split; [apply C35_log_functionals; [vm_compute; discriminate|exact ex_wf|reflexivity|reflexivity|exact ex_GD]|].
  split; [repeat split; repeat constructor; lia|].
  split; [|vm_compute; reflexivity].
  eexists. split; [vm_compute; reflexivity|]. split; vm_compute; [reflexivity|discriminate].
Qed.

(** n >= 1 is needed: for n = 0 the loop over the levels is empty, the reduction
    matrix is 0 and the ZZ variant reads begin() of an empty map *)
Theorem C35_points_refuted : exists slv q p prec f N u v G Phi,
  init_ND slv q p prec f = OK N /\ wf_poly (r_n (nd_dr N)) (r_d (nd_dr N)) f /\ solver_ok q slv /\
  length u = S (r_n (nd_dr N)) /\ (r_d (nd_dr N) | zsum u) /\
  is_tuple (S (r_n (nd_dr N))) (r_d (nd_dr N)) v /\ length G = length (nd_basis N) /\
  LGD q (r_n (nd_dr N)) (r_d (nd_dr N)) f u Phi /\
  reduce_vector_ND_ZZ slv N u v G = Err EUB /\
  exists G', reduce_vector_ND slv N u v G = OK G' /\
    ~ cong q (ev_ND Phi u (nd_basis N) G') (ev_ND Phi (eplus u v) (nd_basis N) G).
Proof.
  exists ex_nslv, 9, 3, 2, [([2], 1)].
  eexists. exists [2], [2], [1], (fun w => Z.of_nat (fact (Z.to_nat (nth 0 w 0 / 2 - 1)))).
  split; [vm_compute; reflexivity|]. cbn [r_n r_d nd_dr nd_basis].
  split.
  { split.
    - apply ms_cons; [reflexivity|apply ms_nil|intros k v []].
    - intros a c [X|[]]. injection X as <- <-. repeat split; repeat constructor; lia. }
  split; [exact ex_nslv_ok|]. split; [reflexivity|]. split; [exists 1; reflexivity|].
  split; [repeat split; repeat constructor; lia|]. split; [reflexivity|].
  split.
  { intros i w Hi Lw [k Hk] Hu. destruct w as [|x [|]]; try discriminate Lw. destruct i; [|lia].
    specialize (Hu 0%nat ltac:(lia)). cbn [nth] in Hu. cbn [zsum fold_right] in Hk.
    rewrite sumf_cons, sumf_nil. cbn [fst snd nth eplus].
    replace x with (k * 2) in * by lia. replace (k * 2 + 2) with ((k + 1) * 2) by lia.
    rewrite !Z.div_mul by lia. replace (Z.to_nat (k + 1 - 1)) with (S (Z.to_nat (k - 1))) by lia.
    change (fact (S (Z.to_nat (k - 1)))) with (S (Z.to_nat (k - 1)) * fact (Z.to_nat (k - 1)))%nat. apply cong_of_eq. rewrite Nat2Z.inj_mul. rewrite Nat2Z.inj_succ, Z2Nat.id by lia. ring. }
  split; [vm_compute; reflexivity|]. eexists. split; [vm_compute; reflexivity|].
  match goal with |- ~ cong 9 ?a ?b => change a with 0; change b with 1 end. intros [k Hk]. lia.
Qed.
Print Assumptions C35_points_refuted.

(** C36: k steps at once, over Z/q (r = q) and over Z (r = 0), are k single steps
    from u + k v down to u *)
Theorem C36_poly_equals_steps : forall slv q p prec f N,
  init_ND slv q p prec f = OK N -> wf_poly (r_n (nd_dr N)) (r_d (nd_dr N)) f -> solver_ok q slv -> 2 <= q ->
  (1 <= r_n (nd_dr N))%nat ->
  forall u v, length u = S (r_n (nd_dr N)) -> (r_d (nd_dr N) | zsum u) ->
  is_tuple (S (r_n (nd_dr N))) (r_d (nd_dr N)) v ->
  forall r k G, r = q \/ r = 0 -> length G = length (nd_basis N) ->
  exists A B, reduce_vector_ND_poly slv N r u v (Z.of_nat k) G = OK A /\
    steps_down_ND slv N u v k G = OK B /\ length B = length (nd_basis N) /\ vcong q A B.
Proof.
  intros slv q p prec f N H W. destruct (init_ND_inv _ _ _ _ _ _ H W) as (inv & <- & _).
  intros Hs Hq Hn u v Lu Du Hv r k G Hr LG.
  now apply (reduce_vector_ND_poly_ok slv N inv Hs v Hv Hn Hq u).
Qed.
Print Assumptions C36_poly_equals_steps.

(** C36, FLINT variant.  It agrees if the modulus needs more than one word; or if
    k <= n+1 and k <= q; or, where finite differences are used, if the
    coefficients are nested and not all zero. *)
Theorem C36_flint_equals_steps : forall slv q p prec f N,
  init_ND slv q p prec f = OK N -> wf_poly (r_n (nd_dr N)) (r_d (nd_dr N)) f -> solver_ok q slv -> 2 <= q ->
  (1 <= r_n (nd_dr N))%nat ->
  forall u v, length u = S (r_n (nd_dr N)) -> (r_d (nd_dr N) | zsum u) ->
  is_tuple (S (r_n (nd_dr N))) (r_d (nd_dr N)) v ->
  exists Ps, get_ND_poly_flint slv N u v = OK Ps /\ length Ps = S (S (r_n (nd_dr N))) /\
  (0 < q -> mp_ok q (length (nd_basis N)) Ps) /\
  forall k G, length G = length (nd_basis N) ->
  2 ^ 64 <= q \/ (Z.of_nat k <= Z.of_nat (r_n (nd_dr N)) + 1 /\ Z.of_nat k <= q) \/
    (2 <= q /\ Z.of_nat k <= q /\ (forall x, In x G -> 0 <= x < q) /\ nested Ps /\
     exists e i j, nth j (nth i (nth e Ps []) []) 0 <> 0) ->
  exists A B, reduce_vector_ND_poly_flint (r_n (nd_dr N)) q Ps (Z.of_nat k) G = OK A /\
    steps_down_ND slv N u v k G = OK B /\ length B = length (nd_basis N) /\ vcong q A B.
Proof.
  intros slv q p prec f N H W. destruct (init_ND_inv _ _ _ _ _ _ H W) as (inv & <- & _).
  intros Hs Hq Hn u v Lu Du Hv.
  now apply (reduce_vector_ND_poly_flint_ok slv N inv Hs v Hv Hn Hq u).
Qed.
Print Assumptions C36_flint_equals_steps.

Example C36_ex : length [1; 3] = S (r_n (nd_dr ex_N)) /\ (r_d (nd_dr ex_N) | zsum [1; 3]) /\
  reduce_vector_ND_poly ex_nslv ex_N 9 [1; 3] [1; 1] 4 [1; 2] = OK [0; 6] /\
  reduce_vector_ND_poly ex_nslv ex_N 0 [1; 3] [1; 1] 4 [1; 2] = OK [0; 6] /\
  steps_down_ND ex_nslv ex_N [1; 3] [1; 1] 4 [1; 2] = OK [0; 6] /\
  exists Ps, get_ND_poly_flint ex_nslv ex_N [1; 3] [1; 1] = OK Ps /\
    Ps = [[[0; 3]; [1; 0]]; [[0; 1]; [0; 0]]; [[0; 7]; [0; 0]]] /\ nested Ps /\
    reduce_vector_ND_poly_flint 1 9 Ps 4 [1; 2] = OK [0; 6].
Proof.
  split; [reflexivity|]. split; [exists 2; reflexivity|].
  do 3 (split; [vm_compute; reflexivity|]). eexists. split; [vm_compute; reflexivity|]. split; [reflexivity|].
  split; [|vm_compute; reflexivity].
  intros e e' mr mc He Hl. cbn in Hl. assert (e = 1 /\ e' = 1 \/ e = 1 /\ e' = 2 \/ e = 2 /\ e' = 2)%nat as C by lia.
  destruct C as [[-> ->]|[[-> ->]|[-> ->]]]; auto. intros Hs i j Nz.
  destruct i as [|[|[|i]]]; destruct j as [|[|[|j]]]; cbn in Nz; try congruence; try (destruct i; cbn in Nz; congruence).
  apply (Hs 0%nat 1%nat). cbn. lia.
Qed.

(** the hypothesis on the coefficients cannot be dropped: for the conic and
    u = (8, 10), v = (1, 1) the linear coefficient vanishes modulo 9; six steps give
    a wrong vector, four steps fail the final assertion *)
Theorem C36_flint_refuted : exists slv q p prec f N u v G Ps A B,
  init_ND slv q p prec f = OK N /\ wf_poly (r_n (nd_dr N)) (r_d (nd_dr N)) f /\ solver_ok q slv /\
  (1 <= r_n (nd_dr N))%nat /\ length u = S (r_n (nd_dr N)) /\ (r_d (nd_dr N) | zsum u) /\
  is_tuple (S (r_n (nd_dr N))) (r_d (nd_dr N)) v /\ length G = length (nd_basis N) /\
  get_ND_poly_flint slv N u v = OK Ps /\
  reduce_vector_ND_poly_flint (r_n (nd_dr N)) q Ps 6 G = OK A /\
  steps_down_ND slv N u v 6 G = OK B /\ ~ vcong q A B /\
  reduce_vector_ND_poly_flint (r_n (nd_dr N)) q Ps 4 G = Err EAssert.
Proof.
  exists ex_nslv, 9, 3, 2, ex_f, ex_N, [8; 10], [1; 1], [1; 2].
  eexists _, [6; 3], [0; 0].
  split; [exact ex_N_init|]. split; [exact ex_wf|]. split; [exact ex_nslv_ok|]. split; [apply le_n|].
  split; [reflexivity|]. split; [exists 9; reflexivity|]. split; [repeat split; repeat constructor; lia|].
  split; [vm_compute; reflexivity|]. split; [vm_compute; reflexivity|]. split; [vm_compute; reflexivity|].
  split; [vm_compute; reflexivity|]. split; [|vm_compute; reflexivity].
  intros [_ Hc]. specialize (Hc 0%nat ltac:(cbn; lia)). cbn [nth] in Hc. destruct Hc as [k Hk]. lia.
Qed.
Print Assumptions C36_flint_refuted.

(** C37, the matrix from W_u to the basis of the cohomology *)
Theorem C37_coKernels_to_basis_preserves_class : forall slv q p prec f N,
  init_ND slv q p prec f = OK N -> wf_poly (r_n (nd_dr N)) (r_d (nd_dr N)) f -> solver_ok q slv -> 2 <= q ->
  (1 <= r_n (nd_dr N))%nat ->
  forall u, length u = S (r_n (nd_dr N)) -> positive u = true -> zsum u = r_d (nd_dr N) ->
  exists M, get_coKernels_ND_to_basis slv N u = OK M /\
    shape M (length (r_basis (nd_dr N))) (length (nd_basis N)) /\
    forall G, length G = length (nd_basis N) ->
    exists F, mat_vec q M G = OK F /\ length F = length (r_basis (nd_dr N)) /\
    forall phi psi, GD q (r_n (nd_dr N)) (r_d (nd_dr N)) f phi ->
      basis_val q (r_n (nd_dr N)) (r_d (nd_dr N)) (r_basis (nd_dr N)) phi psi ->
      cong q (ev_basis psi (r_basis (nd_dr N)) F) (ev_ND (log_of (r_d (nd_dr N)) phi) u (nd_basis N) G).
Proof.
  intros slv q p prec f N H W. destruct (init_ND_inv _ _ _ _ _ _ H W) as (inv & <- & <-).
  intros Hs Hq Hn u Lu Pu Su. now apply ckn_ok.
Qed.
Print Assumptions C37_coKernels_to_basis_preserves_class.

(** C37, the whole path: any monomial form with positive exponents *)
Theorem C37_monomial_to_basis_ND : forall slv q p prec f N,
  init_ND slv q p prec f = OK N -> wf_poly (r_n (nd_dr N)) (r_d (nd_dr N)) f -> solver_ok q slv -> 2 <= q ->
  (1 <= r_n (nd_dr N))%nat ->
  forall u m, length u = S (r_n (nd_dr N)) -> (forall i, (i <= r_n (nd_dr N))%nat -> 0 < nth i u 0) ->
  zsum u = m * r_d (nd_dr N) ->
  exists F, monomial_to_basis_ND slv N u = OK F /\ length F = length (r_basis (nd_dr N)) /\
    forall phi psi, GD q (r_n (nd_dr N)) (r_d (nd_dr N)) f phi ->
      basis_val q (r_n (nd_dr N)) (r_d (nd_dr N)) (r_basis (nd_dr N)) phi psi ->
      cong q (ev_basis psi (r_basis (nd_dr N)) F) (phi m (epred u)).
Proof.
  intros slv q p prec f N H W. destruct (init_ND_inv _ _ _ _ _ _ H W) as (inv & <- & <-).
  intros Hs Hq Hn u m. now apply mtb_ND_ok.
Qed.
Print Assumptions C37_monomial_to_basis_ND.

(** the two reduction paths agree: both coordinate vectors of a monomial form have
    the same value under every functional *)
Theorem C37_same_class_as_J : forall slv q p prec f N,
  init_ND slv q p prec f = OK N -> wf_poly (r_n (nd_dr N)) (r_d (nd_dr N)) f -> solver_ok q slv -> 2 <= q ->
  (1 <= r_n (nd_dr N))%nat ->
  forall u m, length u = S (r_n (nd_dr N)) -> (forall i, (i <= r_n (nd_dr N))%nat -> 0 < nth i u 0) ->
  zsum u = m * r_d (nd_dr N) ->
  exists F F', monomial_to_basis_ND slv N u = OK F /\ monomial_to_basis_J slv (nd_dr N) u = OK F' /\
    forall phi psi, GD q (r_n (nd_dr N)) (r_d (nd_dr N)) f phi ->
      basis_val q (r_n (nd_dr N)) (r_d (nd_dr N)) (r_basis (nd_dr N)) phi psi ->
      cong q (ev_basis psi (r_basis (nd_dr N)) F) (ev_basis psi (r_basis (nd_dr N)) F').
Proof.
  intros slv q p prec f N H W. destruct (init_ND_inv _ _ _ _ _ _ H W) as (inv & <- & <-).
  intros Hs Hq Hn u m Lu Hu Su.
  destruct (mtb_ND_ok slv N inv Hs Hq Hn u m Lu Hu Su) as (F & F1 & _ & F3).
  destruct (mtb_ok slv (nd_dr N) (ni_dr _ _ inv) Hs Hq Hn u m Lu Hu Su) as (F' & F1' & _ & F3').
  exists F, F'. split; [exact F1|]. split; [exact F1'|]. intros phi psi Hp Hb.
  rewrite (F3 phi psi Hp Hb), (F3' phi psi Hp Hb). reflexivity.
Qed.
Print Assumptions C37_same_class_as_J.

(** the conic: 3! x0^4 x1^2 Omega / f^4 has coordinate 3!!*1!!/2^3 = 6 mod 9 *)
Lemma ex_N_basis : r_basis (nd_dr ex_N) = [[0; 0]].
Proof. vm_compute. reflexivity. Qed.
Example C37_ex : init_ND ex_nslv 9 3 2 ex_f = OK ex_N /\ r_basis (nd_dr ex_N) = [[0; 0]] /\
  basis_val 9 1 2 (r_basis (nd_dr ex_N)) ex_phi (fun _ => 1) /\ GD 9 1 2 ex_f ex_phi /\
  monomial_to_basis_ND ex_nslv ex_N [5; 3] = OK [6] /\ ex_phi 4 [4; 2] mod 9 = 6 /\
  get_coKernels_ND_to_basis ex_nslv ex_N [1; 1] = OK [[1; 0]].
Proof.
  split; [exact ex_N_init|]. split; [exact ex_N_basis|].
  split. { rewrite ex_N_basis. intros b [<-|[]]. vm_compute. now exists 0. }
  split; [exact ex_GD|]. split; [vm_compute; reflexivity|]. split; vm_compute; reflexivity.
Qed.
