(** Properties C17, C18, C47: statements only. *)
From Coq Require Import ZArith List Bool Lia Znumtheory.
From Verif Require Import Base VecModel ToolsModel ToolsSpec MatModel MatProofs DRModel DRSpec DRProofs DRRed DRLemmas LinAlg SolveModel SolveSpec SolveProofs SmoothProofs LuInst.
From Verif Require SaveProofs.
Import ListNotations.
Open Scope Z_scope.

(** C17: over F_p, for every matrix T (m x n).  [ech] is nmod_mat_lu or gauss,
    [inv] the matrix inverse, with their documented specification. *)
Theorem C17_solve_system_zz_p : forall p ech inv rank_check T m n,
  prime p -> ech_spec p ech -> inv_spec p inv -> shape T m n -> mreduced p T ->
  exists B U, solve_zz_p ech inv rank_check p n T = OK (B, U) /\
    solves p m n (mget T) B (mget U) /\ shape U (n + length B) m /\ mreduced p U /\
    independent p m n (mget T) B.
Proof. intros. now apply solve_zz_p_ok. Qed.
Print Assumptions C17_solve_system_zz_p.

(** T without columns: B is everything and U the identity *)
Theorem C17_no_columns : forall p ech inv rank_check T,
  exists U, solve_zz_p ech inv rank_check p 0 T = OK (seq 0 (length T), U) /\
    forall i j, (i < length T)%nat -> (j < length T)%nat -> mget U i j = if Nat.eqb i j then 1 else 0.
Proof. intros. eexists. split; [reflexivity|]. intros. now apply MpzProofs.tab_get. Qed.
Print Assumptions C17_no_columns.

(** the hypotheses on the library can be met *)
Theorem C17_oracles_exist : forall p, prime p -> ech_spec p lu_inst /\ ech_spec p gauss_inst /\ inv_spec p inv_inst.
Proof. intros. auto using lu_inst_spec, gauss_inst_spec, inv_inst_ok. Qed.
Print Assumptions C17_oracles_exist.

Definition ex_T : mat := [[0; 1; 2]; [0; 2; 1]; [0; 0; 1]; [0; 1; 1]].
Example C17_ex : shape ex_T 4 3 /\ mreduced 3 ex_T /\
  solve_zz_p lu_inst inv_inst true 3 3 ex_T = OK ([1; 3]%nat, [[0; 0; 0; 0]; [1; 0; 1; 0]; [0; 0; 1; 0]; [1; 1; 0; 0]; [2; 0; 1; 1]]) /\
  solve_zz_p gauss_inst inv_inst false 3 3 ex_T = solve_zz_p lu_inst inv_inst true 3 3 ex_T.
Proof.
  split; [split; [reflexivity|repeat constructor]|]. split; [repeat constructor; lia|].
  split; [vm_compute; reflexivity|]. vm_compute. reflexivity.
Qed.

(** C18: over Z/p^precision; same B as over F_p *)
Theorem C18_solve_system_padic : forall p prec lu inv flint U0 m n T,
  prime p -> 1 <= prec -> ech_spec p lu -> inv_spec p inv -> shape T m n -> (n = O -> U0 = []) ->
  exists B U, solve_padic lu inv p (p ^ prec) prec flint U0 n T = OK (B, U) /\
    (exists U', solve_zz_p lu inv true p n (reduce_mat p T) = OK (B, U')) /\
    solves (p ^ prec) m n (mget T) B (mget U) /\ shape U (n + length B) m /\ mreduced (p ^ prec) U.
Proof. intros. now apply solve_padic_ok. Qed.
Print Assumptions C18_solve_system_padic.

(** so the solver used by the de Rham classes meets the hypotheses of C20-C26,
    C41 *)
Theorem C18_de_Rham_solver : forall p prec lu inv,
  prime p -> 1 <= prec -> ech_spec p lu -> inv_spec p inv ->
  solver_ok (p ^ prec) (padic_solver lu inv p (p ^ prec) prec) /\
  SaveProofs.solver_reduced (p ^ prec) (padic_solver lu inv p (p ^ prec) prec).
Proof. intros. split; [now apply padic_solver_ok|now apply padic_solver_reduced]. Qed.
Print Assumptions C18_de_Rham_solver.

(** an output matrix that already has the right size is not cleared *)
Theorem C18_old_matrix_refuted : exists p prec flint U0 T,
  prime p /\ 1 <= prec /\ shape T 2 0 /\
  exists B U, solve_padic lu_inst inv_inst p (p ^ prec) prec flint U0 0 T = OK (B, U) /\
    ~ solves (p ^ prec) 2 0 (mget T) B (mget U).
Proof.
  exists 3, 2, true, [[4; 5]; [6; 7]], [[]; []]. split; [apply prime_3|]. split; [lia|].
  split; [split; [reflexivity|repeat constructor]|]. exists [0; 1]%nat, [[1; 5]; [6; 1]]. split; [vm_compute; reflexivity|].
  intros (_ & _ & H). specialize (H 0%nat 1%nat ltac:(lia) ltac:(lia)). cbn in H. destruct H as [z Hz]. lia.
Qed.
Print Assumptions C18_old_matrix_refuted.

(** precision 3: not a power of two; the word-size, multi-precision and NTL variants *)
Example C18_ex : shape [[1; 2]; [3; 4]; [0; 9]] 3 2 /\
  solve_padic lu_inst inv_inst 3 27 3 true [] 2 [[1; 2]; [3; 4]; [0; 9]] = OK ([2]%nat, [[25; 1; 0]; [15; 13; 0]; [0; 18; 1]]) /\
  solve_padic lu_inst inv_inst 3 27 3 false [] 2 [[1; 2]; [3; 4]; [0; 9]] = solve_padic lu_inst inv_inst 3 27 3 true [] 2 [[1; 2]; [3; 4]; [0; 9]] /\
  (exists x, solve_padic lu_inst inv_inst 3 (3 ^ 41) 41 true [] 1 [[2]] = OK ([], [[x]]) /\ (2 * x) mod 3 ^ 41 = 1).
Proof.
  split; [split; [reflexivity|repeat constructor]|]. split; [vm_compute; reflexivity|]. split; [vm_compute; reflexivity|].
  exists ((3 ^ 41 + 1) / 2). split; [vm_compute; reflexivity|]. vm_compute. reflexivity.
Qed.

(** C47: isSmooth decides whether every form of degree (d-2)(n+1)+1 is in the
    Jacobian ideal modulo p; q is the modulus of ZZ_p when it is called *)
Theorem C47_isSmooth : forall p q lu f n d tl,
  prime p -> (p | q) -> ech_spec p lu -> f <> [] -> wf_poly n d f -> 2 <= d -> init_tuples n d = OK tl ->
  exists b, is_smooth lu p q f = OK b /\
    (b = true <-> forall G, in_jacobian p n d f ((d - 2) * (Z.of_nat n + 1) + 1) G).
Proof. intros. eapply is_smooth_ok; eauto. Qed.
Print Assumptions C47_isSmooth.

(** a hyperplane in at least two variables: the degree is negative and the index
    out of range *)
Theorem C47_isSmooth_linear_refuted : forall p q lu n a c f tl,
  (1 <= n)%nat -> length a = S n -> zsum a = 1 -> init_tuples n 1 = OK tl ->
  is_smooth lu p q ((a, c) :: f) = Err EUB.
Proof.
  intros p q lu n a c f tl Hn La Sa Htl. unfold is_smooth. rewrite La, Sa.
  replace (S n - 1)%nat with n by lia. rewrite Htl. cbn [bind]. unfold matrix_J. cbn [r_tl]. unfold get_at at 1.
  destruct (Z.ltb_spec ((1 - 2) * (Z.of_nat n + 1) + 1) 0); [reflexivity|lia].
Qed.
Print Assumptions C47_isSmooth_linear_refuted.

Example C47_ex : wf_poly 1 2 ex_f /\ is_smooth lu_inst 3 9 ex_f = OK true /\ is_smooth lu_inst 3 9 [([2; 0], 1)] = OK false /\
  (exists tl, init_tuples 1 2 = OK tl) /\ (exists tl, init_tuples 1 1 = OK tl).
Proof.
  split; [exact ex_wf|]. split; [vm_compute; reflexivity|]. split; [vm_compute; reflexivity|].
  split; eexists; vm_compute; reflexivity.
Qed.
