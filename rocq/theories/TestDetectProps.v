(** C59: what the self-tests of the reduction routines compare. *)
From Coq Require Import ZArith List Bool Lia Znumtheory.
From Verif Require Import Base VecModel VecSpec VecProofs ToolsModel ToolsSpec MatModel MatProofs DRModel DRSpec DRProofs DRRed DRPath NDModel NDSpec NDRed NDBasis FrobModel FrobSpec FrobTop
  TestModel TestSpec UniqCode TestProofs TestBasis TestDetect UniqProps TestProps DRFinal NDStep DRStep DRFinal.
Import ListNotations.
Open Scope Z_scope.

(** C59, the path tests: for any object and any solver, right or wrong, a test that
    returns true has drawn that many forms and for each that many paths, and the
    matrices of the paths of a form are equal; a test that returns false has found
    two paths of the same form with different matrices. *)
Theorem C59_paths_J_compared : forall slv D trials paths rs b rest, test_paths_J slv D trials paths rs = OK (b, rest) ->
  exists T, attempts (start (r_n D) (r_d D) 0 (Z.of_nat (r_n D))) (path_J slv D) rs T rest /\
    (b = true -> Z.of_nat (length T) = trials /\ forall u Ms, In (u, Ms) T -> Z.of_nat (length Ms) = paths /\ all_equal Ms) /\
    (b = false -> exists u Ms, In (u, Ms) T /\ ~ all_equal Ms).
Proof.
  intros slv D trials paths rs b rest H. unfold test_paths_J in H.
  apply dbind_ok in H. destruct H as (? & rs1 & E1 & H). apply dlift_ok in E1. destruct E1 as [E1 ->]. apply dbind_ok in H. destruct H as (? & rs2 & E2 & H). apply dlift_ok in E2. destruct E2 as [E2 ->].
  unfold check in E1, E2. destruct (Z.ltb_spec 0 trials); [|discriminate]. destruct (Z.ltb_spec 0 paths); [|discriminate].
  destruct (trials_loop_spec _ _ _ _ _ _ _ H) as (T & T1 & T2 & T3). exists T. split; auto. split; auto. intros Hb. destruct (T2 Hb) as [L X]. split; [lia|].
  intros u Ms Hin. destruct (X u Ms Hin) as [LM AE]. split; [lia|auto].
Qed.
Print Assumptions C59_paths_J_compared.

Theorem C59_paths_ND_compared : forall slv N trials paths rs b rest, 0 < trials -> test_paths_ND slv N trials paths rs = OK (b, rest) ->
  exists T, attempts (start (r_n (nd_dr N)) (r_d (nd_dr N)) 1 0) (path_ND slv N) rs T rest /\
    (b = true -> Z.of_nat (length T) = trials /\ forall u Ms, In (u, Ms) T -> Z.of_nat (length Ms) = paths /\ all_equal Ms) /\
    (b = false -> exists u Ms, In (u, Ms) T /\ ~ all_equal Ms).
Proof.
  intros slv N trials paths rs b rest Ht H. unfold test_paths_ND in H. cbv zeta in H.
  apply dbind_ok in H. destruct H as (? & rs1 & E1 & H). apply dlift_ok in E1. destruct E1 as [E1 ->]. apply dbind_ok in H. destruct H as (? & rs2 & E2 & H). apply dlift_ok in E2. destruct E2 as [E2 ->].
  apply dbind_ok in H. destruct H as (? & rs3 & E3 & H). apply dlift_ok in E3. destruct E3 as [E3 ->].
  unfold check in E3. destruct (Z.ltb_spec trials 0); [lia|]. destruct (Z.ltb_spec 0 paths); [|discriminate].
  destruct (trials_loop_spec _ _ _ _ _ _ _ H) as (T & T1 & T2 & T3). exists T. split; auto. split; auto. intros Hb. destruct (T2 Hb) as [L X]. split; [lia|].
  intros u Ms Hin. destruct (X u Ms Hin) as [LM AE]. split; [lia|auto].
Qed.
Print Assumptions C59_paths_ND_compared.

(** every form with exponents below 20 (21) and the right degree can be the one drawn *)
Theorem C59_start_any : forall n d lo u rest, 0 <= lo -> 0 < d -> length u = S n -> (forall x, In x u -> lo <= x < lo + 20) ->
  exists rs, start n d lo (zsum u mod d) rs = OK (u, rest).
Proof. intros n d lo u rest H1 H2 H3 H4. eexists. now apply start_any. Qed.
Print Assumptions C59_start_any.

(** the matrix of a path: its j-th column is the coordinates of the form with
    numerator x^u times the j-th monomial, whatever the path *)
Lemma ident_col q k j c : (j < k)%nat -> (c < k)%nat -> nth c (col (ident q k) j) 0 = if Nat.eqb c j then 1 mod q else 0.
Proof.
  intros Hj Hc. unfold col, ident. rewrite map_map, (nth_map_lt _ _ _ _ O) by (now rewrite seq_length). rewrite seq_nth by auto. cbn [Nat.add].
  rewrite (nth_map_lt _ _ _ _ O) by (now rewrite seq_length). now rewrite seq_nth.
Qed.
Lemma sumf_unit q k j (g : nat -> Z) G : (j < k)%nat -> (forall c, (c < k)%nat -> nth c G 0 = if Nat.eqb c j then 1 mod q else 0) ->
  cong q (sumf (fun c => nth c G 0 * g c) (seq 0 k)) (g j).
Proof.
  intros Hj H. transitivity (sumf (fun c => if Nat.eqb c j then g j else 0) (seq 0 k)).
  - apply cong_sumf. intros c Hc. apply in_seq in Hc. rewrite H by lia. destruct (Nat.eqb_spec c j) as [->|]; [|apply cong_of_eq; ring]. rewrite cong_mod. apply cong_of_eq. ring.
  - apply cong_of_eq. replace k with (j + S (k - S j))%nat by lia. rewrite seq_app, sumf_app. cbn [seq]. rewrite sumf_cons. cbn [Nat.add]. rewrite Nat.eqb_refl.
    rewrite !sumf_zero; [lia| |]; intros c Hc; apply in_seq in Hc; destruct (Nat.eqb_spec c j); lia.
Qed.
Theorem C59_path_J_value : forall slv p prec f D,
  init slv (p ^ prec) p prec f = OK D -> wf_poly (r_n D) (r_d D) f -> solver_ok (p ^ prec) slv -> prime p -> 1 <= prec -> (1 <= r_n D)%nat ->
  forall u t rs M rest, is_tuple (S (r_n D)) (Z.of_nat (r_n D) + r_d D * t) u -> 0 <= t -> path_J slv D u rs = OK (M, rest) ->
  let LG := enum (S (r_n D)) (Z.to_nat (r_d D * Z.of_nat (r_n D) - Z.of_nat (r_n D))) in
  shape M (length (r_basis D)) (length LG) /\
  forall j, (j < length LG)%nat -> forall phi psi, GD (p ^ prec) (r_n D) (r_d D) f phi -> basis_val (p ^ prec) (r_n D) (r_d D) (r_basis D) phi psi ->
    cong (p ^ prec) (ev_basis psi (r_basis D) (map (fun row => nth j row 0) M)) (phi_div phi (Z.of_nat (r_n D) + t) (eplus u (nth j LG []))).
Proof.
  intros slv p prec f D H W Hs Pp Hprec Hn u t rs M rest Hu Ht E. cbv zeta. destruct (init_inv _ _ _ _ _ _ H W) as (inv & Eq & Ef).
  assert (Hs' : solver_ok (r_q D) slv) by (now rewrite Eq).
  destruct (path_J_live slv D inv Hs' (q_two p prec D Pp Hprec Eq) Hn u t Hu Ht rs) as [(x & us & re & X & _ & E' & _)|(E' & _)]; rewrite E in E'; [|discriminate].
  injection E' as <- _. destruct X as (X1 & _ & X3). split; [exact X1|]. intros j Hj phi psi HG HB. rewrite <- Eq, <- Ef in *. 
  pose proof (X3 j Hj phi psi HG HB) as C. rewrite C. unfold ev. apply (sumf_unit (r_q D) _ j (fun c => phi_div phi (Z.of_nat (r_n D) + t) (eplus u (nth c (enum (S (r_n D)) (Z.to_nat (degG D))) [])))); auto. intros c Hc. now apply ident_col.
Qed.
Print Assumptions C59_path_J_value.
Theorem C59_path_ND_value : forall slv p prec f N,
  init_ND slv (p ^ prec) p prec f = OK N -> wf_poly (r_n (nd_dr N)) (r_d (nd_dr N)) f -> solver_ok (p ^ prec) slv -> prime p -> 1 <= prec -> (1 <= r_n (nd_dr N))%nat ->
  forall u m rs M rest, length u = S (r_n (nd_dr N)) -> (forall x, In x u -> 0 < x) -> zsum u = r_d (nd_dr N) * m -> 1 <= m -> path_ND slv N u rs = OK (M, rest) ->
  shape M (length (r_basis (nd_dr N))) (length (nd_basis N)) /\
  forall j, (j < length (nd_basis N))%nat -> forall phi psi, GD (p ^ prec) (r_n (nd_dr N)) (r_d (nd_dr N)) f phi -> basis_val (p ^ prec) (r_n (nd_dr N)) (r_d (nd_dr N)) (r_basis (nd_dr N)) phi psi ->
    cong (p ^ prec) (ev_basis psi (r_basis (nd_dr N)) (map (fun row => nth j row 0) M)) (log_of (r_d (nd_dr N)) phi (eplus u (nth j (nd_basis N) []))).
Proof.
  intros slv p prec f N H W Hs Pp Hprec Hn u m rs M rest Lu Pu Su Hm E. destruct (init_ND_inv _ _ _ _ _ _ H W) as (inv & Eq & Ef).
  assert (Hs' : solver_ok (r_q (nd_dr N)) slv) by (now rewrite Eq).
  assert (Pu' : positive u = true) by (apply positive_iff; intros i Hi; now apply Pu, nth_In).
  destruct (path_ND_live slv N inv Hs' (q_two p prec (nd_dr N) Pp Hprec Eq) Hn u m Lu Pu' Su Hm rs) as [(x & us & re & X & _ & E' & _)|(E' & _)]; rewrite E in E'; [|discriminate].
  injection E' as <- _. destruct X as (X1 & _ & X3). split; [exact X1|]. intros j Hj phi psi HG HB. rewrite <- Eq, <- Ef in *.
  pose proof (X3 j Hj phi psi HG HB) as C. rewrite C. unfold ev_ND. apply (sumf_unit (r_q (nd_dr N)) _ j (fun c => log_of (r_d (nd_dr N)) phi (eplus u (nth c (nd_basis N) [])))); auto. intros c Hc. now apply ident_col.
Qed.
Print Assumptions C59_path_ND_value.

Lemma forallb_exists_false {A} (g : A -> bool) l : forallb g l = false -> exists x, In x l /\ g x = false.
Proof. induction l as [|x l IH]; cbn [forallb]; [discriminate|]. destruct (g x) eqn:E; [|intros _; exists x; split; [now left|auto]]. intros H. destruct (IH H) as (y & Y1 & Y2). exists y. split; [now right|auto]. Qed.
Lemma cong_mod_eq q a b : 0 < q -> cong q a b -> a mod q = b mod q.
Proof. intros Hq [k E]. replace a with (b + k * q) by lia. apply Z_mod_plus_full. Qed.

(** C59, the powers of f: for ANY function computing coordinates of monomials, a
    test that returns true has found, for every i <= N and every basis element b_j,
    that the coordinates of f^i b_j are (m-1)! at j and 0 elsewhere; a test that
    returns false has found a power, an element and a coordinate where this fails *)
Theorem C59_mtb_compared : forall slv p prec f D,
  init slv (p ^ prec) p prec f = OK D -> wf_poly (r_n D) (r_d D) f -> solver_ok (p ^ prec) slv -> prime p -> 1 <= prec -> (1 <= r_n D)%nat ->
  forall mtb N r, test_mtb D mtb N = OK r ->
  let q := p ^ prec in
  let m i j := pole_of (r_n D) (r_d D) (nth j (r_basis D) []) + Z.of_nat i in
  let right P cs i j k := cong q (coord_sum P cs k) (if Nat.eqb k j then zfact (m i j - 1) else 0) in
  let found P cs i j := power_of q (r_n D) f P i /\ length cs = length P /\
    forall l, (l < length P)%nat -> mtb (map (fun x => x + 1) (eplus (fst (nth l P ([], 0))) (nth j (r_basis D) []))) = OK (nth l cs []) in
  (r = true -> forall i j, Z.of_nat i <= N -> (j < length (r_basis D))%nat ->
     exists P cs, found P cs i j /\ forall k, (k < length (r_basis D))%nat -> right P cs i j k) /\
  (r = false -> exists i j P cs k, Z.of_nat i <= N /\ (j < length (r_basis D))%nat /\ found P cs i j /\ (k < length (r_basis D))%nat /\ ~ right P cs i j k).
Proof.
  intros slv p prec f D H W Hs Pp Hprec Hn mtb N r E. cbv zeta. destruct (init_inv _ _ _ _ _ _ H W) as (inv & Eq & Ef).
  assert (Hs' : solver_ok (r_q D) slv) by (now rewrite Eq). pose proof (q_two p prec D Pp Hprec Eq) as Hq. pose proof (inv_nd _ _ inv) as ND. rewrite <- Eq.
  unfold test_mtb in E. apply bind_ok in E. destruct E as (? & _ & E). apply bind_ok in E. destruct E as (? & HN & E). unfold check in HN. destruct (Z.leb_spec 0 N) as [HN'|]; [clear HN|discriminate].
  set (T := fpow_loop (r_q D) (r_f D) (Z.to_nat N) (fpow_init (r_q D) (r_n D))) in *.
  assert (K : forall i j c, Z.of_nat i <= N -> (j < length (r_basis D))%nat -> mtb_check D mtb T i j = OK c ->
    exists P cs, (power_of (r_q D) (r_n D) f P i /\ length cs = length P /\
      forall l, (l < length P)%nat -> mtb (map (fun x => x + 1) (eplus (fst (nth l P ([], 0))) (nth j (r_basis D) []))) = OK (nth l cs [])) /\
      (c = true -> forall k, (k < length (r_basis D))%nat -> cong (r_q D) (coord_sum P cs k) (if Nat.eqb k j then zfact (pole_of (r_n D) (r_d D) (nth j (r_basis D) []) + Z.of_nat i - 1) else 0)) /\
      (c = false -> exists k, (k < length (r_basis D))%nat /\ ~ cong (r_q D) (coord_sum P cs k) (if Nat.eqb k j then zfact (pole_of (r_n D) (r_d D) (nth j (r_basis D) []) + Z.of_nat i - 1) else 0))).
  { intros i j c Hi Hj C. set (b := nth j (r_basis D) []) in *. destruct (basis_elem slv D inv Hs' b (nth_In _ _ Hj)) as (k & Hk & B1 & B2 & B3). unfold lev in B3.
    assert (Ep : pole_of (r_n D) (r_d D) b = k + 1). { unfold pole_of. rewrite B3. replace ((k + 1) * r_d D - (Z.of_nat (r_n D) + 1) + Z.of_nat (r_n D) + 1) with ((k + 1) * r_d D) by ring. apply Z.div_mul. lia. }
    assert (Em : Z.quot (zsum b + (Z.of_nat (r_n D) + 1)) (r_d D) = k + 1). { rewrite B3. replace ((k + 1) * r_d D - (Z.of_nat (r_n D) + 1) + (Z.of_nat (r_n D) + 1)) with ((k + 1) * r_d D) by ring. apply Z.quot_mul. lia. }
    rewrite Ep. unfold mtb_check in C. fold b in C. rewrite Em in C. apply bind_ok in C. destruct C as (fa & Hfa & C). apply bind_ok in C. destruct C as (v & Hv & C). injection C as C.
    assert (Efa : fa = zfact (k + 1 + Z.of_nat i - 1)).
    { destruct (Z.leb_spec (k + 1 + Z.of_nat i) 21); [rewrite fact64_ok in Hfa by lia; congruence|rewrite fact64_overflow in Hfa by lia; discriminate]. }
    assert (W' : wf_poly (r_n D) (r_d D) (r_f D)) by (now rewrite Ef).
    destruct (loop_tab (r_q D) (r_n D) (r_d D) (r_f D) Hq W' (Z.to_nat N) _ (init_ok (r_q D) (r_n D) (r_d D) (r_f D) Hq)) as ((_ & TO) & TL & _). fold T in TO, TL. change (length (fpow_init (r_q D) (r_n D))) with 1%nat in TL.
    destruct (nth_error T i) as [P|] eqn:EP; [|apply nth_error_None in EP; lia].
    rewrite (nth_error_nth _ _ _ EP) in Hv. destruct (TO i P EP) as (_ & _ & _ & P4).
    destruct (mtb_sum_spec (r_q D) mtb b P _ v ltac:(lia) Hv) as (Lv & cs & C1 & C2 & C3).
    exists P, cs. split; [|split].
    - split; [intros w; rewrite <- Ef; apply P4|]. split; auto. intros l Hl. rewrite eplus_vadd. apply C2. auto.
    - intros ->. intros l Hl. rewrite forallb_forall in C. specialize (C l ltac:(apply in_seq; lia)). apply Z.eqb_eq in C. rewrite C3 in C by auto.
      fold (coord_sum P cs l) in C. rewrite <- (cong_mod (r_q D) (coord_sum P cs l)), C. destruct (Nat.eqb l j); [|reflexivity]. rewrite cong_mod, Efa. reflexivity.
    - intros ->. destruct (forallb_exists_false _ _ C) as (l & Hl & F). apply in_seq in Hl. exists l. split; [lia|]. intros X. apply Z.eqb_neq in F. apply F. rewrite C3 by lia. fold (coord_sum P cs l).
      apply cong_mod_eq in X; [|lia]. rewrite X. destruct (Nat.eqb l j); [now rewrite Efa|apply Zmod_0_l]. }
  apply (foldM_and (fun ij => mtb_check D mtb T (fst ij) (snd ij))) in E. destruct E as [E1 E2]. split.
  - intros Hr i j Hi Hj. specialize (E1 Hr (i, j)). destruct (K i j true Hi Hj) as (P & cs & K1 & K2 & _).
    { apply E1. apply in_flat_map. exists i. split; [apply in_seq; lia|]. apply in_map_iff. exists j. split; auto. apply in_seq. lia. }
    exists P, cs. split; auto.
  - intros Hr. destruct (E2 Hr) as ([i j] & Hin & C). apply in_flat_map in Hin. destruct Hin as (i' & Hi & Hin). apply in_map_iff in Hin. destruct Hin as (j' & [= -> ->] & Hj). apply in_seq in Hi, Hj.
    cbn [fst snd] in C. destruct (K i j false ltac:(lia) ltac:(lia) C) as (P & cs & K1 & _ & K3). destruct (K3 eq_refl) as (k & Hk & X). exists i, j, P, cs, k. repeat (split; [first [lia|assumption]|]). exact X.
Qed.
Print Assumptions C59_mtb_compared.

(** the cubic of C55 over Z/25.  With a solver that returns the rows of U in the
    wrong order, two paths of the form x^6 y^5 give different matrices and the test
    returns false; with the right solver it returns true on the same numbers.  Both
    solvers differ, but a solver whose U is twice too large passes these two paths:
    all paths of a form have the same number of steps. *)
Definition with_U (g : mat -> mat) (s : solver) : solver := fun k T => x <- s k T ;; OK (fst x, g (snd x)).
Example C59_ex_paths : let rs := [6; 5; 0; 0; 0; 0; 1; 1; 1; 0; 1; 0] in
  test_paths_J ex5_slv (nd_dr ex5_N) 1 2 rs = OK (true, [1; 0]) /\
  test_paths_J (with_U (@rev _) ex5_slv) (nd_dr ex5_N) 1 2 rs = OK (false, [1; 0]) /\
  test_paths_J (with_U (map (map (fun x => (2 * x) mod 25))) ex5_slv) (nd_dr ex5_N) 1 2 rs = OK (true, [1; 0]).
Proof. vm_compute. repeat split. Qed.
(** the test of the powers of f sees both *)
Example C59_ex_mtb :
  test_mtb (nd_dr ex5_N) (monomial_to_basis_J ex5_slv (nd_dr ex5_N)) 1 = OK true /\
  test_mtb (nd_dr ex5_N) (monomial_to_basis_J (with_U (map (map (fun x => (2 * x) mod 25))) ex5_slv) (nd_dr ex5_N)) 1 = OK false /\
  test_mtb (nd_dr ex5_N) (fun u => OK [1; 0]) 1 = OK false.
Proof. vm_compute. repeat split. Qed.
(** a path of that form and one of a non-degenerate form; the hypotheses of the
    theorems on values are those of C55_ex_hyps *)
Example C59_ex_value : is_tuple 3 (2 + 3 * 3) [6; 5; 0] /\
  path_J ex5_slv (nd_dr ex5_N) [6; 5; 0] [0; 0; 0] = OK ([[0; 19; 0; 0; 0; 0; 0; 18; 0; 2; 0; 0; 0; 0; 0]; [0; 20; 0; 0; 0; 0; 0; 15; 0; 20; 0; 0; 0; 0; 0]], []) /\
  start 2 3 0 2 [6; 5; 0] = OK ([6; 5; 0], []).
Proof. split; [split; [reflexivity|split; [repeat constructor; discriminate|reflexivity]]|]. vm_compute. repeat split. Qed.
