(** C68: what charpoly_frob returns satisfies the functional equation to the
    precision it worked with, whatever the matrix is; the polynomial recorded in
    test_dwork cannot be the result for the prime it is tested with. *)
From Coq Require Import ZArith List Bool Lia.
From Verif Require Import Base VecModel MatModel MatProofs ArgsModel ArgsProofs CharModel CharSpec CharProofs IoModel ZetaModel RunModel RunProps
  LuInst LuFast ChangeModel ChangeProps InvModel InvProofs ExpModel ExpProofs.
Import ListNotations.
Open Scope Z_scope.

Lemma charpoly_length M cp : charpoly M = OK cp -> length cp = S (length M).
Proof.
  unfold charpoly. intros E. do 4 (apply ExpProofs.bind_ok in E; destruct E as (? & _ & E)).
  match type of E with OK ?m = _ => remember m as o eqn:Eo end. injection E as <-. subst o. now rewrite map_length, seq_length.
Qed.

(** ** the functional equation *)
Theorem C68_functional_equation : forall M prec p dim P, 2 <= p -> charpoly_frob M prec p dim = OK P ->
  length P = S (length M) /\
  exists eps, (eps = 1 \/ eps = -1) /\ (Nat.even dim = false -> eps = 1) /\
    forall i, (2 * i < length M)%nat ->
      (p ^ full_prec (length M) dim prec i | nth i P 0 - eps * nth (length M - i) P 0 * p ^ half (length M) dim i).
Proof.
  intros M prec p dim P Hp E. unfold charpoly_frob in E. apply ExpProofs.bind_ok in E. destruct E as (cp & E1 & E). apply charpoly_length in E1.
  destruct (frob_from_equation _ _ _ _ _ Hp E ltac:(lia)) as (L1 & L2 & sg & S1 & S2 & S3). replace (length cp - 1)%nat with (length M) in S3 by lia.
  split; [lia|]. exists sg. split; [exact S1|]. split; [exact S2|]. intros i Hi. now apply S3.
Qed.
Print Assumptions C68_functional_equation.

(** hence the lower half is divisible by the powers of p in that equation *)
Theorem C68_divisible : forall M prec p dim P, 2 <= p -> charpoly_frob M prec p dim = OK P ->
  forall i, (2 * i < length M)%nat -> (p ^ half (length M) dim i | nth i P 0).
Proof.
  intros M prec p dim P Hp E i Hi. unfold charpoly_frob in E. apply ExpProofs.bind_ok in E. destruct E as (cp & E1 & E). apply charpoly_length in E1.
  destruct (frob_from_equation _ _ _ _ _ Hp E ltac:(lia)) as (L1 & L2 & sg & S1 & S2 & S3). replace (length cp - 1)%nat with (length M) in S3 by lia.
  destruct (S3 i Hi) as (S4 & S5). pose proof (half_nonneg (length M) dim i).
  replace (nth i P 0) with ((nth i P 0 - sg * nth (length M - i) P 0 * p ^ half (length M) dim i) + sg * nth (length M - i) P 0 * p ^ half (length M) dim i) by ring.
  apply Z.divide_add_r; [|apply Z.divide_factor_r]. eapply Z.divide_trans; [|exact S5]. apply pow_div. lia.
Qed.
Print Assumptions C68_divisible.

(** the Frobenius matrix of a curve of genus 1 over F_17, known modulo 17^2 *)
Example C68_functional_equation_ex : charpoly_frob [[6; -1]; [17; 0]] [3; 2; 2] 17 1 = OK [17; -6; 1] /\
  full_prec 2 1 [3; 2; 2] 0 = 3 /\ half 2 1 0 = 1.
Proof. repeat split; vm_compute; reflexivity. Qed.

(** The middle coefficient is not covered: with sign -1 and even degree it must be
    0, but the loop negates it and goes on. *)
Definition mid_mat : mat := [[0; 0; 0; 81]; [1; 0; 0; 9]; [0; 1; 0; -1]; [0; 0; 1; -1]].
Theorem C68_middle_refuted : ~ forall M prec p dim P, 2 <= p -> charpoly_frob M prec p dim = OK P ->
  exists eps, (eps = 1 \/ eps = -1) /\ forall i, (2 * i <= length M)%nat ->
    (p ^ full_prec (length M) dim prec i | nth i P 0 - eps * nth (length M - i) P 0 * p ^ half (length M) dim i).
Proof.
  intros H. assert (E : charpoly_frob mid_mat [20; 20; 20; 20; 20] 3 2 = OK [-81; -9; -1; 1; 1]) by (vm_compute; reflexivity).
  destruct (H _ _ 3 _ _ ltac:(lia) E) as (eps & [->| ->] & G).
  - specialize (G 1%nat ltac:(cbn; lia)). apply Z.mod_divide in G; [vm_compute in G; discriminate|vm_compute; discriminate].
  - specialize (G 2%nat ltac:(cbn; lia)). apply Z.mod_divide in G; [vm_compute in G; discriminate|vm_compute; discriminate].
Qed.
Print Assumptions C68_middle_refuted.
(** the characteristic polynomial of that matrix has the other middle coefficient *)
Example C68_middle_ex : charpoly mid_mat = OK [-81; -9; 1; 1; 1].
Proof. vm_compute; reflexivity. Qed.

(** ** the constant term of every zeta function that is returned *)
Theorem C68_constant_term : forall lu gauss inv det rnd a0 c0 f p r, 2 <= p -> zeta_default lu gauss inv det rnd ((a0, c0) :: f) p = OK r ->
  let degree := (length (fst r) - 1)%nat in let dim := (length a0 - 2)%nat in
  (1 <= dim)%nat /\ (2 <= degree)%nat /\
  exists eps c, (eps = 1 \/ eps = -1) /\ nth 0 (fst r) 0 = eps * p ^ (Z.of_nat degree * Z.of_nat dim / 2) * (1 + p * c).
Proof.
  intros lu gauss inv det rnd a0 c0 f p r Hp E. pose proof (zeta_lead _ _ _ _ _ _ _ _ Hp E) as (K1 & K2).
  unfold zeta_default, zeta_function in E. cbv zeta in E.
  apply ExpProofs.bind_ok in E. destruct E as ([[[prec N] cprec] lift] & E1 & E). unfold zeta_args in E1. apply ExpProofs.bind_ok in E1. destruct E1 as ([[pr N0] c1] & E0 & E1).
  cbn [Z.ltb Z.compare] in E1. injection E1 as -> -> -> <-.
  do 3 (apply ExpProofs.bind_ok in E; destruct E as (? & _ & E)). apply ExpProofs.bind_ok in E. destruct E as (Fr & _ & E). apply ExpProofs.bind_ok in E. destruct E as (cp & E2 & E). injection E as <-. cbn [fst] in *.
  unfold zeta_finish, charpoly_frob in E2. apply ExpProofs.bind_ok in E2. destruct E2 as (cp' & Ec & E2). apply charpoly_length in Ec.
  assert (D : (2 <= Z.of_nat (length a0 - 1) <= 3) /\ (3 <= length cprec)%nat /\ 1 <= nth (length cprec - 1) cprec 0).
  { apply default_args_cases in E0. repeat destruct E0 as [E0|E0]; destruct E0 as (En & _ & E0); (split; [lia|]);
      unfold args_2_3, args_2_4, args_2_5, args_2_6, args_2_7, args_2_8, args_2_9, args_3_4, args_3_5, args_3_6 in E0;
      repeat match type of E0 with _ = if ?b then _ else _ => destruct b end; injection E0 as -> -> ->; cbn [length nth Nat.sub]; lia. }
  destruct D as (D1 & D2 & D3). replace (Z.to_nat (Z.of_nat (length a0 - 1) - 1)) with (length a0 - 2)%nat in E2 by lia.
  destruct (frob_from_equation _ _ _ _ _ Hp E2 ltac:(lia)) as (L1 & L2 & sg & S1 & _ & S3). cbv zeta. rewrite L2 in *.
  split; [lia|]. split; [lia|]. set (degree := (length cp' - 1)%nat) in *. set (dim := (length a0 - 2)%nat) in *.
  destruct (S3 0%nat ltac:(lia)) as (_ & (k & S5)). rewrite Nat.sub_0_r, K2 in S5.
  assert (H0 : half degree dim 0 = Z.of_nat degree * Z.of_nat dim / 2) by (unfold half; now rewrite Nat.mul_0_r, Nat.sub_0_r).
  assert (F : half degree dim 0 + 1 <= full_prec degree dim cprec 0).
  { unfold full_prec. change (2 * 0)%nat with 0%nat. change (0 <=? degree)%nat with true. cbv iota. rewrite Nat.sub_0_r. assert (DD : nth degree cprec 0 = nth (length cprec - 1) cprec 0) by (f_equal; unfold degree; lia). rewrite DD. pose proof (Z.le_max_r (nth 0 cprec 0) (nth (length cprec - 1) cprec 0 + half degree dim 0)). cbn [Nat.mul] in *. lia. }
  pose proof (half_nonneg degree dim 0) as HN. rewrite <- H0. set (h := half degree dim 0) in *. set (fp := full_prec degree dim cprec 0) in *.
  exists sg, (sg * k * p ^ (fp - h - 1)). split; [exact S1|].
  replace (p ^ fp) with (p * p ^ (fp - h - 1) * p ^ h) in S5 by (rewrite <- Z.pow_succ_r, <- Z.pow_add_r by lia; f_equal; lia).
  assert (SS : sg * sg = 1) by (destruct S1; subst sg; reflexivity).
  transitivity (sg * p ^ h + (sg * sg) * (k * (p * p ^ (fp - h - 1) * p ^ h))); [rewrite SS; lia|ring].
Qed.
Print Assumptions C68_constant_term.

(** ** the polynomial recorded in test_dwork *)
(** an expected constant term not divisible by the prime of the call can never agree *)
Theorem C68_expected_divisible : forall lu gauss inv det rnd ms cs p txt e, 2 <= p ->
  parse_vec parse_Z txt = OK e -> ~ (p | nth 0 (fst e) 0) ->
  forall c, test_vectors_read lu gauss inv det rnd ms cs p txt = OK c -> c = 1.
Proof.
  intros lu gauss inv det rnd ms cs p txt e Hp E2 HN c E. unfold test_vectors_read in E. apply ExpProofs.bind_ok in E. destruct E as (f & _ & E). apply ExpProofs.bind_ok in E. destruct E as (r & E1 & E).
  destruct f as [|[a0 c0] f]; [unfold zeta_default, zeta_function in E1; discriminate E1|]. destruct (C68_constant_term _ _ _ _ _ _ _ _ p _ Hp E1) as (D1 & D2 & eps & k & H1 & H2).
  set (degree := (length (fst r) - 1)%nat) in *. set (dim := (length a0 - 2)%nat) in *.
  unfold compare_read in E. rewrite E2 in E. cbn [bind] in E.
  destruct (zx_eqb (fst r) (fst e)) eqn:Z0; [|now injection E as <-]. exfalso. apply HN.
  unfold zx_eqb in Z0. rewrite forallb_forall in Z0. specialize (Z0 0%nat). rewrite in_seq in Z0. specialize (Z0 ltac:(lia)). apply Z.eqb_eq in Z0.
  rewrite <- Z0, H2. apply Z.divide_mul_l, Z.divide_mul_r. assert (HE : 1 <= Z.of_nat degree * Z.of_nat dim / 2) by (apply Z.div_le_lower_bound; nia).
  rewrite <- (Z.pow_1_r p) at 1. apply pow_div. lia.
Qed.
Print Assumptions C68_expected_divisible.

(** with the comparison repaired, test_dwork reports a failure (1) for every library
    and all random values, and so for any other polynomial: the prime of the call is
    23, the recorded constant term is -11^21 *)
Theorem C68_dwork_expected_refuted : forall lu gauss inv det rnd ms cs c,
  test_vectors_read lu gauss inv det rnd ms cs 23 dwork_txt = OK c -> c = 1.
Proof.
  intros lu gauss inv det rnd ms cs. destruct (parse_vec parse_Z dwork_txt) as [e|] eqn:E2.
  - apply (C68_expected_divisible _ _ _ _ _ _ _ _ _ e); [lia|exact E2|].
    assert (X : nth 0 (match parse_vec parse_Z dwork_txt with OK e => fst e | Err _ => [] end) 0 = - 11 ^ 21) by (vm_compute; reflexivity).
    rewrite E2 in X. rewrite X. intros V. apply Z.mod_divide in V; [vm_compute in V; discriminate|lia].
  - exfalso. assert (X : match parse_vec parse_Z dwork_txt with OK _ => true | Err _ => false end = true) by (vm_compute; reflexivity). rewrite E2 in X. discriminate.
Qed.
Print Assumptions C68_dwork_expected_refuted.

(** a run with p = 23 that returns *)
Example C68_dwork_ex : test_vectors_read lu_inst gauss_inst inv_fast det_inst rnd1 (map fst hesse) (map snd hesse) 23 dwork_txt = OK 1.
Proof. vm_compute; reflexivity. Qed.
(** a comparison that succeeds *)
Example C68_read_ex : compare_read (print_vec print_Z [17; -6; 1]) [17; -6; 1] = OK 0.
Proof. vm_compute; reflexivity. Qed.

(** The recorded polynomials satisfy the functional equation exactly: genus3 for 17
    and K3 for 23 as in the calls, dwork for 11. *)
Definition func_eqb (p : Z) (dim : nat) (eps : Z) (P : list Z) : bool :=
  let degree := (length P - 1)%nat in
  forallb (fun i => nth i P 0 =? eps * nth (degree - i) P 0 * p ^ half degree dim i) (seq 0 (S (degree / 2))).
Example C68_recorded_ex :
  (e <- parse_vec parse_Z genus3_txt ;; OK (func_eqb 17 1 1 (fst e))) = OK true /\
  (e <- parse_vec parse_Z K3_txt ;; OK (func_eqb 23 2 (-1) (fst e))) = OK true /\
  (e <- parse_vec parse_Z dwork_txt ;; OK (func_eqb 11 2 (-1) (fst e), func_eqb 23 2 (-1) (fst e), func_eqb 23 2 1 (fst e))) = OK (true, false, false).
Proof. repeat split; vm_compute; reflexivity. Qed.
