(** Properties C09 (coefficients), C45, C47 (isND). *)
From Coq Require Import ZArith List Bool Lia Znumtheory.
From Verif Require Import Base VecModel VecSpec VecProofs ToolsModel ToolsSpec ToolsProofs PolyProofs MatModel MatProofs DRModel DRSpec DRProofs
  FrobModel NDModel NDSpec LinAlg SolveModel SolveSpec SolveProofs SmoothProofs LuInst ChangeModel ChangeSpec ChangeProofs ChangeFind.
Import ListNotations.
Open Scope Z_scope.

(** g is f(Mx) modulo q, coefficient by coefficient: there is an integral
    polynomial with the same monomials, congruent coefficients and the values of
    f(Mx) at all integral points *)
Definition substitutes (q : Z) (f : poly) (M : mat) (g : poly) : Prop :=
  exists g0, Forall2 (fun a b => fst a = fst b /\ cong q (snd a) (snd b)) g g0 /\
    forall x, length x = length M -> peval g0 x = peval f (vmatvec M x).

(** C09: not only the values but every coefficient *)
Theorem C09_coefficients : forall q f M, let n := length M in
  (forall r, In r M -> length r = n) ->
  (forall k c, In (k, c) f -> length k = n /\ nonneg k) ->
  exists g, change_of_variables q f M = OK g /\ substitutes q f M g.
Proof.
  intros q f M n HM Hf. destruct (change_of_variables_ok q f M HM Hf) as (g & E & _).
  destruct (cov_pcong q f M g E) as (g0 & E0 & C). exists g. split; auto. exists g0. split; [exact C|].
  destruct (change_of_variables_ok 0 f M HM Hf) as (g1 & E1 & _ & V & _). rewrite E0 in E1. injection E1 as <-.
  intros x Hx. destruct (V x Hx) as [k Hk]. lia.
Qed.
Print Assumptions C09_coefficients.

Lemma cov_substitutes q f M g n d : wf_poly n d f -> shape M (S n) (S n) -> change_of_variables q f M = OK g -> substitutes q f M g.
Proof.
  intros W [S1 S2] E. destruct (C09_coefficients q f M) as (g' & E' & C).
  - rewrite Forall_forall in S2. intros r Hr. rewrite S1. auto.
  - intros k c Hk. destruct (proj2 W k c Hk) as (A & B & _). rewrite S1. auto.
  - rewrite E in E'. injection E' as <-. exact C.
Qed.

(** C47, second part: isND decides non-degeneracy *)
Theorem C47_isND : forall p q lu f n d tl,
  prime p -> (p | q) -> ech_spec p lu -> 1 <= d -> init_tuples n d = OK tl -> f <> [] -> wf_poly n d f ->
  exists b, is_nd lu p q f = OK b /\ (b = true <-> non_degenerate p n d f).
Proof. intros p q lu f n d tl Pp Hpq HE Hd Htl Hf W. now apply (is_nd_ok p q lu n d tl). Qed.
Print Assumptions C47_isND.

Definition ex_cf : poly := [([1; 1], 1)].
Definition ex_nd : poly := [([0; 2], 1); ([2; 0], 1)].

(** x0 x1 is degenerate, x0^2 + x1^2 is not *)
Example C47_isND_ex : wf_poly 1 2 ex_cf /\ wf_poly 1 2 ex_nd /\ (exists tl, init_tuples 1 2 = OK tl) /\
  is_nd lu_inst 3 9 ex_cf = OK false /\ is_nd lu_inst 3 9 ex_nd = OK true.
Proof.
  split; [|split; [|split; [eexists; vm_compute; reflexivity|split; vm_compute; reflexivity]]].
  - split; [repeat constructor; cbn [In]; tauto|]. intros a c [E|[]]. injection E as <- <-. repeat split. repeat constructor; lia.
  - split.
    + repeat constructor; cbn [In]; try tauto. intros k v [E|[]]. now injection E as <- <-.
    + intros a c [E|[E|[]]]; injection E as <- <-; repeat split; repeat constructor; lia.
Qed.

(** C45, first part: for every sequence of random matrices and every random row,
    if some matrix of the sequence is invertible, the result is the first one with one row
    divided by the determinant; its determinant is 1 and the assertion holds.
    Otherwise the loop goes on. *)
Theorem C45_random_SL : forall p gauss det n row cands,
  prime p -> ech_spec p gauss -> det_spec p det -> (row < n)%nat ->
  Forall (fun A => shape A n n /\ mreduced p A) cands ->
  (Forall (fun A => ~ invertible p n A) cands /\ random_SL gauss det p n cands row = Err EFuel) \/
  (exists bad A later di R, cands = bad ++ A :: later /\ Forall (fun A => ~ invertible p n A) bad /\ invertible p n A /\
     random_SL gauss det p n cands row = OK R /\ shape R n n /\ mreduced p R /\ cong p (detf n (mget R)) 1 /\
     (forall i j, (i < n)%nat -> (j < n)%nat -> cong p (mget R i j) (if Nat.eqb i row then di * mget A i j else mget A i j))).
Proof. intros p gauss det n row cands Pp HG HD Hr HF. now apply random_SL_ok. Qed.
Print Assumptions C45_random_SL.

(** the i-th matrix drawn has determinant 1, and g is f(Rx) modulo p *)
Definition drawn (gauss : ech_fun) (det : Z -> nat -> mat -> Z) (p : Z) (n : nat) (d : Z) (f : poly)
    (rnd : nat -> list mat * nat) (i : nat) (R : mat) (g : poly) : Prop :=
  random_SL gauss det p (S n) (fst (rnd i)) (snd (rnd i)) = OK R /\ shape R (S n) (S n) /\
  cong p (detf (S n) (mget R)) 1 /\ wf_poly n d g /\ substitutes p f R g.

(** C45, second part *)
Theorem C45_find_change : forall p q lu gauss det n d tl f rnd N,
  prime p -> (p | q) -> ech_spec p lu -> ech_spec p gauss -> det_spec p det -> 1 <= d -> init_tuples n d = OK tl ->
  f <> [] -> wf_poly n d f ->
  (forall i, (snd (rnd i) < S n)%nat /\ Forall (fun A => shape A (S n) (S n) /\ mreduced p A) (fst (rnd i)) /\
     Exists (invertible p (S n)) (fst (rnd i))) ->
  exists M, find_change_of_variables lu gauss det p q rnd f N = OK M /\
    ((non_degenerate p n d f /\ M = ident (S n)) \/
     (~ non_degenerate p n d f /\ exists j g, (j < Z.to_nat N)%nat /\ drawn gauss det p n d f rnd j M g /\ non_degenerate p n d g /\
        forall j', (j' < j)%nat -> exists R' g', drawn gauss det p n d f rnd j' R' g' /\ ~ non_degenerate p n d g') \/
     (~ non_degenerate p n d f /\ M = mzero (S n) (S n) /\
        forall j', (j' < Z.to_nat N)%nat -> exists R' g', drawn gauss det p n d f rnd j' R' g' /\ ~ non_degenerate p n d g')).
Proof.
  intros p q lu gauss det n d tl f rnd N Pp Hpq HL HG HD Hd Htl Hf W Hrnd.
  assert (K : forall i R g, attempt p gauss det n d f rnd i R g -> drawn gauss det p n d f rnd i R g).
  { intros i R g (A1 & A2 & A3 & A4 & A5 & A6). unfold drawn. split; [exact A1|]. split; [exact A2|]. split; [exact A4|].
    split; [exact A6|]. now apply (cov_substitutes p f R g n d). }
  destruct (find_change_ok p gauss det Pp HG HD lu q n d tl f rnd HL Hpq Hd Htl Hf W Hrnd N)
    as (M & E & [[X1 X2]|[(X1 & j & g & X2 & X3 & X4 & X5)|(X1 & X2 & X3)]]); exists M; (split; [exact E|]).
  - left. auto.
  - right. left. split; auto. exists j, g. repeat (split; [auto; fail|]). intros j' Hj. destruct (X5 j' Hj) as (R' & g' & Y1 & Y2). eauto.
  - right. right. split; auto. split; auto. intros j' Hj. destruct (X3 j' Hj) as (R' & g' & Y1 & Y2). eauto.
Qed.
Print Assumptions C45_find_change.

(** the determinant itself meets the specification *)
Definition det_inst (p : Z) (n : nat) (A : mat) : Z := detf n (mget A) mod p.

Lemma det_inst_spec p : 2 <= p -> det_spec p det_inst.
Proof.
  intros Hp n A _ _. unfold det_inst. split; [apply Z.mod_pos_bound; lia|]. apply cong_mod_any.
Qed.

Definition ex_rnd (i : nat) : list mat * nat := ([[[1; 2]; [2; 1]]; [[1; 1]; [2; 1]]], 1%nat).

Example C45_ex : prime 3 /\ ech_spec 3 lu_inst /\ ech_spec 3 gauss_inst /\ det_spec 3 det_inst /\
  (forall i, (snd (ex_rnd i) < 2)%nat /\ Forall (fun A => shape A 2 2 /\ mreduced 3 A) (fst (ex_rnd i)) /\
     Exists (invertible 3 2) (fst (ex_rnd i))) /\
  random_SL gauss_inst det_inst 3 2 (fst (ex_rnd 0)) 1 = OK [[1; 1]; [1; 2]] /\
  find_change_of_variables lu_inst gauss_inst det_inst 3 9 ex_rnd ex_cf 5 = OK [[1; 1]; [1; 2]] /\
  find_change_of_variables lu_inst gauss_inst det_inst 3 9 ex_rnd ex_cf 0 = OK [[0; 0]; [0; 0]] /\
  find_change_of_variables lu_inst gauss_inst det_inst 3 9 ex_rnd ex_nd 5 = OK [[1; 0]; [0; 1]].
Proof.
  split; [exact prime_3|]. split; [apply lu_inst_spec, prime_3|]. split; [apply gauss_inst_spec, prime_3|].
  split; [apply det_inst_spec; lia|]. split.
  - intros i. cbn [ex_rnd fst snd]. split; [lia|]. split; [repeat constructor; lia|].
    right. left. exists (fun a b => mget [[2; 1]; [2; 2]] a b). intros a b Ha Hb.
    destruct a as [|[|a]]; [| |lia]; (destruct b as [|[|b]]; [| |lia]); apply Z.mod_divide; try lia; reflexivity.
  - repeat split; vm_compute; reflexivity.
Qed.
