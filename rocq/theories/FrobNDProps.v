(** Properties C38 and the non-degenerate parts of C24 - C26: statements only. *)
From Coq Require Import ZArith Znumtheory List Lia.
From Verif Require Import Base VecModel VecSpec VecProofs ToolsModel ToolsSpec ToolsProofs MatModel MatProofs DRModel DRSpec DRProofs
  DRRed DRStep DRFinal DRPath DRLemmas FrobModel FrobSpec FrobSum FrobTop FdModel FdSpec
  NDModel NDSpec NDRed NDCol NDStep NDPoly NDBasis NDProps FrobNDModel FrobND FrobNDTop.
Import ListNotations.
Open Scope Z_scope.

(** what the keys h of the map H satisfy at level e: sum d e, positive entries,
    and, in frob_ND_flint while e >= m, every entry exceeds the one of the basis
    element b ([keyok] in FrobND.v is the same) *)
Definition key_inv (n : nat) (d : Z) (k : fnd_kind) (b : list Z) (m e : Z) (h : list Z) : Prop :=
  is_tuple (S n) (d * e) h /\ (forall i, (i <= n)%nat -> 1 <= nth i h 0) /\
  (k = KFlint -> m <= e -> forall i, (i <= n)%nat -> nth i b 0 + 1 <= nth i h 0).

(** C38/C24: the terms added at level e = m + j satisfy the invariant; the search
    for a direction terminates, also with the shift; the next key satisfies the
    invariant of the next level *)
Theorem C38_direction : forall slv q p prec f N,
  init_ND slv q p prec f = OK N -> wf_poly (r_n (nd_dr N)) (r_d (nd_dr N)) f -> solver_ok q slv ->
  2 <= p -> 2 <= q -> (1 <= r_n (nd_dr N))%nat ->
  forall k i, (i < length (r_basis (nd_dr N)))%nat ->
  let n := r_n (nd_dr N) in let d := r_d (nd_dr N) in
  let b := nth i (r_basis (nd_dr N)) [] in
  let m := pole_of n d b in
  (forall j u, 0 <= j -> is_tuple (S n) (d * j) u -> key_inv n d k b m (m + j) (eplus (eplus u b) (repeat 1 (S n)))) /\
  forall e h, 1 <= e -> key_inv n d k b m e h ->
  exists v, fnd_dir N k b m e h = OK v /\ is_tuple (S n) d v /\
    (1 < e -> key_inv n d k b m (e - 1) (vsub h v)) /\ (e = 1 -> v = h).
Proof.
  intros slv q p prec f N H W. destruct (init_ND_inv _ _ _ _ _ _ H W) as (inv & <- & <-).
  intros Hs Hp Hq Hn k i Hi n d b m.
  destruct (coord_ok slv (nd_dr N) (ni_dr slv N inv) Hs Hn i Hi) as (b' & B1 & B2 & B3 & B4 & _).
  subst b'. fold b in B4, B1, B3. fold m in B4, B3. split.
  - intros j u Hj Hu. pose proof (mono_key N Hn b m B4 k j u Hu Hj) as K. unfold ones_vec in K. rewrite <- !eplus_vadd in K. exact K.
  - intros e h He Hk. exact (dir_ok slv N inv Hn b m B4 k e h He Hk).
Qed.
Print Assumptions C38_direction.

(** C24: the search for a direction in the non-degenerate routines (frob_ND_*,
    monomial_to_basis_ND): d units are taken, at least one is left everywhere *)
Theorem C24_ND_direction_exists : forall d u, 0 <= d -> (forall i, (i < length u)%nat -> 1 <= nth i u 0) ->
  d + Z.of_nat (length u) <= zsum u ->
  exists v, nd_dir d u = OK v /\ length v = length u /\ zsum v = d /\
    forall i, (i < length u)%nat -> 0 <= nth i v 0 /\ nth i v 0 + 1 <= nth i u 0.
Proof.
  intros d u Hd Hu Hs. destruct (nd_dir_ok d u Hd Hu ltac:(lia)) as (w & W1 & W2 & W3 & W4 & W5).
  exists w. repeat (split; [assumption|]). intros i Hi. split; [now apply nonneg_nth|auto].
Qed.
Print Assumptions C24_ND_direction_exists.
Example C24_ND_ex : nd_dir 3 [4; 1; 2] = OK [3; 0; 0] /\ 3 + 3 <= zsum [4; 1; 2].
Proof. split; [reflexivity|]. cbn. lia. Qed.

(** C38: a reduction by p (resp. p - 1) steps succeeds, ends at the destination
    the assertions ask for, has positive exponents on the way, and preserves the
    class.  [kind_fine] asks for a value of [loop] the code has a case for, and
    for frob_ND_flint one of: the fmpz branch (2^64 <= q), no finite differences
    (p <= n + 1), or nested coefficients along the path (C33, C36). *)
Theorem C38_reduce : forall slv q p prec f N,
  init_ND slv q p prec f = OK N -> wf_poly (r_n (nd_dr N)) (r_d (nd_dr N)) f -> solver_ok q slv ->
  2 <= p -> 2 <= q -> (1 <= r_n (nd_dr N))%nat ->
  forall k i P, (i < length (r_basis (nd_dr N)))%nat -> 1 <= P ->
  let n := r_n (nd_dr N) in let d := r_d (nd_dr N) in
  let b := nth i (r_basis (nd_dr N)) [] in
  let m := pole_of n d b in
  kind_fine slv N b m P k ->
  forall e h v G, 1 <= e <= m + P - 1 -> key_inv n d k b m e h -> fnd_dir N k b m e h = OK v ->
  length G = length (nd_basis N) -> (forall x, In x G -> 0 <= x < q) ->
  let steps := if 1 <? e then p else p - 1 in
  let dest := if 1 <? e then vscale p (vsub h v) else h in
  (forall s j, 0 <= s <= steps -> (j <= n)%nat -> 1 <= nth j (vsub (vscale p h) (vscale s v)) 0) /\
  (e = 1 -> zsum dest = d) /\
  exists G', fnd_reduce slv N k steps v h G = OK (dest, G') /\ length G' = length (nd_basis N) /\
    forall phi, GD q n d f phi ->
      cong q (ev_ND (log_of d phi) dest (nd_basis N) G') (ev_ND (log_of d phi) (vscale p h) (nd_basis N) G).
Proof.
  intros slv q p prec f N H W. destruct (init_ND_inv _ _ _ _ _ _ H W) as (inv & <- & <-).
  pose proof (init_ND_p _ _ _ _ _ _ H) as Ep.
  rewrite <- Ep. intros Hs Hp Hq Hn k i P Hi HP n d b m Hk e h v G He Kh Dv LG RG steps dest.
  destruct (coord_ok slv (nd_dr N) (ni_dr slv N inv) Hs Hn i Hi) as (b' & B1 & B2 & B3 & B4 & _).
  subst b'. fold b in B4, B1, B3. fold m in B4, B3.
  destruct (dir_ok slv N inv Hn b m B4 k e h ltac:(lia) Kh) as (v' & V1 & V2 & V3 & V4).
  rewrite Dv in V1. injection V1 as <-.
  destruct (reduce_ok slv N inv Hs Hp Hq Hn b m P k e h v G Hk He Kh Dv V2 V3 V4 LG RG) as (G' & R1 & R2 & R3 & R4).
  pose proof Kh as ((Lh & _ & Sh) & Ph & _). pose proof V2 as (Lv & Nv & _). split; [|split].
  - intros s j Hsj Hj. rewrite vsub_nth, !vscale_nth by (rewrite !vscale_length; unfold n in *; congruence).
    pose proof (nonneg_nth v j Nv). specialize (Ph j Hj). unfold steps in Hsj. destruct (Z.ltb_spec 1 e) as [L|L].
    + destruct (V3 L) as (_ & P3 & _). specialize (P3 j Hj). rewrite vsub_nth in P3 by (unfold n in *; congruence). nia.
    + rewrite (V4 ltac:(lia)). nia.
  - intros ->. unfold dest. cbn [Z.ltb Z.compare Pos.compare Pos.compare_cont]. rewrite Sh. ring.
  - exists G'. split; [exact R1|]. split; [exact R2|]. exact R4.
Qed.
Print Assumptions C38_reduce.

(** C38, C25, C26 for the three routines: none of them fails before the division,
    the running factor is complete, and the vector represents the truncated
    series.  Unlike in frob_J_ZZ no bound on n/p is needed.  T is any reachable
    table of powers (C29). *)
Theorem C38_frobenius_series : forall slv q p prec f N,
  init_ND slv q p prec f = OK N -> wf_poly (r_n (nd_dr N)) (r_d (nd_dr N)) f -> solver_ok q slv ->
  2 <= p -> 2 <= q -> (1 <= r_n (nd_dr N))%nat ->
  forall reqs T, foldM (fun T power => compute_fpow q f power T) reqs (fpow_init q (r_n (nd_dr N))) = OK T ->
  forall k i P, (i < length (r_basis (nd_dr N)))%nat -> 1 <= P ->
  let n := r_n (nd_dr N) in let d := r_d (nd_dr N) in
  let b := nth i (r_basis (nd_dr N)) [] in
  let m := pole_of n d b in
  kind_fine slv N b m P k -> coef_fits k m P ->
  exists F fact, fnd_sum slv N k T i P = OK (F, fact) /\ length F = length (r_basis (nd_dr N)) /\
    0 <= fact < q /\ cong q fact (zfact (p * (m + P - 1) - 1)) /\
    forall phi psi, GD q n d f phi -> basis_val q n d (r_basis (nd_dr N)) phi psi ->
      cong q (ev_basis psi (r_basis (nd_dr N)) F) (frob_series phi n f p m P b).
Proof.
  intros slv q p prec f N H W. destruct (init_ND_inv _ _ _ _ _ _ H W) as (inv & <- & <-).
  pose proof (init_ND_p _ _ _ _ _ _ H) as Ep.
  rewrite <- Ep. intros Hs Hp Hq Hn reqs T HT k i P Hi HP n d b m Hk Hc.
  destruct (fpow_history (r_q (nd_dr N)) n d (r_f (nd_dr N)) Hq W reqs _ (init_ok _ _ _ _ Hq)) as (T1 & A1 & A2 & _).
  unfold n in A1. rewrite A1 in HT. injection HT as <-.
  exact (fnd_sum_ok slv N inv Hs Hp Hq Hn i P T1 Hi HP A2 k Hk Hc).
Qed.
Print Assumptions C38_frobenius_series.

(** ... and the value returned, after dividing by (p(m+P-1)-1)! / p^(n-1) *)
Theorem C38_frobenius_value : forall slv p e prec f N,
  let q := p ^ e in
  init_ND slv q p prec f = OK N -> wf_poly (r_n (nd_dr N)) (r_d (nd_dr N)) f -> solver_ok q slv ->
  prime p -> 1 <= e -> (1 <= r_n (nd_dr N))%nat ->
  forall reqs T, foldM (fun T power => compute_fpow q f power T) reqs (fpow_init q (r_n (nd_dr N))) = OK T ->
  forall k i P, (i < length (r_basis (nd_dr N)))%nat -> 1 <= P ->
  let n := r_n (nd_dr N) in let d := r_d (nd_dr N) in
  let b := nth i (r_basis (nd_dr N)) [] in
  let m := pole_of n d b in
  let c := Z.of_nat n - 1 in
  kind_fine slv N b m P k -> coef_fits k m P ->
  exists F v u, length F = length (r_basis (nd_dr N)) /\
    (forall phi psi, GD q n d f phi -> basis_val q n d (r_basis (nd_dr N)) phi psi ->
      cong q (ev_basis psi (r_basis (nd_dr N)) F) (frob_series phi n f p m P b)) /\
    0 <= v /\ zfact (p * (m + P - 1) - 1) = p ^ v * u /\ ~ (p | u) /\
    (v <= c -> exists R, frob_ND_kind slv N k T i P = OK R /\ length R = length F /\
       forall j, (j < length F)%nat -> 0 <= nth j R 0 < q /\ cong q (u * nth j R 0) (p ^ (c - v) * nth j F 0)) /\
    (c < v ->
      (exists R, frob_ND_kind slv N k T i P = OK R /\ length R = length F /\
         forall j, (j < length F)%nat -> 0 <= nth j R 0 < q /\ cong q (u * (p ^ (v - c) * nth j R 0)) (nth j F 0)) \/
      (frob_ND_kind slv N k T i P = Err EAssert /\
         exists j, (j < length F)%nat /\ forall y, ~ cong q (p ^ (v - c) * y) (nth j F 0))).
Proof.
  intros slv p e prec f N q H W Hs Hp He Hn reqs T HT k i P Hi HP n d b m c Hk Hc.
  assert (Hp2 : 2 <= p) by (destruct Hp; lia).
  assert (Hq : 2 <= q).
  { unfold q. replace e with (1 + (e - 1)) by lia. rewrite Z.pow_add_r, Z.pow_1_r by lia.
    pose proof (Z.pow_pos_nonneg p (e - 1) ltac:(lia) ltac:(lia)). nia. }
  destruct (C38_frobenius_series slv q p prec f N H W Hs Hp2 Hq Hn reqs T HT k i P Hi HP Hk Hc) as (F & fact & S1 & S2 & S3 & S4 & S5).
  destruct (init_ND_inv _ _ _ _ _ _ H W) as (inv & Eq & _).
  pose proof (init_ND_p _ _ _ _ _ _ H) as Ep.
  destruct (coord_ok slv (nd_dr N) (ni_dr slv N inv)) with (i := i) as (b' & B1 & B2 & B3 & _ & B5); auto.
  { rewrite Eq. exact Hs. }
  subst b'. fold b in B1, B3, B5. fold n d m in B3, B5.
  assert (HPP : 1 <= p * (m + P - 1)) by nia.
  destruct (fnd_finish_ok k p e (Z.of_nat n) (p * (m + P - 1)) F Hp He ltac:(unfold n; lia) HPP) as (v & u & V1 & V2 & V3 & V4 & V5).
  assert (EJ : frob_ND_kind slv N k T i P = fnd_finish k q p (Z.of_nat n) (p * (m + P - 1)) F).
  { unfold frob_ND_kind. cbv zeta. rewrite B1. cbn [bind]. rewrite S1. cbn [bind fst snd]. rewrite B5, Ep, Eq. reflexivity. }
  exists F, v, u. rewrite EJ. do 5 (split; [assumption|]). split; [exact V4|exact V5].
Qed.
Print Assumptions C38_frobenius_value.

(** C25 for the non-degenerate routines, alone: every prime, also p <= n *)
Theorem C25_ND_factorial_bookkeeping : forall slv q p prec f N,
  init_ND slv q p prec f = OK N -> wf_poly (r_n (nd_dr N)) (r_d (nd_dr N)) f -> solver_ok q slv ->
  2 <= p -> 2 <= q -> (1 <= r_n (nd_dr N))%nat ->
  forall reqs T, foldM (fun T power => compute_fpow q f power T) reqs (fpow_init q (r_n (nd_dr N))) = OK T ->
  forall loop i P, (i < length (r_basis (nd_dr N)))%nat -> 1 <= P -> (loop <= 2)%nat ->
  let m := pole_of (r_n (nd_dr N)) (r_d (nd_dr N)) (nth i (r_basis (nd_dr N)) []) in
  m + P <= 32 ->
  exists F fact, fnd_sum slv N (KZZ loop) T i P = OK (F, fact) /\ cong q fact (zfact (p * (m + P - 1) - 1)).
Proof.
  intros slv q p prec f N H W Hs Hp Hq Hn reqs T HT loop i P Hi HP Hl m HmP.
  destruct (init_ND_inv _ _ _ _ _ _ H W) as (inv & Eq & _).
  destruct (coord_ok slv (nd_dr N) (ni_dr slv N inv)) with (i := i) as (b' & B1 & B2 & B3 & _ & B5); auto.
  { rewrite Eq. exact Hs. }
  subst b'. fold m in B3.
  destruct (C38_frobenius_series slv q p prec f N H W Hs Hp Hq Hn reqs T HT (KZZ loop) i P Hi HP Hl) as (F & fact & S1 & _ & _ & S4 & _).
  - intros a j H1 H2. fold m.
    eapply Z.le_lt_trans; [apply Z.mul_le_mono_nonneg; [|apply choose_le_pow2| |apply choose_le_pow2]; apply ToolsProofs.choose_nonneg|].
    rewrite <- Z.pow_add_r by lia. apply Z.pow_lt_mono_r; lia.
  - exists F, fact. auto.
Qed.
Print Assumptions C25_ND_factorial_bookkeeping.

(** the matrix: column i is the image of basis element i (0 if its precision is 0) *)
Theorem C38_matrix : forall slv N T prec M, frob_matrix_ND slv N T prec = OK M ->
  let s := length (r_basis (nd_dr N)) in
  shape M s s /\ length prec = r_n (nd_dr N) /\
  forall i, (i < s)%nat -> exists Nm R,
    get_at prec (pole_order (nd_dr N) (nth i (r_basis (nd_dr N)) []) - 1) = OK Nm /\
    (if 0 <? Nm then frob_ND slv N T i Nm = OK R else R = repeat 0 s) /\
    forall j, (j < s)%nat -> mget M j i = nth j R 0.
Proof.
  intros slv N T prec M H s. unfold frob_matrix_ND in H. cbv zeta in H.
  apply bind_ok in H. destruct H as ([] & E1 & H). apply bind_ok in H. destruct H as (rows & E2 & H). injection H as <-.
  fold s in E2 |- *. split; [apply transpose_shape|]. split.
  { unfold check in E1. destruct (Nat.eqb_spec (length prec) (r_n (nd_dr N))) as [E|E]; [auto|discriminate E1]. }
  intros i Hi. pose proof (proj1 (mapM_ok _ _ _) E2) as R2.
  assert (Hr : exists R, nth_error rows i = Some R /\ frob_row_ND slv N T prec i = OK R).
  { destruct (Forall2_nth_error _ _ _ i i R2) as (R & R3 & R4).
    - rewrite nth_error_nth' with (d := 0%nat) by (now rewrite seq_length). now rewrite seq_nth.
    - exists R. split; auto. }
  destruct Hr as (R & R3 & R4). unfold frob_row_ND in R4. cbv zeta in R4. apply bind_ok in R4. destruct R4 as (Nm & R4 & R5).
  exists Nm, R. split; [exact R4|]. split.
  { destruct (0 <? Nm); auto. injection R5 as <-. reflexivity. }
  intros j Hj. rewrite transpose_get by auto. unfold mget. now rewrite (nth_error_nth _ _ _ R3).
Qed.
Print Assumptions C38_matrix.

(** the two conjugate points over Z/9 of C26_ex: with P = 1 the answer is -1, as
    for frob_J_ZZ; with P = 2 the factor 5! is divisible by 3 *)
Lemma ex_N_data : nth 0 (r_basis (nd_dr ex_N)) [] = [0; 0] /\ r_n (nd_dr ex_N) = 1%nat /\ r_d (nd_dr ex_N) = 2 /\
  r_p (nd_dr ex_N) = 3 /\ r_q (nd_dr ex_N) = 9 /\ length (r_basis (nd_dr ex_N)) = 1%nat.
Proof. repeat split. Qed.
Lemma ex_steps : forall h, is_tuple 2 2 h -> positive h = true -> h = [1; 1].
Proof.
  intros h (L & _ & Sm) Ps. destruct h as [|x [|y [|]]]; try discriminate L. cbn in Sm.
  assert (0 < x) by (apply (proj1 (positive_iff [x; y]) Ps 0%nat); cbn; lia).
  assert (0 < y) by (apply (proj1 (positive_iff [x; y]) Ps 1%nat); cbn; lia).
  f_equal; [lia|f_equal; lia].
Qed.
Example C38_ex_hypotheses :
  init_ND ex_nslv 9 3 2 ex_f = OK ex_N /\ solver_ok 9 ex_nslv /\
  kind_fine ex_nslv ex_N [0; 0] 1 1 KFlint /\ coef_fits KFlint 1 1 /\ coef_fits (KZZp 0) 1 2.
Proof.
  split; [exact ex_N_init|]. split; [exact ex_nslv_ok|]. destruct ex_N_data as (_ & Dn & Dd & Dp & Dq & _).
  split; [|split].
  - cbn [kind_fine]. unfold flint_fine. rewrite Dn, Dd, Dp, Dq. right; right. split; [lia|].
    intros e h v Ps He Th Ph _ Hv HPs. assert (e = 1) by lia. subst e. apply ex_steps in Ph; [|exact Th]. subst h.
    unfold fnd_dir in Hv. cbn [Z.ltb Z.compare Pos.compare Pos.compare_cont] in Hv. injection Hv as <-.
    replace (get_ND_poly_flint ex_nslv ex_N (vsub (vscale 3 [1; 1]) (vscale (if 1 <? 1 then 3 else 3 - 1) [1; 1])) [1; 1])
      with (@OK (list mat) [[[0; 7]; [1; 0]]; [[0; 5]; [0; 0]]; [[0; 7]; [0; 0]]]) in HPs by (vm_compute; reflexivity).
    injection HPs as <-. split; [|exists 0%nat, 1%nat, 0%nat; cbn; lia].
    intros e e' mr mc He' Hl. cbn in Hl. assert (e = 1 /\ e' = 1 \/ e = 1 /\ e' = 2 \/ e = 2 /\ e' = 2)%nat as C by lia.
    destruct C as [[-> ->]|[[-> ->]|[-> ->]]]; auto. intros Hs i j Nz.
    destruct i as [|[|[|i]]]; destruct j as [|[|[|j]]]; cbn in Nz; try congruence; try (destruct i; cbn in Nz; congruence).
    apply (Hs 0%nat 1%nat). cbn. lia.
  - intros i j H1 H2. assert (i = 0 /\ j = 0) as [-> ->] by lia. vm_compute. reflexivity.
  - intros j Hj. assert (C : j = 0 \/ j = 1) by lia. destruct C as [-> | ->]; vm_compute; reflexivity.
Qed.
Example C38_ex :
  map (fun k => fnd_sum ex_nslv ex_N k (fpow_init 9 1) 0 1) [KZZ 0; KZZ 1; KZZ 2; KZZp 0; KZZp 1; KFlint] = repeat (OK ([7], 2)) 6 /\
  map (fun k => fnd_sum ex_nslv ex_N k (fpow_init 9 1) 0 2) [KZZ 0; KZZ 1; KZZ 2; KZZp 0; KZZp 1; KFlint] = repeat (OK ([6], 3)) 6 /\
  fnd_sum ex_nslv ex_N (KZZ 3) (fpow_init 9 1) 0 1 = Err EAssert /\
  frob_ND ex_nslv ex_N (fpow_init 9 1) 0 1 = OK [8] /\ frob_matrix_ND ex_nslv ex_N (fpow_init 9 1) [1] = OK [[8]] /\
  frob_series ex_phi 1 ex_f 3 1 1 [0; 0] mod 9 = 7 /\ frob_series ex_phi 1 ex_f 3 1 2 [0; 0] mod 9 = 6.
Proof. repeat split; vm_compute; reflexivity. Qed.
