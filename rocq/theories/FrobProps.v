(** Properties C24 - C29: statements only. *)
From Coq Require Import ZArith Znumtheory List Lia.
From Verif Require Import Base VecModel VecSpec VecProofs ToolsModel ToolsSpec ToolsProofs MatModel MatProofs
  DRModel DRSpec DRProofs DRRed DRStep DRFinal DRPath DRLemmas FrobModel FrobSpec FrobPath FrobProofs FrobSum FrobTop.
Import ListNotations.
Open Scope Z_scope.

(** C24: the search for a direction terminates and finds a good one *)
Theorem C24_direction_exists : forall d w, nonneg w -> Z.of_nat (length w) <= d -> d <= zsum w ->
  exists v, choose_dir d w = OK v /\ good_dir d w v.
Proof. exact choose_dir_good. Qed.
Print Assumptions C24_direction_exists.
Example C24_ex : choose_dir 4 [5; 0; 2] = OK [3; 0; 1] /\ good_dir 4 [5; 0; 2] [3; 0; 1].
Proof.
  split; [reflexivity|]. repeat split; intros; destruct i as [|[|[|i]]]; cbn in *; lia.
Qed.

(** C24: the path tweak(p h - i v), i = 0..end_, satisfies the preconditions of
    the reduction step (C20) and ends at pole order p e - end_ *)
Theorem C24_path_admissible : forall slv q p prec f D,
  init slv q p prec f = OK D -> wf_poly (r_n D) (r_d D) f -> 2 <= p -> (1 <= r_n D)%nat ->
  forall h v e, is_tuple (S (r_n D)) (r_d D * e) h -> good_dir (r_d D) h v ->
  let n := Z.of_nat (r_n D) in
  let at_ i := vsub (vscale p h) (vscale i v) in
  (forall i, 0 <= i < p -> n <= p * e - (i + 1) ->
     exists src dest, tweak (at_ i) (degG D) = OK src /\ tweak (at_ (i + 1)) (degG D) = OK dest /\
     exists y, vec_sub src dest = OK y /\ nonneg y /\ zsum y = r_d D /\
       forall k, (k <= r_n D)%nat -> 0 < nth k dest 0 -> 0 < nth k y 0) /\
  (forall i, 0 <= i <= p -> n <= p * e - i ->
     exists w, tweak (at_ i) (degG D) = OK w /\ nonneg w /\ zsum w = r_d D * (p * e - i) - degG D) /\
  (degG D = (r_d D - 1) * n).
Proof.
  intros slv q p prec f D H W. destruct (init_inv _ _ _ _ _ _ H W) as (inv & <- & <-).
  pose proof (init_p _ _ _ _ _ _ H) as Ep. rewrite <- Ep.
  intros Hp Hn h v e Hh Hv n0 at_. pose proof (degG_nonneg slv D inv) as Gn.
  assert (Nat_ : forall i, 0 <= i <= r_p D -> nonneg (at_ i)) by (intros i Hi; exact (nonneg_a D Hp h v e Hh Hv i Hi)).
  split; [|split].
  - intros i Hi He. destruct (tau_step slv D inv Hp h v e Hh Hv i Hi He) as (T1 & T2 & T3 & T4 & T5).
    eexists _, _. rewrite !tweak_eq by (auto; apply Nat_; lia). split; [reflexivity|]. split; [reflexivity|].
    eexists. rewrite vec_sub_ok. 2:{ rewrite !tweak_closed_length. unfold at_. rewrite !(len_a D h v e); auto. }
    split; [reflexivity|]. split; [exact T3|]. split; [exact T2|]. intros k Hk Hd. destruct (T4 k Hk); [|auto].
    unfold at_ in *. lia.
  - intros i Hi He. eexists. rewrite tweak_eq by (auto; apply Nat_; lia). split; [reflexivity|].
    destruct (tau_tuple slv D inv Hp h v e Hh Hv i Hi He) as (_ & T2 & T3). split; [exact T2|exact T3].
  - unfold degG, n0. ring.
Qed.
Print Assumptions C24_path_admissible.

(** C29: after any sequence of requests the table holds the powers of f; the
    result of an initial segment of the requests is an initial segment of the
    table.  [pow_sum n f j w] is the sum of (coefficient of x^u in f^j) * w u, so
    w may in particular select one coefficient. *)
Theorem C29_fpow_history : forall q n d f, 2 <= q -> wf_poly n d f -> forall reqs1 reqs2,
  let run reqs := foldM (fun T power => compute_fpow q f power T) reqs (fpow_init q n) in
  exists T1 T2, run reqs1 = OK T1 /\ run (reqs1 ++ reqs2) = OK T2 /\
    firstn (length T1) T2 = T1 /\
    (forall power, In power (reqs1 ++ reqs2) -> power + 1 <= zlen T2) /\
    forall j P, nth_error T2 j = Some P ->
      (forall u c, In (u, c) P -> is_tuple (S n) (d * Z.of_nat j) u /\ 0 <= c < q) /\
      forall w, cong q (sumf (fun t => snd t * w (fst t)) P) (pow_sum n f j w).
Proof.
  intros q n d f Hq Hf r1 r2 run.
  destruct (fpow_history q n d f Hq Hf r1 _ (init_ok q n d f Hq)) as (T1 & A1 & A2 & A3 & A4).
  destruct (fpow_history q n d f Hq Hf r2 T1 A2) as (T2 & B1 & B2 & B3 & B4).
  exists T1, T2. split; [exact A1|]. unfold run. rewrite foldM_app.
  rewrite A1. cbn [bind]. split; [exact B1|]. split; [exact B4|]. split.
  - assert (MX : forall l a, a <= fold_left (fun a power => Z.max a (power + 1)) l a /\
      forall x, In x l -> x + 1 <= fold_left (fun a power => Z.max a (power + 1)) l a).
    { induction l as [|y l IH]; intros a; cbn [fold_left]; [split; [lia|intros ? []]|].
      destruct (IH (Z.max a (y + 1))) as [I1 I2]. split; [lia|]. intros x [->|I]; [lia|auto]. }
    intros x I. rewrite B3. apply in_app_or in I. destruct I as [I|I].
    + destruct (MX r2 (zlen T1)) as [M1 _]. pose proof (proj2 (MX r1 (zlen (fpow_init q n))) x I). lia.
    + now apply MX.
  - intros j P E. destruct (proj2 B2 j P E) as (P1 & P2 & P3 & P4). split; [|exact P4]. intros u c I. split; [now apply (P3 u c)|now apply (P2 u c)].
Qed.
Print Assumptions C29_fpow_history.
Example C29_ex : foldM (fun T power => compute_fpow 9 ex_f power T) [0; 2; 1] (fpow_init 9 1) =
  OK [[([0; 0], 1)]; [([0; 2], 1); ([2; 0], 1)]; [([0; 4], 1); ([2; 2], 2); ([4; 0], 1)]].
Proof. vm_compute. reflexivity. Qed.
(** the coefficient of x0^2 x1^2 in (x0^2 + x1^2)^2 *)
Example C29_coef : pow_sum 1 ex_f 2 (fun u => if list_eq_dec Z.eq_dec u [2; 2] then 1 else 0) = 2.
Proof. vm_compute. reflexivity. Qed.

(** C27: the coefficients computed are those of the expansion of t^-m at t = 1 *)
Theorem C27_series_coefficients : forall m N t, 1 <= m -> 1 <= N ->
  t ^ m * sumf (fun j => D_coef m N j * t ^ j) (zseq 0 N) - 1 =
  (1 - t) ^ N * poly1 (map (fun k => - choose (k + Z.to_nat N - 1) k) (seq 0 (Z.to_nat m))) t.
Proof. exact D_inverse. Qed.
Print Assumptions C27_series_coefficients.
Theorem C27_code_computes_D : forall m N j, 1 <= m -> 0 <= j ->
  ((forall i, j <= i < N -> choose (Z.to_nat i) (Z.to_nat j) < 2 ^ 63) -> djm djm_ZZ m N j = OK (D_coef m N j)) /\
  ((forall i, j <= i < N -> choose (Z.to_nat (m + i - 1)) (Z.to_nat (m - 1)) * choose (Z.to_nat i) (Z.to_nat j) < 2 ^ 63) ->
     djm djm_64 m N j = OK (D_coef m N j)) /\
  (Z.abs (D_coef m N j) < 2 ^ 63 -> djm_acc64 m N j = OK (D_coef m N j)).
Proof.
  intros m N j Hm Hj. split; [|split]; intros H.
  - apply djm_ok; auto. intros i Hi. apply djm_ZZ_ok; auto. lia.
  - apply djm_ok; auto. intros i Hi. apply djm_64_ok; auto; [lia|]. now apply H.
  - now apply djm_acc64_ok.
Qed.
Print Assumptions C27_code_computes_D.
(** with N <= 63 the first routine never overflows *)
Theorem C27_no_overflow : forall m N j, 1 <= m -> 0 <= j -> N <= 63 -> djm djm_ZZ m N j = OK (D_coef m N j).
Proof.
  intros m N j Hm Hj HN. apply C27_code_computes_D; auto. intros i Hi.
  eapply Z.le_lt_trans; [apply choose_le_pow2|]. apply Z.pow_lt_mono_r; lia.
Qed.
Print Assumptions C27_no_overflow.
Example C27_ex : map (D_coef 2 3) [0; 1; 2] = [6; -8; 3] /\ djm djm_ZZ 2 3 1 = OK (-8) /\
  5 ^ 2 * (6 - 8 * 5 + 3 * 5 ^ 2) - 1 = (1 - 5) ^ 3 * (-1 - 3 * 5).
Proof. repeat split. Qed.

(** C25: the running factor is the complete (p(m+N-1)-1)! and none of the
    assertions about it fails; C26: the vector represents the truncated series,
    in each of the modes 0, 1, 2.  T is any reachable table of powers (C29). *)
Theorem C26_frobenius_series : forall slv q p prec f D,
  init slv q p prec f = OK D -> wf_poly (r_n D) (r_d D) f -> solver_ok q slv -> 2 <= p -> 2 <= q -> (1 <= r_n D)%nat ->
  forall reqs T, foldM (fun T power => compute_fpow q f power T) reqs (fpow_init q (r_n D)) = OK T ->
  forall i N loop, (i < length (r_basis D))%nat -> 1 <= N -> (loop <= 2)%nat ->
  let n := Z.of_nat (r_n D) in
  let b := nth i (r_basis D) [] in
  let m := pole_of (r_n D) (r_d D) b in
  n / p <= m + N - 1 ->
  (forall k j, 0 <= j <= k -> k < N -> choose (Z.to_nat k) (Z.to_nat j) < 2 ^ 63) ->
  (forall k j, 0 <= j <= k -> k < N -> m + j <= n / p ->
     choose (Z.to_nat (m + k - 1)) (Z.to_nat (m - 1)) * choose (Z.to_nat k) (Z.to_nat j) < 2 ^ 63) ->
  exists F fact, frob_sum_ZZ slv D T i N loop = OK (F, fact) /\ length F = length (r_basis D) /\
    0 <= fact < q /\ cong q fact (zfact (p * (m + N - 1) - 1)) /\
    forall phi psi, GD q (r_n D) (r_d D) f phi -> basis_val q (r_n D) (r_d D) (r_basis D) phi psi ->
      cong q (ev_basis psi (r_basis D) F) (frob_series phi (r_n D) f p m N b).
Proof.
  intros slv q p prec f D H W. pose proof (init_p _ _ _ _ _ _ H) as Ep. destruct (init_inv _ _ _ _ _ _ H W) as (inv & <- & <-).
  rewrite <- Ep. intros Hs Hp Hq Hn reqs T HT i N loop Hi HN Hl n0 b m Hb H1 H2.
  destruct (fpow_history (r_q D) (r_n D) (r_d D) (r_f D) Hq W reqs _ (init_ok _ _ _ _ Hq)) as (T1 & A1 & A2 & _).
  rewrite A1 in HT. injection HT as <-.
  exact (sum_ZZ_ok slv D inv Hs Hp Hq Hn i N loop T1 Hi HN Hl A2 Hb H1 H2).
Qed.
Print Assumptions C26_frobenius_series.

(** C26: the value returned, after dividing by (p(m+N-1)-1)! / p^(n-1) *)
Theorem C26_frobenius_value : forall slv p k prec f D,
  let q := p ^ k in
  init slv q p prec f = OK D -> wf_poly (r_n D) (r_d D) f -> solver_ok q slv -> prime p -> 1 <= k -> (1 <= r_n D)%nat ->
  forall reqs T, foldM (fun T power => compute_fpow q f power T) reqs (fpow_init q (r_n D)) = OK T ->
  forall i N loop, (i < length (r_basis D))%nat -> 1 <= N -> (loop <= 2)%nat ->
  let n := Z.of_nat (r_n D) in
  let b := nth i (r_basis D) [] in
  let m := pole_of (r_n D) (r_d D) b in
  n / p <= m + N - 1 ->
  (forall k j, 0 <= j <= k -> k < N -> choose (Z.to_nat k) (Z.to_nat j) < 2 ^ 63) ->
  (forall k j, 0 <= j <= k -> k < N -> m + j <= n / p ->
     choose (Z.to_nat (m + k - 1)) (Z.to_nat (m - 1)) * choose (Z.to_nat k) (Z.to_nat j) < 2 ^ 63) ->
  exists F v u, length F = length (r_basis D) /\
    (forall phi psi, GD q (r_n D) (r_d D) f phi -> basis_val q (r_n D) (r_d D) (r_basis D) phi psi ->
      cong q (ev_basis psi (r_basis D) F) (frob_series phi (r_n D) f p m N b)) /\
    0 <= v /\ zfact (p * (m + N - 1) - 1) = p ^ v * u /\ ~ (p | u) /\
    (v <= n - 1 -> exists R, frob_J_ZZ slv D T i N loop = OK R /\ length R = length F /\
       forall j, (j < length F)%nat -> cong q (u * nth j R 0) (p ^ (n - 1 - v) * nth j F 0)) /\
    (n - 1 < v ->
      (exists R, frob_J_ZZ slv D T i N loop = OK R /\ length R = length F /\
         forall j, (j < length F)%nat -> cong q (u * (p ^ (v - (n - 1)) * nth j R 0)) (nth j F 0)) \/
      (frob_J_ZZ slv D T i N loop = Err EAssert /\
         exists j, (j < length F)%nat /\ forall y, ~ cong q (p ^ (v - (n - 1)) * y) (nth j F 0))).
Proof.
  intros slv p k prec f D q H W Hs Hp Hk Hn reqs T HT i N loop Hi HN Hl n0 b m Hb H1 H2.
  assert (Hp2 : 2 <= p) by (destruct Hp; lia).
  assert (Hq : 2 <= q).
  { unfold q. replace k with (1 + (k - 1)) by lia. rewrite Z.pow_add_r, Z.pow_1_r by lia.
    pose proof (Z.pow_pos_nonneg p (k - 1) ltac:(lia) ltac:(lia)). nia. }
  destruct (C26_frobenius_series slv q p prec f D H W Hs Hp2 Hq Hn reqs T HT i N loop Hi HN Hl Hb H1 H2)
    as (F & fact & S1 & S2 & S3 & S4 & S5).
  pose proof (init_p _ _ _ _ _ _ H) as Ep. destruct (init_inv _ _ _ _ _ _ H W) as (inv & Eq & _).
  destruct (coord_ok slv D inv) with (i := i) as (b' & B1 & B2 & B3 & _ & B5); auto.
  { rewrite Eq. exact Hs. }
  subst b'. fold b in B1, B3, B5. fold m in B3, B5.
  assert (HP : 1 <= p * (m + N - 1)) by nia.
  destruct (finish_ok p k n0 (p * (m + N - 1)) F fact Hp Hk ltac:(unfold n0; lia) HP S3 S4) as (v & u & V1 & V2 & V3 & V4 & V5).
  assert (EJ : frob_J_ZZ slv D T i N loop = frob_finish q p n0 (p * (m + N - 1)) F fact).
  { unfold frob_J_ZZ. rewrite B1. cbn [bind]. rewrite S1. cbn [bind fst snd]. rewrite B5, Ep, Eq. reflexivity. }
  exists F, v, u. rewrite EJ. repeat (split; [assumption|]). split.
  - intros Hv. destruct (V4 Hv) as (R & R1 & R2 & R3). exists R. split; auto. split; auto. intros j Hj. now apply R3.
  - intros Hv. destruct (V5 Hv) as [(R & R1 & R2 & R3)|X]; [left|right; exact X]. exists R. split; auto. split; auto.
    intros j Hj. now apply R3.
Qed.
Print Assumptions C26_frobenius_value.

(** x0^2 + x1^2 over Z/9 (two conjugate points), p = 3, N = 1: F is 2! times the
    class of x0^2 x1^2 Omega/f^3, that is 2/8 = 7; dividing by 2! gives 8 = -1,
    the eigenvalue of Frobenius *)
Example C26_ex :
  map (fun loop => frob_sum_ZZ ex_slv ex_D (fpow_init 9 1) 0 1 loop) [0; 1; 2]%nat = [OK ([7], 2); OK ([7], 2); OK ([7], 2)] /\
  frob_J_ZZ ex_slv ex_D (fpow_init 9 1) 0 1 0 = OK [8] /\ frob_series ex_phi 1 ex_f 3 1 1 [0; 0] mod 9 = 7.
Proof. repeat split; vm_compute; reflexivity. Qed.

(** C25, alone *)
Theorem C25_factorial_bookkeeping : forall slv q p prec f D,
  init slv q p prec f = OK D -> wf_poly (r_n D) (r_d D) f -> solver_ok q slv -> 2 <= p -> 2 <= q -> (1 <= r_n D)%nat ->
  forall reqs T, foldM (fun T power => compute_fpow q f power T) reqs (fpow_init q (r_n D)) = OK T ->
  forall i N loop, (i < length (r_basis D))%nat -> 1 <= N <= 63 -> (loop <= 2)%nat -> Z.of_nat (r_n D) < p ->
  let m := pole_of (r_n D) (r_d D) (nth i (r_basis D) []) in
  exists F fact, frob_sum_ZZ slv D T i N loop = OK (F, fact) /\ cong q fact (zfact (p * (m + N - 1) - 1)).
Proof.
  intros slv q p prec f D H W Hs Hp Hq Hn reqs T HT i N loop Hi HN Hl Hnp m.
  destruct (init_inv _ _ _ _ _ _ H W) as (inv & Eq & _).
  destruct (coord_ok slv D inv) with (i := i) as (b' & _ & B2 & B3 & _); auto.
  { rewrite Eq. exact Hs. }
  subst b'. fold m in B3. assert (E0 : Z.of_nat (r_n D) / p = 0) by (apply Z.div_small; lia).
  destruct (C26_frobenius_series slv q p prec f D H W Hs Hp Hq Hn reqs T HT i N loop Hi ltac:(lia) Hl)
    as (F & fact & S1 & S2 & S3 & S4 & S5).
  - fold m. lia.
  - intros k j H1 H2. eapply Z.le_lt_trans; [apply choose_le_pow2|]. apply Z.pow_lt_mono_r; lia.
  - fold m. intros. lia.
  - exists F, fact. auto.
Qed.
Print Assumptions C25_factorial_bookkeeping.

(** ... and it does break when m + N - 1 < n/p: the routine never succeeds *)
Theorem C25_breaks_below : forall slv D T i N loop,
  2 <= r_p D -> 2 <= r_q D -> (r_p D | r_q D) -> 1 <= N ->
  (forall b, nth_error (r_basis D) i = Some b ->
     1 <= pole_order D b /\ pole_order D b + N - 1 < Z.of_nat (r_n D) / r_p D) ->
  forall x, frob_sum_ZZ slv D T i N loop <> OK x.
Proof. exact sum_ZZ_breaks. Qed.
Print Assumptions C25_breaks_below.

(** C28: the factor frob_J_ZZ_p ends with *)
Theorem C28_factor : forall slv q p prec f D,
  init slv q p prec f = OK D -> wf_poly (r_n D) (r_d D) f -> solver_ok q slv -> 2 <= p -> 2 <= q -> (1 <= r_n D)%nat ->
  forall reqs T, foldM (fun T power => compute_fpow q f power T) reqs (fpow_init q (r_n D)) = OK T ->
  forall i N loop, (i < length (r_basis D))%nat -> 1 <= N -> (loop <= 2)%nat ->
  let n := Z.of_nat (r_n D) in
  let b := nth i (r_basis D) [] in
  let m := pole_of (r_n D) (r_d D) b in
  n / p <= m + N - 1 -> (forall j, 0 <= j < N -> Z.abs (D_coef m N j) < 2 ^ 63) ->
  exists F fact, frob_sum_ZZ_p slv D T i N loop = OK (F, fact) /\ length F = length (r_basis D) /\ 0 <= fact < q /\
    cong q fact (zprod (zseq (Z.max 1 (p * Z.min (n / p) (m - 1))) (p * (m + N - 1)))) /\
    (n < p \/ m = 1 -> cong q fact (zfact (p * (m + N - 1) - 1))) /\
    forall phi psi, GD q (r_n D) (r_d D) f phi -> basis_val q (r_n D) (r_d D) (r_basis D) phi psi ->
      cong q (ev_basis psi (r_basis D) F) (frob_series phi (r_n D) f p m N b).
Proof.
  intros slv q p prec f D H W. pose proof (init_p _ _ _ _ _ _ H) as Ep. destruct (init_inv _ _ _ _ _ _ H W) as (inv & <- & <-).
  rewrite <- Ep. intros Hs Hp Hq Hn reqs T HT i N loop Hi HN Hl n0 b m Hb H1.
  destruct (fpow_history (r_q D) (r_n D) (r_d D) (r_f D) Hq W reqs _ (init_ok _ _ _ _ Hq)) as (T1 & A1 & A2 & _).
  rewrite A1 in HT. injection HT as <-.
  destruct (sum_ZZ_p_ok slv D inv Hs Hp Hq Hn i N loop T1 Hi HN Hl A2 Hb H1) as (F & fact & S1 & S2 & S3 & S4 & S5).
  exists F, fact. split; [exact S1|]. split; [exact S2|]. split; [exact S3|]. split; [exact S4|]. split; [|exact S5].
  intros C. rewrite S4. apply cong_of_eq. unfold zfact.
  replace (r_p D * (m + N - 1) - 1 + 1) with (r_p D * (m + N - 1)) by ring.
  fold b m. fold n0. replace (Z.max 1 (r_p D * Z.min (n0 / r_p D) (m - 1))) with 1; [reflexivity|].
  assert (Z.min (n0 / r_p D) (m - 1) = 0).
  { destruct C as [C|C].
    - rewrite Z.div_small by (unfold n0; lia). destruct (coord_ok slv D inv Hs Hn i Hi) as (b' & _ & <- & B3 & _).
      fold b m in B3. lia.
    - pose proof (Z.div_pos n0 (r_p D) ltac:(unfold n0; lia) ltac:(lia)). lia. }
  rewrite H0. lia.
Qed.
Print Assumptions C28_factor.

(** C28 refuted: for n = 3, p = 3, q = 9 and a basis element of pole order 2,
    frob_J_ZZ_p with N = 1 stops at its last assertion, whatever the (smooth) f *)
Theorem C28_refuted : forall slv prec f D,
  init slv 9 3 prec f = OK D -> wf_poly (r_n D) (r_d D) f -> solver_ok 9 slv -> r_n D = 3%nat ->
  forall i loop, (i < length (r_basis D))%nat -> (loop <= 2)%nat -> pole_of 3 (r_d D) (nth i (r_basis D) []) = 2 ->
  frob_J_ZZ_p slv D (fpow_init 9 3) i 1 loop = Err EAssert.
Proof.
  intros slv prec f D H W Hs Hn i loop Hi Hl Hm. rewrite <- Hn in Hm.
  destruct (C28_factor slv 9 3 prec f D H W Hs ltac:(lia) ltac:(lia) ltac:(lia) [] (fpow_init 9 (r_n D)) eq_refl i 1 loop Hi ltac:(lia) Hl)
    as (F & fact & S1 & S2 & S3 & S4 & _).
  - rewrite Hm, Hn. vm_compute. discriminate.
  - rewrite Hm. intros j Hj. replace j with 0 by lia. vm_compute. reflexivity.
  - pose proof (init_p _ _ _ _ _ _ H) as Ep. destruct (init_inv _ _ _ _ _ _ H W) as (inv & Eq & _).
    rewrite Hm, Hn in S4. rewrite Hn in S1.
    rewrite <- Eq in Hs.
    destruct (coord_ok slv D inv Hs ltac:(lia) i Hi) as (b' & B1 & <- & _ & _ & B5).
    rewrite Hm in B5. unfold frob_J_ZZ_p. rewrite B1. cbn [bind]. rewrite S1. cbn [bind fst snd]. rewrite B5, Ep, Eq, Hn.
    apply cong_iff_mod in S4; [|lia]. rewrite Z.mod_small in S4 by lia. rewrite S4. reflexivity.
Qed.
Print Assumptions C28_refuted.
Example C28_ex : frob_sum_ZZ_p ex_slv ex_D (fpow_init 9 1) 0 1 0 = OK ([7], 2) /\
  zprod (zseq 3 6) mod 9 = 6 /\ zfact 5 mod 9 = 3.
Proof. repeat split; vm_compute; reflexivity. Qed.
