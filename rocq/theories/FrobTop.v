(** Proofs about the Frobenius routines: coefficients, powers of f, the whole
    routine and the final division. *)
From Coq Require Import ZArith Znumtheory List Lia Bool.
From Verif Require Import Base VecModel VecSpec VecProofs ToolsModel ToolsSpec ToolsProofs PolyProofs
  MatModel MatProofs DRModel DRSpec DRProofs DRRed DRStep DRFinal DRPath FrobModel FrobSpec FrobPath FrobProofs FrobSum.
Import ListNotations.
Open Scope Z_scope.

Lemma foldM_app {A B} (f : B -> A -> res B) l1 l2 : forall b,
  foldM f (l1 ++ l2) b = bind (foldM f l1 b) (foldM f l2).
Proof.
  induction l1 as [|a l1 IH]; intros b; cbn [app foldM bind]; auto. destruct (f b a); cbn [bind]; auto.
Qed.

(** * the coefficients D_{j,m} *)
Definition d_bin (m i j : Z) : Z := choose (Z.to_nat (m + i - 1)) (Z.to_nat (m - 1)) * choose (Z.to_nat i) (Z.to_nat j).

Lemma d_bin_nonneg m i j : 0 <= d_bin m i j.
Proof. apply Z.mul_nonneg_nonneg; apply choose_nonneg. Qed.

Lemma pow_m1 j : 0 <= j -> (-1) ^ j = if j mod 2 =? 0 then 1 else -1.
Proof.
  intros H. rewrite (Z.div_mod j 2) at 1 by lia.
  pose proof (Z.mod_pos_bound j 2 ltac:(lia)). pose proof (Z.div_pos j 2 H ltac:(lia)).
  rewrite Z.pow_add_r, Z.pow_mul_r by lia. change ((-1) ^ 2) with 1. rewrite Z.pow_1_l by lia.
  destruct (Z.eqb_spec (j mod 2) 0) as [->|]; [reflexivity|]. replace (j mod 2) with 1 by lia. reflexivity.
Qed.

Lemma djm_ok term m N j : 0 <= j -> (forall i, j <= i < N -> term m i j = OK (d_bin m i j)) ->
  djm term m N j = OK (D_coef m N j).
Proof.
  intros Hj Ht. unfold djm, D_coef. rewrite pow_m1 by auto. fold (d_bin m).
  assert (G : forall l a, (forall i, In i l -> j <= i < N) ->
    foldM (fun acc i => t <- term m i j ;; OK (if j mod 2 =? 0 then acc + t else acc - t)) l a =
    OK (a + sumf (fun i => (if j mod 2 =? 0 then 1 else -1) * d_bin m i j) l)).
  { induction l as [|i l IH]; intros a Hl; cbn [foldM].
    - rewrite sumf_nil. f_equal. ring.
    - rewrite Ht by (apply Hl; now left). cbn [bind]. rewrite IH by (intros; apply Hl; now right).
      rewrite sumf_cons. f_equal. destruct (j mod 2 =? 0); ring. }
  rewrite G; [reflexivity|]. intros i Hi. now apply zseq_In in Hi.
Qed.

Lemma djm_ZZ_ok m i j : 1 <= m -> 0 <= j <= i -> choose (Z.to_nat i) (Z.to_nat j) < 2 ^ 63 ->
  djm_ZZ m i j = OK (d_bin m i j).
Proof.
  intros Hm Hj Hc. unfold djm_ZZ. rewrite binomial_ZZ_ok by lia. cbn [bind]. rewrite binomial_ok by auto. reflexivity.
Qed.

Lemma djm_64_ok m i j : 1 <= m -> 0 <= j <= i -> d_bin m i j < 2 ^ 63 -> djm_64 m i j = OK (d_bin m i j).
Proof.
  intros Hm Hj Hc. unfold djm_64. pose proof (d_bin_nonneg m i j) as Hn. unfold d_bin in *.
  pose proof (choose_pos (Z.to_nat (m + i - 1)) (Z.to_nat (m - 1)) ltac:(lia)).
  pose proof (choose_pos (Z.to_nat i) (Z.to_nat j) ltac:(lia)).
  rewrite !binomial_ok by (try lia; nia). cbn [bind]. rewrite Z.abs_eq by auto. unfold check.
  replace (_ <? _) with true by (symmetry; apply Z.ltb_lt; auto). reflexivity.
Qed.

Lemma D_coef_abs m N j : 0 <= j -> Z.abs (D_coef m N j) = sumf (fun i => d_bin m i j) (zseq j N).
Proof.
  intros Hj. unfold D_coef. rewrite pow_m1, sumf_scal by auto. fold (d_bin m).
  change (fun a => choose (Z.to_nat (m + a - 1)) (Z.to_nat (m - 1)) * choose (Z.to_nat a) (Z.to_nat j)) with (fun a => d_bin m a j).
  assert (0 <= sumf (fun a => d_bin m a j) (zseq j N)).
  { generalize (zseq j N) as l. induction l as [|x l IH]; [rewrite sumf_nil; lia|]. rewrite sumf_cons. pose proof (d_bin_nonneg m x j). lia. }
  destruct (j mod 2 =? 0); lia.
Qed.

Lemma djm_acc64_ok m N j : 1 <= m -> 0 <= j -> Z.abs (D_coef m N j) < 2 ^ 63 -> djm_acc64 m N j = OK (D_coef m N j).
Proof.
  intros Hm Hj Hc. rewrite D_coef_abs in Hc by auto. unfold djm_acc64, D_coef. rewrite pow_m1 by auto.
  change (fun i => (if j mod 2 =? 0 then 1 else -1) * (choose (Z.to_nat (m + i - 1)) (Z.to_nat (m - 1)) * choose (Z.to_nat i) (Z.to_nat j)))
    with (fun i => (if j mod 2 =? 0 then 1 else -1) * d_bin m i j).
  assert (SP : forall l, 0 <= sumf (fun a => d_bin m a j) l).
  { induction l as [|x l IH]; [rewrite sumf_nil; lia|]. rewrite sumf_cons. pose proof (d_bin_nonneg m x j). lia. }
  assert (G : forall l b, (forall i, In i l -> j <= i) -> 0 <= b -> b + sumf (fun i => d_bin m i j) l < 2 ^ 63 ->
    foldM (fun acc i => t <- djm_64 m i j ;;
      let acc' := if j mod 2 =? 0 then acc + t else acc - t in
      _ <- check (Z.abs acc' <? 2 ^ 63) EUB ;; OK acc') l ((if j mod 2 =? 0 then 1 else -1) * b) =
    OK ((if j mod 2 =? 0 then 1 else -1) * b + sumf (fun i => (if j mod 2 =? 0 then 1 else -1) * d_bin m i j) l)).
  { induction l as [|i l IH]; intros b Hl Hb Hs; cbn [foldM].
    - rewrite sumf_nil. f_equal. ring.
    - rewrite sumf_cons in *. pose proof (d_bin_nonneg m i j) as Hd. pose proof (SP l).
      specialize (Hl i (or_introl eq_refl)) as Hi.
      rewrite djm_64_ok by lia. cbn [bind]. cbv zeta.
      replace (if j mod 2 =? 0 then (if j mod 2 =? 0 then 1 else -1) * b + d_bin m i j else (if j mod 2 =? 0 then 1 else -1) * b - d_bin m i j)
        with ((if j mod 2 =? 0 then 1 else -1) * (b + d_bin m i j)) by (destruct (j mod 2 =? 0); ring).
      replace (Z.abs ((if j mod 2 =? 0 then 1 else -1) * (b + d_bin m i j)) <? 2 ^ 63) with true
        by (symmetry; apply Z.ltb_lt; destruct (j mod 2 =? 0); lia).
      cbn [check bind]. rewrite IH; [f_equal; ring|intros; apply Hl; now right|lia|lia]. }
  specialize (G (zseq j N) 0). rewrite Z.mul_0_r in G. apply G; [|lia|lia].
  intros i Hi. apply zseq_In in Hi. lia.
Qed.

Lemma choose_le_pow2 n k : choose n k <= 2 ^ Z.of_nat n.
Proof.
  revert k. induction n as [|n IH]; intros k.
  - destruct k; cbn; lia.
  - rewrite Nat2Z.inj_succ, Z.pow_succ_r by lia. pose proof (Z.pow_pos_nonneg 2 (Z.of_nat n) ltac:(lia) ltac:(lia)).
    destruct k as [|k]; [cbn [choose]; lia|]. rewrite choose_S. pose proof (IH k). pose proof (IH (S k)). lia.
Qed.

(** * C27 *)
Definition geo (M N : nat) (s : Z) : Z := sumf (fun i => choose (M + i) M * s ^ Z.of_nat i) (seq 0 N).

Lemma geo_step M N s : (1 - s) * geo (S M) N s = geo M N s - choose (M + N) (S M) * s ^ Z.of_nat N.
Proof.
  induction N as [|N IH].
  - unfold geo. cbn [seq]. rewrite !sumf_nil, choose_gt by lia. ring.
  - unfold geo in *. rewrite !seq_S, !sumf_app, !sumf_cons, !sumf_nil, Z.mul_add_distr_l, IH. cbn [Nat.add].
    replace (M + S N)%nat with (S (M + N)) by lia. rewrite choose_S.
    rewrite Nat2Z.inj_succ, Z.pow_succ_r by lia. ring.
Qed.
Lemma geo_zero N s : (1 - s) * geo 0 N s = 1 - s ^ Z.of_nat N.
Proof.
  induction N as [|N IH].
  - unfold geo. cbn [seq]. rewrite sumf_nil. cbn. ring.
  - unfold geo in *. rewrite !seq_S, !sumf_app, !sumf_cons, !sumf_nil, Z.mul_add_distr_l, IH. cbn [Nat.add].
    rewrite choose_0_r, Nat2Z.inj_succ, Z.pow_succ_r by lia. ring.
Qed.

(** the quotient *)
Definition quot_coef (m N : nat) : list Z := map (fun k => - choose (k + N - 1) k) (seq 0 m).

Lemma poly1_app R c t : poly1 (R ++ [c]) t = poly1 R t + c * t ^ Z.of_nat (length R).
Proof.
  unfold poly1. rewrite app_length. cbn [length]. rewrite Nat.add_1_r, seq_S, sumf_app, sumf_cons, sumf_nil. cbn [Nat.add].
  rewrite app_nth2, Nat.sub_diag by lia. cbn [nth]. rewrite Z.add_0_r. f_equal. apply sumf_ext. intros i Hi. apply in_seq in Hi.
  now rewrite app_nth1 by lia.
Qed.
Lemma quot_len m N : length (quot_coef m N) = m.
Proof. unfold quot_coef. now rewrite map_length, seq_length. Qed.

Lemma geo_inverse M N t : (0 < N)%nat ->
  t ^ Z.of_nat (S M) * geo M N (1 - t) - 1 = (1 - t) ^ Z.of_nat N * poly1 (quot_coef (S M) N) t.
Proof.
  intros HN. induction M as [|M IH].
  - pose proof (geo_zero N (1 - t)) as G. replace (1 - (1 - t)) with t in G by ring.
    change (Z.of_nat 1) with 1. rewrite Z.pow_1_r, G. unfold quot_coef, poly1. cbn [seq map length Nat.add].
    rewrite sumf_cons, sumf_nil. cbn [nth]. rewrite choose_0_r. change (Z.of_nat 0) with 0. rewrite Z.pow_0_r. ring.
  - pose proof (geo_step M N (1 - t)) as G. replace (1 - (1 - t)) with t in G by ring.
    rewrite Nat2Z.inj_succ, Z.pow_succ_r by lia.
    replace (t * t ^ Z.of_nat (S M) * geo (S M) N (1 - t)) with (t ^ Z.of_nat (S M) * (t * geo (S M) N (1 - t))) by ring.
    rewrite G. unfold quot_coef. rewrite seq_S, map_app. cbn [map Nat.add]. rewrite poly1_app. fold (quot_coef (S M) N).
    rewrite quot_len. rewrite Z.mul_add_distr_l, <- IH. replace (S (M + N) - 1)%nat with (M + N)%nat by lia. ring.
Qed.

Lemma sumf_zseq_nat (f : Z -> Z) k : sumf f (zseq 0 (Z.of_nat k)) = sumf (fun i => f (Z.of_nat i)) (seq 0 k).
Proof. rewrite zseq_map_of_nat, sumf_map. reflexivity. Qed.

Lemma zseq_of_nat j k : zseq (Z.of_nat j) (Z.of_nat k) = map Z.of_nat (seq j (k - j)).
Proof.
  unfold zseq. replace (Z.to_nat (Z.of_nat k - Z.of_nat j)) with (k - j)%nat by lia.
  generalize (k - j)%nat as l. intros l. revert j. induction l as [|l IH]; intros j; [reflexivity|].
  cbn [zrange seq map]. rewrite <- IH. f_equal. f_equal. lia.
Qed.

Lemma D_coef_geo m N t : 1 <= m -> 1 <= N ->
  sumf (fun j => D_coef m N j * t ^ j) (zseq 0 N) = geo (Z.to_nat (m - 1)) (Z.to_nat N) (1 - t).
Proof.
  intros Hm HN. rewrite <- (Z2Nat.id N) by lia. rewrite sumf_zseq_nat. set (k := Z.to_nat N).
  rewrite Nat2Z.id. set (M := Z.to_nat (m - 1)).
  transitivity (sumf (fun j => sumf (fun i => choose (M + i) M * (choose i j * (- t) ^ Z.of_nat j)) (seq 0 k)) (seq 0 k)).
  { apply sumf_ext. intros j Hj. apply in_seq in Hj. unfold D_coef.
    transitivity (sumf (fun i => choose (M + i) M * (choose i j * (- t) ^ Z.of_nat j)) (seq j (k - j))).
    - replace (zseq (Z.of_nat j) (Z.of_nat k)) with (map Z.of_nat (seq j (k - j))).
      + rewrite sumf_map, <- sumf_scal_r. apply sumf_ext. intros i Hi. rewrite !Nat2Z.id.
        replace (Z.to_nat (m + Z.of_nat i - 1)) with (M + i)%nat by (unfold M; lia). fold M.
        replace (- t) with (-1 * t) by ring. rewrite Z.pow_mul_l. ring.
      + symmetry. apply zseq_of_nat.
    - replace (seq 0 k) with (seq 0 j ++ seq j (k - j)) by (rewrite <- seq_app; f_equal; lia).
      rewrite sumf_app, (sumf_zero _ (seq 0 j)); [now rewrite Z.add_0_l|]. intros i Hi. apply in_seq in Hi. rewrite (choose_gt i j) by lia. ring. }
  rewrite sumf_swap. unfold geo. apply sumf_ext. intros i Hi. apply in_seq in Hi. rewrite sumf_scal. f_equal.
  replace (1 - t) with (1 + - t) by ring. rewrite <- binomial_theorem. unfold bsum.
  replace (seq 0 k) with (seq 0 (S i) ++ seq (S i) (k - S i)) by (rewrite <- seq_app; f_equal; lia).
  rewrite sumf_app, (sumf_zero _ (seq (S i) _)), Z.add_0_r.
  - apply sumf_ext. intros j Hj. rewrite Z.pow_1_l by lia. ring.
  - intros j Hj. apply in_seq in Hj. rewrite choose_gt by lia. ring.
Qed.

Lemma D_inverse m N t : 1 <= m -> 1 <= N ->
  t ^ m * sumf (fun j => D_coef m N j * t ^ j) (zseq 0 N) - 1 =
  (1 - t) ^ N * poly1 (quot_coef (Z.to_nat m) (Z.to_nat N)) t.
Proof.
  intros Hm HN. rewrite D_coef_geo by auto. pose proof (geo_inverse (Z.to_nat (m - 1)) (Z.to_nat N) t ltac:(lia)) as G.
  replace (S (Z.to_nat (m - 1))) with (Z.to_nat m) in G by lia. rewrite !Z2Nat.id in G by lia. exact G.
Qed.

(** * powers of f *)
Definition psum (w : vec -> Z) (P : poly) : Z := sumf (fun t => snd t * w (fst t)) P.

Lemma vaccum_psum n q k c P w : vsorted n P -> length k = n ->
  cong q (psum w (vaccum (fun a b => (a + b) mod q) k c P)) (psum w P + c * w k).
Proof.
  intros Hs Hk. unfold vaccum, psum. destruct (vfind k P) as [o|] eqn:E.
  - rewrite (sumf_vinsert n) by auto. rewrite E. cbn [fst snd]. rewrite cong_mod. apply cong_of_eq. ring.
  - rewrite (sumf_vinsert n) by auto. rewrite E. cbn [fst snd]. apply cong_of_eq. ring.
Qed.

Lemma padd_psum n q w H acc : poly_ok n acc -> (forall k c, In (k, c) H -> length k = n /\ nonneg k) ->
  cong q (psum w (padd_into q H acc)) (psum w acc + psum w H).
Proof.
  revert acc. induction H as [|[k c] H IH]; intros acc Ha HH; cbn [padd_into fold_left fst snd].
  - apply cong_of_eq. unfold psum. rewrite sumf_nil. ring.
  - destruct (HH k c (or_introl eq_refl)) as [H1 H2]. unfold padd_into in IH. rewrite IH.
    + rewrite (vaccum_psum n) by (auto; apply Ha). unfold psum. rewrite sumf_cons. cbn [fst snd]. apply cong_of_eq. ring.
    + apply (vaccum_ok n q k c acc [] Ha H1 H2).
    + intros k0 c0 Hin. apply (HH k0 c0). now right.
Qed.

Lemma pmul_psum n q w H X : poly_ok n H -> poly_ok n X ->
  cong q (psum w (pmul q H X)) (psum (fun a => psum (fun b => w (vadd a b)) X) H).
Proof.
  intros HH HX. unfold pmul. rewrite pmul_into_padd, (padd_psum n).
  - unfold psum. rewrite sumf_nil, Z.add_0_l, sumf_flat_map. apply cong_sumf. intros [a ca] _. rewrite sumf_map, <- sumf_scal.
    apply cong_sumf. intros [b cb] _. cbn [fst snd]. rewrite cong_mod. apply cong_of_eq. ring.
  - split; [apply vsorted_nil|]. intros ? ? [].
  - intros k c Hin. apply in_flat_map in Hin. destruct Hin as ([a ca] & Ha & Hin).
    apply in_map_iff in Hin. destruct Hin as ([b cb] & E & Hb). injection E as <- <-. cbn [fst].
    assert (length a = n) by (eapply vsorted_len; [apply HH|eauto]).
    assert (length b = n) by (eapply vsorted_len; [apply HX|eauto]).
    split; [now apply vadd_length|]. apply nonneg_vadd; [eapply (proj2 HH)|eapply (proj2 HX)]; eauto.
Qed.

(** coefficients are representatives in [0, q) *)
Definition reduced (q : Z) (P : poly) : Prop := forall k c, In (k, c) P -> 0 <= c < q.

Lemma vaccum_reduced n q k c P : 2 <= q -> vsorted n P -> length k = n -> 0 <= c < q -> reduced q P ->
  reduced q (vaccum (fun a b => (a + b) mod q) k c P).
Proof.
  intros Hq Hs Hk Hc HP k' c' I. unfold vaccum in I.
  destruct (vfind k P) as [o|]; apply (vinsert_In n) in I; auto; destruct I as [[_ ->]|[_ I]]; auto.
  - apply Z.mod_pos_bound. lia.
  - now apply (HP k').
  - now apply (HP k').
Qed.

Lemma pmul_reduced n q H X : 2 <= q -> poly_ok n H -> poly_ok n X -> reduced q (pmul q H X).
Proof.
  intros Hq HH HX. unfold pmul. rewrite pmul_into_padd. set (L := flat_map _ H).
  assert (HL : forall k c, In (k, c) L -> (length k = n /\ nonneg k) /\ 0 <= c < q).
  { intros k c Hin. apply in_flat_map in Hin. destruct Hin as ([a ca] & Ha & Hin).
    apply in_map_iff in Hin. destruct Hin as ([b cb] & E & Hb). injection E as <- <-. cbn [fst snd].
    assert (length a = n) by (eapply vsorted_len; [apply HH|eauto]).
    assert (length b = n) by (eapply vsorted_len; [apply HX|eauto]).
    split; [|apply Z.mod_pos_bound; lia]. split; [now apply vadd_length|].
    apply nonneg_vadd; [eapply (proj2 HH)|eapply (proj2 HX)]; eauto. }
  clearbody L. assert (G : forall acc, poly_ok n acc -> reduced q acc -> reduced q (padd_into q L acc)).
  { induction L as [|[k c] L IH]; intros acc Ha Hr; [exact Hr|]. cbn [padd_into fold_left fst snd].
    destruct (HL k c (or_introl eq_refl)) as [[H1 H2] H3]. apply IH.
    - intros k0 c0 Hin. apply HL. now right.
    - apply (vaccum_ok n q k c acc [] Ha H1 H2).
    - apply (vaccum_reduced n); auto. apply Ha. }
  apply G; [split; [apply vsorted_nil|]|]; intros ? ? [].
Qed.

Lemma pow_sum_ext n f j : forall w1 w2, (forall u, w1 u = w2 u) -> pow_sum n f j w1 = pow_sum n f j w2.
Proof.
  induction j as [|j IH]; intros w1 w2 Hw; cbn [pow_sum]; auto. apply sumf_ext. intros t _. f_equal. apply IH. intros. apply Hw.
Qed.

Section FPOW.
  Variables (q : Z) (n : nat) (d : Z) (f : poly).
  Hypothesis Hq : 2 <= q.
  Hypothesis Hf : wf_poly n d f.

  Lemma f_poly_ok : poly_ok (S n) f.
  Proof. destruct Hf as [H1 H2]. split; auto. intros k c I. apply H2 in I. apply I. Qed.

  (** entry j of the table is f^j *)
  Definition pow_ok (j : nat) (P : poly) : Prop :=
    poly_ok (S n) P /\ reduced q P /\ (forall u c, In (u, c) P -> is_tuple (S n) (d * Z.of_nat j) u) /\
    forall w, cong q (psum w P) (pow_sum n f j w).
  Definition tab_ok (T : list poly) : Prop := T <> [] /\ forall j P, nth_error T j = Some P -> pow_ok j P.

  Lemma init_ok : tab_ok (fpow_init q n).
  Proof.
    split; [discriminate|]. intros j P E. unfold fpow_init in E. destruct j as [|j]; [|destruct j; discriminate].
    injection E as <-. assert (T : is_tuple (S n) 0 (repeat 0 (S n))).
    { split; [apply repeat_length|]. split; [apply nonneg_repeat0|]. generalize (S n) as k. induction k; cbn [repeat zsum]; lia. }
    split; [|split; [|split]].
    - split; [constructor; [apply T|apply vsorted_nil|intros ? ? []]|]. intros k c [I|[]]. injection I as <- _. apply T.
    - intros k c [I|[]]. injection I as _ <-. apply Z.mod_pos_bound. lia.
    - intros u c [I|[]]. injection I as <- _. rewrite Z.mul_0_r. exact T.
    - intros w. unfold psum. rewrite sumf_cons, sumf_nil. cbn [fst snd pow_sum repeat]. rewrite cong_mod. apply cong_of_eq. ring.
  Qed.

  Lemma pow_step j P : pow_ok j P -> pow_ok (S j) (pmul q P f).
  Proof.
    intros (P1 & P2 & P3 & P4). destruct (pmul_ok (S n) q P f P1 f_poly_ok) as (M1 & _ & M3).
    split; auto. split; [apply (pmul_reduced (S n)); auto; apply f_poly_ok|]. split.
    - intros u c I. assert (I' : In u (map fst (pmul q P f))) by (apply in_map_iff; exists (u, c); auto).
      apply M3 in I'. destruct I' as (a & b & Ia & Ib & ->).
      apply in_map_iff in Ia. destruct Ia as ([a' ca] & Ea & Ia). apply in_map_iff in Ib. destruct Ib as ([b' cb] & Eb & Ib).
      cbn [fst] in *. subst a' b'. replace (d * Z.of_nat (S j)) with (d * Z.of_nat j + d) by lia.
      apply tuple_vadd; [now apply (P3 a ca)|]. now apply (proj2 Hf b cb).
    - intros w. rewrite (pmul_psum (S n)) by (auto; apply f_poly_ok). cbn [pow_sum].
      transitivity (sumf (fun t : vec * Z => snd t * psum (fun a => w (vadd a (fst t))) P) f).
      + apply cong_of_eq. unfold psum.
        transitivity (sumf (fun t : vec * Z => sumf (fun t' : vec * Z => snd t * snd t' * w (vadd (fst t) (fst t'))) f) P).
        { apply sumf_ext. intros t _. rewrite <- sumf_scal. apply sumf_ext. intros. ring. }
        rewrite sumf_swap. apply sumf_ext. intros t _. rewrite <- sumf_scal. apply sumf_ext. intros. ring.
      + apply cong_sumf. intros t _. rewrite P4. apply cong_of_eq. f_equal.
        apply pow_sum_ext. intros u. now rewrite eplus_vadd.
  Qed.

  Lemma loop_tab k : forall T, tab_ok T -> tab_ok (fpow_loop q f k T) /\
    length (fpow_loop q f k T) = (length T + k)%nat /\ firstn (length T) (fpow_loop q f k T) = T.
  Proof.
    induction k as [|k IH]; intros T HT; cbn [fpow_loop].
    - split; auto. split; [lia|]. apply firstn_all.
    - assert (HT' : tab_ok (T ++ [pmul q (last T []) f])).
      { destruct HT as [T1 T2]. split; [destruct T; discriminate|]. intros j P E.
        destruct (Nat.lt_ge_cases j (length T)) as [L|L].
        - rewrite nth_error_app1 in E by auto. now apply T2.
        - rewrite nth_error_app2 in E by auto. destruct (j - length T)%nat as [|x] eqn:X; [|destruct x; discriminate].
          injection E as <-. assert (length T <> 0%nat) by (destruct T; [congruence|discriminate]).
          replace j with (S (length T - 1)) by lia. apply pow_step. apply T2.
          rewrite (nth_error_nth' T []) by lia. f_equal. symmetry.
          destruct (exists_last T1) as (T0 & x & ->). rewrite last_last, app_length, app_nth2; cbn [length]; [|lia].
          replace (length T0 + 1 - 1 - length T0)%nat with 0%nat by lia. reflexivity. }
      destruct (IH _ HT') as (I1 & I2 & I3). split; auto. rewrite app_length in *. cbn [length] in *. split; [lia|].
      assert (E : firstn (length T) (firstn (length T + 1) (fpow_loop q f k (T ++ [pmul q (last T []) f]))) = T).
      { rewrite I3. rewrite firstn_app, Nat.sub_diag, firstn_all. apply app_nil_r. }
      rewrite firstn_firstn in E. now rewrite Nat.min_l in E by lia.
  Qed.

  Lemma compute_fpow_ok power T : tab_ok T -> exists T', compute_fpow q f power T = OK T' /\ tab_ok T' /\
    zlen T' = Z.max (zlen T) (power + 1) /\ firstn (length T) T' = T.
  Proof.
    intros HT. unfold compute_fpow, zlen in *. destruct (Z.leb_spec (Z.of_nat (length T)) power) as [L|L].
    - destruct T as [|t T]; [destruct HT; congruence|]. set (T0 := t :: T) in *.
      destruct (loop_tab (Z.to_nat (power + 1 - Z.of_nat (length T0))) T0 HT) as (I1 & I2 & I3).
      eexists. split; [|split; [exact I1|split; [|exact I3]]]; rewrite I2; [|lia].
      unfold check. replace (_ =? _) with true by (symmetry; apply Z.eqb_eq; lia). reflexivity.
    - exists T. split; auto. split; auto. split; [lia|]. apply firstn_all.
  Qed.

  (** any sequence of requests *)
  Lemma fpow_history reqs : forall T, tab_ok T ->
    exists T', foldM (fun T power => compute_fpow q f power T) reqs T = OK T' /\ tab_ok T' /\
      zlen T' = fold_left (fun a power => Z.max a (power + 1)) reqs (zlen T) /\ firstn (length T) T' = T.
  Proof.
    induction reqs as [|power reqs IH]; intros T HT; cbn [foldM fold_left].
    - exists T. split; auto. split; auto. split; auto. apply firstn_all.
    - destruct (compute_fpow_ok power T HT) as (T1 & E1 & E2 & E3 & E4). rewrite E1. cbn [bind].
      destruct (IH T1 E2) as (T' & F1 & F2 & F3 & F4). exists T'. split; auto. split; auto. split; [congruence|].
      assert (L : (length T <= length T1)%nat) by (rewrite <- E4, firstn_length; lia).
      transitivity (firstn (length T) (firstn (length T1) T')); [|now rewrite F4].
      rewrite firstn_firstn. now rewrite Nat.min_l by lia.
  Qed.

  Lemma tab_series_ok T phi p m N b : tab_ok T -> N <= zlen T ->
    cong q (tab_series phi p m N b T) (frob_series phi n f p m N b).
  Proof.
    intros [_ HT] HN. unfold tab_series, frob_series. apply cong_sumf. intros j Hj. apply zseq_In in Hj. unfold zlen in HN.
    unfold frob_term. apply cong_mul; [reflexivity|].
    destruct (nth_error T (Z.to_nat j)) as [P|] eqn:X; [|apply nth_error_None in X; lia].
    rewrite (nth_error_nth _ _ _ X). destruct (HT _ _ X) as (_ & _ & _ & H).
    apply (H (fun u => phi (p * (m + j)) (frob_mono p b u))).
  Qed.
End FPOW.

(** * the whole routine *)
Section TOP.
  Variables (slv : solver) (D : dR).
  Hypothesis inv : dr_inv slv D.
  Hypothesis Hslv : solver_ok (r_q D) slv.
  Notation n := (r_n D).
  Notation d := (r_d D).
  Notation p := (r_p D).
  Notation q := (r_q D).
  Notation zn := (Z.of_nat (r_n D)).
  Notation bas := (r_basis D).
  Hypothesis Hp : 2 <= p.
  Hypothesis Hq : 2 <= q.
  Hypothesis Hn : (1 <= n)%nat.

  Lemma wf_D : wf_poly n d (r_f D).
  Proof. split; [apply (inv_f _ _ inv)|apply (inv_h _ _ inv)]. Qed.

  Lemma pole_order_eq b : length b = S n -> pole_order D b = pole_of n d b.
  Proof.
    intros Hb. unfold pole_order, pole_of. do 2 f_equal. f_equal.
    rewrite <- Hb. clear. induction b as [|x b IH]; [reflexivity|].
    cbn [length seq]. rewrite sumf_cons, sumf_seq_shift. cbn [nth zsum]. now rewrite IH.
  Qed.

  Lemma coord_ok i : (i < length bas)%nat -> exists b, get_at bas (Z.of_nat i) = OK b /\ nth i bas [] = b /\
    1 <= pole_of n d b <= zn /\ is_tuple (S n) (d * pole_of n d b - (zn + 1)) b /\ pole_order D b = pole_of n d b.
  Proof.
    intros Hi. set (b := nth i bas []). exists b. assert (Ib : In b bas) by (now apply nth_In).
    destruct (basis_elem slv D inv Hslv b Ib) as (k & Hk & Ht).
    pose proof (pole_lev slv D inv k b Hk Ht) as Hpl. rewrite Hpl.
    split; [|split; [reflexivity|split; [lia|split]]].
    - unfold get_at. destruct (Z.ltb_spec (Z.of_nat i) 0); [lia|]. rewrite Nat2Z.id, (nth_error_nth' bas [] Hi). reflexivity.
    - replace (d * (k + 1) - (zn + 1)) with ((k + 1) * d - (zn + 1)) by ring. exact Ht.
    - rewrite pole_order_eq; [exact Hpl|apply Ht].
  Qed.

  Section COORD.
  Variables (i : nat) (N : Z) (loop : nat) (T : list poly).
  Hypothesis Hi : (i < length bas)%nat.
  Hypothesis HN : 1 <= N.
  Hypothesis Hloop : (loop <= 2)%nat.
  Hypothesis HT : tab_ok q n d (r_f D) T.
  Notation b := (nth i bas []).
  Notation m := (pole_of n d b).
  Hypothesis Hbig : zn / p <= m + N - 1.

  Lemma sum_ZZ_ok :
    (forall k j, 0 <= j <= k -> k < N -> choose (Z.to_nat k) (Z.to_nat j) < 2 ^ 63) ->
    (forall k j, 0 <= j <= k -> k < N -> m + j <= zn / p -> d_bin m k j < 2 ^ 63) ->
    exists F fact, frob_sum_ZZ slv D T i N loop = OK (F, fact) /\ length F = length bas /\
      0 <= fact < q /\ cong q fact (zfact (p * (m + N - 1) - 1)) /\
      forall phi psi, GD q n d (r_f D) phi -> basis_val q n d bas phi psi ->
        cong q (ev_basis psi bas F) (frob_series phi n (r_f D) p m N b).
  Proof.
    intros Hc1 Hc2. destruct (coord_ok i Hi) as (b' & E1 & <- & Hm & Ht & Epo).
    destruct (compute_fpow_ok q n d (r_f D) Hq wf_D (N - 1) T HT) as (T' & T1 & T2 & T3 & _).
    unfold frob_sum_ZZ, check. replace (0 <? N) with true by (symmetry; apply Z.ltb_lt; lia). cbn [bind].
    rewrite E1. cbn [bind]. rewrite T1. cbn [bind]. rewrite Epo.
    pose proof (Z.div_pos zn p ltac:(lia) ltac:(lia)) as Hnp.
    assert (Hfl : N <= zlen T') by lia.
    assert (Hfk : forall j P, nth_error T' j = Some P -> forall u c, In (u, c) P -> is_tuple (S n) (d * Z.of_nat j) u).
    { intros j P X. apply (proj2 T2 j P X). }
    destruct (high_ok slv D inv Hslv Hp Hq Hn b m N Ht HN T' Hfl Hfk 0 loop (djm djm_ZZ m N)
      (Z.divide_0_r q) Hloop Hbig) as (F & fact & F1 & F2 & F3 & F4).
    { intros e' He' Hme. apply djm_ok; [lia|]. intros k Hk. apply djm_ZZ_ok; try lia. apply Hc1; lia. }
    rewrite F1. cbn [bind].
    destruct (low_ok slv D inv Hslv Hp Hq Hn b m N Ht HN T' Hfl Hfk loop (djm djm_64 m N) Hloop
      (Z.to_nat (zn / p)) F fact) as (F' & fact' & G1 & G2 & G3 & G4); rewrite ?Z2Nat.id in * by lia; auto.
    { apply Z.mul_div_le. lia. }
    { intros e' He' Hme. apply djm_ok; [lia|]. intros k Hk. apply djm_64_ok; try lia. apply Hc2; lia. }
    exists F', fact'. split; auto. split; auto. destruct G3 as [G3 G3']. split; auto. split.
    { rewrite Z.mul_0_r, Z.max_l in G3' by lia. unfold zfact. replace (p * (m + N - 1) - 1 + 1) with (p * (m + N - 1)) by ring. exact G3'. }
    intros phi psi Hphi Hpsi. rewrite (G4 phi psi Hphi Hpsi), (F4 phi psi Hphi Hpsi).
    rewrite <- (tab_series_ok q n d (r_f D) T' phi p m N b T2 Hfl), <- (Tm_series D Hn b m N ltac:(lia) HN T' phi).
    rewrite (zseq_app 1 (zn / p + 1) (m + N)), sumf_app by lia. apply cong_of_eq. ring.
  Qed.

  (** frob_J_ZZ_p: the low loop stops at e < m *)
  Lemma low_p_ok T' k : N <= zlen T' -> tab_ok q n d (r_f D) T' -> forall F fact, let e := Z.of_nat k in
    p * e <= zn -> e <= m + N - 1 -> fact_ok D m N e fact -> length F = length bas ->
    (forall j, 0 <= j < N -> Z.abs (D_coef m N j) < 2 ^ 63) ->
    exists F' fact', frob_low_p slv D (djm_acc64 m N) b m N T' k (F, fact) = OK (F', fact') /\ length F' = length bas /\
      fact_ok D m N (Z.min e (m - 1)) fact' /\
      forall phi psi, GD q n d (r_f D) phi -> basis_val q n d bas phi psi ->
        cong q (ev_basis psi bas F') (ev_basis psi bas F + sumf (Tm D b m N T' phi) (zseq 1 (e + 1))).
  Proof.
    intros Hfl HT'. destruct (coord_ok i Hi) as (b' & E1 & <- & Hm & Ht & Epo).
    assert (Hfk : forall j P, nth_error T' j = Some P -> forall u c, In (u, c) P -> is_tuple (S n) (d * Z.of_nat j) u).
    { intros j P X. apply (proj2 HT' j P X). }
    induction k as [|k IH]; intros F fact e He1 He2 Hf HF Hc.
    - exists F, fact. split; auto. split; auto. split; [rewrite Z.min_l by (unfold e; lia); exact Hf|].
      intros. apply cong_of_eq. rewrite zseq_nil by (unfold e; lia). rewrite sumf_nil. ring.
    - cbn [frob_low_p]. fold e. destruct (Z.leb_spec m e) as [L|L].
      + rewrite djm_acc64_ok by (try lia; apply Hc; lia). cbn [bind].
        destruct (fpow_at D Hn m N HN T' Hfl Hfk e ltac:(lia)) as (P & P1 & P2 & P3). rewrite P1. cbn [bind].
        destruct (low_terms_ok slv D inv Hslv Hp Hq Hn b m Ht loop Hloop (D_coef m N (e - m)) e fact P F ltac:(lia) He1 P3 HF)
          as (F1 & A1 & A2 & A3). rewrite A1. cbn [bind].
        pose proof (frob_fact_ok D Hp Hq Hn m N e fact ltac:(lia) Hf) as Hf'. replace (e - 1) with (Z.of_nat k) in Hf' by lia.
        destruct (IH F1 (frob_fact q p e fact)) as (F' & fact' & B1 & B2 & B3 & B4); auto; try nia.
        exists F', fact'. split; [exact B1|]. split; auto. split.
        { replace (Z.min e (m - 1)) with (Z.min (Z.of_nat k) (m - 1)) by lia. exact B3. }
        intros phi psi Hphi Hpsi. rewrite (B4 phi psi Hphi Hpsi), (A3 phi psi Hphi Hpsi).
        replace (zseq 1 (e + 1)) with (zseq 1 e ++ [e]) by (symmetry; apply zseq_snoc; lia).
        rewrite sumf_app, sumf_cons, sumf_nil. replace (Z.of_nat k + 1) with e by lia.
        assert (X : cong q (D_coef m N (e - m) * fact * sumf (fun t => snd t * phi (p * e) (frob_mono p b (fst t))) P) (Tm D b m N T' phi e)).
        { unfold Tm. destruct (Z.leb_spec m e); [|lia]. rewrite P2. unfold frob_term.
          replace (m + (e - m)) with e by ring. destruct Hf as [_ Hf]. rewrite Hf. rewrite Z.max_r by nia. reflexivity. }
        rewrite X. apply cong_of_eq. ring.
      + exists F, fact. split; auto. split; auto. split; [rewrite Z.min_l by lia; exact Hf|].
        intros. rewrite sumf_zero; [apply cong_of_eq; ring|]. intros e' He'. apply zseq_In in He'. unfold Tm.
        destruct (Z.leb_spec m e'); [lia|auto].
  Qed.

  Lemma sum_ZZ_p_ok :
    (forall j, 0 <= j < N -> Z.abs (D_coef m N j) < 2 ^ 63) ->
    exists F fact, frob_sum_ZZ_p slv D T i N loop = OK (F, fact) /\ length F = length bas /\
      0 <= fact < q /\
      cong q fact (zprod (zseq (Z.max 1 (p * Z.min (zn / p) (m - 1))) (p * (m + N - 1)))) /\
      forall phi psi, GD q n d (r_f D) phi -> basis_val q n d bas phi psi ->
        cong q (ev_basis psi bas F) (frob_series phi n (r_f D) p m N b).
  Proof.
    intros Hc. destruct (coord_ok i Hi) as (b' & E1 & <- & Hm & Ht & Epo).
    destruct (compute_fpow_ok q n d (r_f D) Hq wf_D (N - 1) T HT) as (T' & T1 & T2 & T3 & _).
    unfold frob_sum_ZZ_p, check. replace (0 <? N) with true by (symmetry; apply Z.ltb_lt; lia). cbn [bind].
    rewrite E1. cbn [bind]. rewrite T1. cbn [bind]. rewrite Epo.
    pose proof (Z.div_pos zn p ltac:(lia) ltac:(lia)) as Hnp.
    assert (Hfl : N <= zlen T') by lia.
    assert (Hfk : forall j P, nth_error T' j = Some P -> forall u c, In (u, c) P -> is_tuple (S n) (d * Z.of_nat j) u).
    { intros j P X. apply (proj2 T2 j P X). }
    destruct (high_ok slv D inv Hslv Hp Hq Hn b m N Ht HN T' Hfl Hfk q loop (djm_acc64 m N)
      (Z.divide_refl q) Hloop Hbig) as (F & fact & F1 & F2 & F3 & F4).
    { intros e' He' Hme. apply djm_acc64_ok; try lia. apply Hc; lia. }
    rewrite F1. cbn [bind].
    destruct (low_p_ok T' (Z.to_nat (zn / p)) Hfl T2 F fact) as (F' & fact' & G1 & G2 & G3 & G4);
      rewrite ?Z2Nat.id in * by lia; auto.
    { apply Z.mul_div_le. lia. }
    exists F', fact'. split; auto. split; auto. destruct G3 as [G3 G3']. split; auto. split; auto.
    intros phi psi Hphi Hpsi. rewrite (G4 phi psi Hphi Hpsi), (F4 phi psi Hphi Hpsi).
    rewrite <- (tab_series_ok q n d (r_f D) T' phi p m N b T2 Hfl), <- (Tm_series D Hn b m N ltac:(lia) HN T' phi).
    rewrite (zseq_app 1 (zn / p + 1) (m + N)), sumf_app by lia. apply cong_of_eq. ring.
  Qed.
  End COORD.
End TOP.

(** * the final division *)
Lemma inv_mod_ok q a : 2 <= q -> Znumtheory.rel_prime a q ->
  exists x, inv_mod q a = OK x /\ 0 <= x < q /\ cong q (a * x) 1.
Proof.
  intros Hq Hr. unfold inv_mod. destruct (find _ (zseq 0 q)) as [x|] eqn:E.
  - apply find_some in E. destruct E as [E1 E2]. apply zseq_In in E1. apply Z.eqb_eq in E2. exists x. split; auto. split; auto.
    apply cong_iff_mod; lia.
  - exfalso. destruct (Znumtheory.rel_prime_bezout _ _ Hr) as [u v Huv].
    assert (I : In (u mod q) (zseq 0 q)) by (apply zseq_In; apply Z.mod_pos_bound; lia).
    pose proof (find_none _ _ E _ I) as F. apply Z.eqb_neq in F. apply F.
    rewrite Z.mul_mod_idemp_r by lia. replace (a * u) with (1 + - v * q) by lia. rewrite Z.mod_add by lia. reflexivity.
Qed.

Lemma rel_prime_pow p k u : prime p -> ~ (p | u) -> Znumtheory.rel_prime u (p ^ Z.of_nat k).
Proof.
  intros Hp Hu. assert (H : Znumtheory.rel_prime p u) by (now apply Znumtheory.prime_rel_prime).
  apply Znumtheory.rel_prime_sym. induction k as [|k IH].
  - cbn. apply Znumtheory.rel_prime_1.
  - rewrite Nat2Z.inj_succ, Z.pow_succ_r by lia. apply Znumtheory.rel_prime_sym, Znumtheory.rel_prime_mult; now apply Znumtheory.rel_prime_sym.
Qed.

Lemma pow_divide_pow p a b : 2 <= p -> 0 <= a <= b -> (p ^ a | p ^ b).
Proof. intros Hp H. exists (p ^ (b - a)). rewrite <- Z.pow_add_r by lia. f_equal. lia. Qed.

Lemma div_all_ok q pp F : div_all q pp F = (if forallb (fun x => x mod pp =? 0) F
  then OK (map (fun x => (x / pp) mod q) F) else Err EAssert).
Proof.
  unfold div_all. induction F as [|x F IH]; [reflexivity|]. cbn [mapM forallb map].
  destruct (x mod pp =? 0); [|reflexivity]. cbn [check bind andb]. rewrite IH.
  destruct (forallb _ F); reflexivity.
Qed.

Lemma finish_ok p k n P F fact : prime p -> 1 <= k -> 1 <= n -> 1 <= P ->
  let q := p ^ k in
  0 <= fact < q -> cong q fact (zfact (P - 1)) ->
  exists v u, 0 <= v /\ zfact (P - 1) = p ^ v * u /\ ~ (p | u) /\
  (v <= n - 1 -> exists R, frob_finish q p n P F fact = OK R /\ length R = length F /\
     forall i, (i < length F)%nat -> 0 <= nth i R 0 < q /\ cong q (u * nth i R 0) (p ^ (n - 1 - v) * nth i F 0)) /\
  (n - 1 < v ->
     (exists R, frob_finish q p n P F fact = OK R /\ length R = length F /\
        forall i, (i < length F)%nat -> 0 <= nth i R 0 < q /\ cong q (u * (p ^ (v - (n - 1)) * nth i R 0)) (nth i F 0)) \/
     (frob_finish q p n P F fact = Err EAssert /\
        exists i, (i < length F)%nat /\ forall y, ~ cong q (p ^ (v - (n - 1)) * y) (nth i F 0))).
Proof.
  intros Hp Hk Hn HP q Hf Hc. assert (Hp2 : 2 <= p) by (destruct Hp; lia).
  assert (Hq : 2 <= q).
  { unfold q. replace k with (1 + (k - 1)) by lia. rewrite Z.pow_add_r, Z.pow_1_r by lia.
    pose proof (Z.pow_pos_nonneg p (k - 1) ltac:(lia) ltac:(lia)). nia. }
  destruct (vof_exact p (P - 1) Hp ltac:(lia)) as (v & V1 & V2 & V3 & V4).
  destruct V3 as [u Hu]. pose proof (Z.pow_pos_nonneg p v ltac:(lia) V2) as Hpv.
  assert (Hpu : ~ (p | u)).
  { intros [w Hw]. apply V4. exists w. rewrite Z.pow_add_r, Z.pow_1_r by lia. rewrite Hu, Hw. ring. }
  assert (Hru : Znumtheory.rel_prime u q).
  { unfold q. rewrite <- (Z2Nat.id k) by lia. now apply rel_prime_pow. }
  assert (Hru' : Znumtheory.rel_prime (u mod q) q).
  { apply Znumtheory.rel_prime_mod; auto. lia. }
  destruct (inv_mod_ok q (u mod q) Hq Hru') as (x & X1 & X2 & X3). rewrite cong_mod in X3.
  assert (CK : fact =? factorial q (P - 1) 1 = true).
  { apply Z.eqb_eq. pose proof (factorial_cong q (P - 1) 1) as H3. unfold zfact in Hc. rewrite <- H3 in Hc.
    apply cong_iff_mod in Hc; [|lia]. pose proof (factorial_range q (P - 1) 1 Hq). rewrite !Z.mod_small in Hc by lia. exact Hc. }
  assert (FN : frob_finish q p n P F fact =
    if v <=? n - 1 then OK (lvec_scal q ((p ^ (n - 1 - v)) mod q) (lvec_scal q x F))
    else div_all q (p ^ (v - (n - 1))) (lvec_scal q x F)).
  { unfold frob_finish. rewrite CK. cbn [check bind]. rewrite V1. cbn [bind]. rewrite factorial_ZZ, Hu.
    rewrite Z.mod_mul by lia. cbn [check bind Z.eqb]. rewrite Z.div_mul by lia. rewrite X1. reflexivity. }
  exists v, u. split; auto. split; [rewrite Hu; ring|]. split; auto. rewrite FN. split.
  - intros Hv. replace (v <=? n - 1) with true by (symmetry; apply Z.leb_le; lia). eexists. split; [reflexivity|].
    rewrite !lvec_scal_length. split; auto. intros i Hi. rewrite !lvec_scal_nth by (rewrite ?lvec_scal_length; auto).
    split; [apply Z.mod_pos_bound; lia|]. rewrite !cong_mod.
    replace (u * (p ^ (n - 1 - v) * (x * nth i F 0))) with (u * x * (p ^ (n - 1 - v) * nth i F 0)) by ring.
    rewrite X3. apply cong_of_eq. ring.
  - intros Hv. replace (v <=? n - 1) with false by (symmetry; apply Z.leb_gt; lia). rewrite div_all_ok.
    set (pp := p ^ (v - (n - 1))). assert (Hpp : 0 < pp) by (apply Z.pow_pos_nonneg; lia).
    destruct (forallb _ _) eqn:FB.
    + left. eexists. split; [reflexivity|]. rewrite map_length, lvec_scal_length. split; auto. intros i Hi.
      rewrite (nth_map_lt (fun x0 => (x0 / pp) mod q) _ _ _ 0) by (rewrite lvec_scal_length; auto).
      split; [apply Z.mod_pos_bound; lia|]. rewrite cong_mod.
      rewrite forallb_forall in FB. specialize (FB (nth i (lvec_scal q x F) 0)).
      assert (Hi2 : (i < length (lvec_scal q x F))%nat) by (rewrite lvec_scal_length; auto).
      specialize (FB (nth_In _ _ Hi2)). apply Z.eqb_eq in FB.
      apply Z.div_exact in FB; [|lia]. rewrite <- FB, lvec_scal_nth by auto. rewrite cong_mod.
      rewrite Z.mul_assoc, X3. apply cong_of_eq. ring.
    + right. split; auto.
      assert (EX : exists y, In y (lvec_scal q x F) /\ y mod pp <> 0).
      { clear - FB. induction (lvec_scal q x F) as [|y l IH]; [discriminate|]. cbn [forallb] in FB.
        destruct (Z.eqb_spec (y mod pp) 0) as [E0|E0].
        - destruct (IH FB) as (z & Z1 & Z2). exists z. split; auto. now right.
        - exists y. split; auto. now left. }
      destruct EX as (y & Y1 & Y2). destruct (In_nth _ _ 0 Y1) as (i & I1 & I2). rewrite lvec_scal_length in I1.
      exists i. split; auto. intros z Hz. apply Y2. rewrite <- I2, lvec_scal_nth by auto.
      assert (Hy : cong q ((x * nth i F 0) mod q) (x * (pp * z))) by (rewrite cong_mod, <- Hz; reflexivity).
      set (y' := (x * nth i F 0) mod q) in *. assert (Hyb : 0 <= y' < q) by (apply Z.mod_pos_bound; lia).
      destruct (Z.le_gt_cases (v - (n - 1)) k) as [L|L].
      * destruct (pow_divide_pow p (v - (n - 1)) k Hp2 ltac:(lia)) as [w Hw]. fold pp q in Hw.
        destruct Hy as [c Hc']. apply Z.mod_divide; [lia|]. exists (x * z + c * w). rewrite Hw in Hc'. lia.
      * destruct (pow_divide_pow p k (v - (n - 1)) Hp2 ltac:(lia)) as [w Hw]. fold pp q in Hw.
        destruct Hy as [c Hc']. rewrite Hw in Hc'. assert (HK : y' = (x * w * z + c) * q) by lia.
        assert (H0 : y' = 0). { revert HK. generalize (x * w * z + c) as K. intros K HK. clearbody y' q. clear - HK Hyb.
          assert (C : K <= -1 \/ K = 0 \/ 1 <= K) by lia. destruct C as [C|[C|C]]; [nia|subst K; lia|nia]. }
        rewrite H0. apply Z.mod_0_l. lia.
Qed.

(** * pole orders of the series below n/p: the bookkeeping breaks *)
Lemma frob_fact_divisible q p e fact : 2 <= p -> q <> 0 -> (p | q) -> 2 <= e -> (p | frob_fact q p e fact).
Proof.
  intros Hp Hq0 Hpq He. unfold frob_fact. replace (1 <? e) with true by (symmetry; apply Z.ltb_lt; lia).
  replace (zseq 0 p) with (zseq 0 (p - 1) ++ [p - 1]).
  2:{ rewrite <- zseq_snoc by lia. f_equal. lia. }
  rewrite fold_left_app. cbn [fold_left]. replace (p * e - (p - 1) - 1) with (p * (e - 1)) by ring.
  rewrite Z.mod_eq by auto. apply Z.divide_sub_r.
  - apply Z.divide_mul_r, Z.divide_factor_l.
  - now apply Z.divide_mul_l.
Qed.

Lemma low_breaks slv D dj ei m N T k F : 2 <= r_p D -> 2 <= r_q D -> (r_p D | r_q D) -> 1 <= m + N - 1 < Z.of_nat k ->
  forall x, frob_low slv D dj ei m N T k (F, 1 mod r_q D) <> OK x.
Proof.
  intros Hp Hq Hpq Hk x E. destruct k as [|[|k]]; [lia|lia|]. cbn [frob_low] in E.
  destruct (1 mod r_q D =? _); cbn [check bind] in E; [|discriminate].
  apply bind_ok in E. destruct E as (F1 & _ & E). unfold check in E.
  destruct (frob_fact _ _ _ _ =? _) eqn:X; cbn [bind] in E; [|discriminate].
  apply Z.eqb_eq in X. pose proof (frob_fact_divisible (r_q D) (r_p D) (Z.of_nat (S (S k))) (1 mod r_q D) Hp ltac:(lia) Hpq ltac:(lia)) as Dv.
  rewrite X in Dv. unfold factorial in Dv. rewrite zseq_nil in Dv by nia. cbn [fold_left] in Dv.
  rewrite Z.mod_small in Dv by lia. apply Z.divide_1_r_nonneg in Dv; lia.
Qed.

Lemma sum_ZZ_breaks slv D T i N loop : 2 <= r_p D -> 2 <= r_q D -> (r_p D | r_q D) -> 1 <= N ->
  (forall b, nth_error (r_basis D) i = Some b -> 1 <= pole_order D b /\ pole_order D b + N - 1 < Z.of_nat (r_n D) / r_p D) ->
  forall x, frob_sum_ZZ slv D T i N loop <> OK x.
Proof.
  intros Hp Hq Hpq HN Hm x E. unfold frob_sum_ZZ in E. apply bind_ok in E. destruct E as (? & _ & E).
  apply bind_ok in E. destruct E as (b & Eb & E). apply bind_ok in E. destruct E as (T' & _ & E).
  unfold get_at in Eb. destruct (Z.ltb_spec (Z.of_nat i) 0); [lia|]. rewrite Nat2Z.id in Eb.
  destruct (nth_error (r_basis D) i) as [b'|] eqn:Eb'; [|discriminate]. injection Eb as ->.
  specialize (Hm b eq_refl). set (m := pole_order D b) in *.
  apply bind_ok in E. destruct E as ([F fact] & Eh & E).
  assert (fact = 1 mod r_q D).
  { unfold frob_high in Eh. apply bind_ok in Eh. destruct Eh as (? & _ & Eh). apply bind_ok in Eh. destruct Eh as (? & _ & Eh).
    apply bind_ok in Eh. destruct Eh as (? & _ & Eh).
    replace (Z.to_nat (m + N - 1 - Z.of_nat (r_n D) / r_p D)) with 0%nat in Eh by lia. cbn [frob_loop bind fst snd] in Eh.
    apply bind_ok in Eh. destruct Eh as (? & _ & Eh). apply bind_ok in Eh. destruct Eh as (? & _ & Eh). congruence. }
  subst fact. revert E. apply low_breaks; auto. lia.
Qed.
