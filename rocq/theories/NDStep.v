(** Proofs: the non-degenerate reduction matrices and the single step (C35). *)
From Coq Require Import ZArith List Lia Bool.
From Verif Require Import Base VecModel VecSpec VecProofs ToolsModel ToolsSpec ToolsProofs PolyProofs
  MatModel MatProofs DRModel DRSpec DRProofs DRRed DRStep DRFinal DRPath NDModel NDSpec NDMat NDRed NDCol.
Import ListNotations.
Open Scope Z_scope.

Lemma cong_mod_dvd q r a : (q | r) -> cong q (a mod r) a.
Proof. intros H. apply (cong_divide r q _ _ H), cong_mod. Qed.

Lemma vsorted_filter {V} N (g : vec * V -> bool) m : vsorted N m -> vsorted N (filter g m).
Proof.
  induction 1 as [|k v m Hl Hs IH Hlt]; cbn [filter]; [constructor|].
  destruct (g (k, v)); auto. constructor; auto. intros k' v' Hin. apply filter_In in Hin. apply (Hlt k' v'). apply Hin.
Qed.

Lemma mat_is_zero_get M i j : mat_is_zero M = true -> mget M i j = 0.
Proof.
  unfold mat_is_zero, mget. intros H. rewrite forallb_forall in H.
  destruct (Nat.lt_ge_cases i (length M)) as [L|L].
  2:{ rewrite (nth_overflow M) by lia. now destruct j. }
  specialize (H _ (nth_In M [] L)). rewrite forallb_forall in H.
  destruct (Nat.lt_ge_cases j (length (nth i M []))) as [L2|L2].
  - specialize (H _ (nth_In _ 0 L2)). apply Z.eqb_eq in H. congruence.
  - now apply nth_overflow.
Qed.

Lemma wsum_zero M r c w : (forall i j, mget M i j = 0) -> wsum M r c w = 0.
Proof. intros H. apply sumf_zero. intros i _. apply sumf_zero. intros j _. rewrite H. ring. Qed.

Lemma wsum_madd_at q M r c w i j x : shape M r c -> (i < r)%nat -> (j < c)%nat ->
  cong q (wsum (madd_at q M i j x) r c w) (wsum M r c w + w i j * x).
Proof.
  intros H Hi Hj. unfold madd_at. rewrite (wsum_mset M r c) by auto.
  assert (E : cong q ((mget M i j + x) mod q - mget M i j) x).
  { transitivity (mget M i j + x - mget M i j); [|apply cong_of_eq; ring].
    apply cong_sub; [apply cong_mod|reflexivity]. }
  rewrite E. reflexivity.
Qed.

(** * maps from exponents to matrices *)
Section RMAP.
  Variables (q : Z) (N : nat) (dp : nat) (top : Z).

  (** keys are exponents of degree at most top; for degree top only row 0 of
      the matrix is used *)
  Definition Rok (R : vmap mat) : Prop :=
    vsorted N R /\ forall key M, In (key, M) R -> shape M dp dp /\ nonneg key /\ zsum key <= top /\
      (zsum key = top -> forall r c, (1 <= r)%nat -> mget M r c = 0).

  Definition rval (mu : vec -> Z) (w : nat -> nat -> Z) (R : vmap mat) : Z :=
    sumf (fun kM => mu (fst kM) * wsum (snd kM) dp dp w) R.

  Lemma Rok_nil : Rok [].
  Proof. split; [apply vsorted_nil|]. intros ? ? []. Qed.

  Lemma Rok_filter R : Rok R -> Rok (filter (fun kM => negb (mat_is_zero (snd kM))) R) /\
    forall mu w, rval mu w (filter (fun kM => negb (mat_is_zero (snd kM))) R) = rval mu w R.
  Proof.
    intros [H1 H2]. split.
    - split; [now apply vsorted_filter|]. intros key M Hin. apply filter_In in Hin. apply H2, Hin.
    - intros mu w. unfold rval. rewrite sumf_filter. apply sumf_ext. intros [key M] _. cbn [fst snd].
      destruct (mat_is_zero M) eqn:Z0; cbn [negb]; auto.
      rewrite wsum_zero; [ring|]. intros. now apply mat_is_zero_get.
  Qed.

  (** replacing the matrix at one key *)
  Lemma Rok_put R key (M' : mat) : Rok R -> length key = N -> nonneg key -> zsum key <= top ->
    shape M' dp dp -> (zsum key = top -> forall r c, (1 <= r)%nat -> mget M' r c = 0) ->
    Rok (vinsert key M' R) /\
    forall mu w, rval mu w (vinsert key M' R) = rval mu w R + mu key *
      (wsum M' dp dp w - wsum (match vfind key R with Some M => M | None => mzero dp dp end) dp dp w).
  Proof.
    intros [H1 H2] Lk Nk Sk Sh T. split.
    - split; [now apply vinsert_sorted|]. intros k0 M0 Hin. apply (vinsert_In N) in Hin; auto.
      destruct Hin as [[-> ->]|[_ Hin]]; auto.
    - intros mu w. unfold rval. rewrite (sumf_vinsert N); auto.
      2:{ intros. eapply vsorted_len; eauto. }
      cbn [fst snd]. destruct (vfind key R); [ring|]. rewrite wsum_mzero. ring.
  Qed.

  Lemma Rok_find R key : Rok R -> length key = N ->
    let M := match vfind key R with Some M => M | None => mzero dp dp end in
    shape M dp dp /\ (zsum key = top -> forall r c, (1 <= r)%nat -> mget M r c = 0).
  Proof.
    intros [H1 H2] Lk. cbv zeta. destruct (vfind key R) as [M|] eqn:E.
    - apply (vfind_In N) in E; auto. destruct (H2 _ _ E) as (A & _ & _ & B). auto.
    - split; [apply shape_mzero|]. intros. apply mget_mzero.
  Qed.

  Lemma radd_ok R key row col x : Rok R -> length key = N -> nonneg key -> zsum key <= top ->
    (row < dp)%nat -> (col < dp)%nat -> (zsum key = top -> row = 0%nat) ->
    Rok (radd q dp R (key, (row, col, x))) /\
    forall mu w, cong q (rval mu w (radd q dp R (key, (row, col, x)))) (rval mu w R + mu key * (w row col * x)).
  Proof.
    intros HR Lk Nk Sk Hr Hc Ht. unfold radd.
    destruct (Rok_find R key HR Lk) as [F1 F2]. set (M := match vfind key R with Some M => M | None => mzero dp dp end) in *.
    destruct (Rok_put R key (madd_at q M row col x) HR Lk Nk Sk) as [P1 P2].
    - unfold madd_at. now apply shape_mset.
    - intros Ek r c Hr1. unfold madd_at. specialize (Ht Ek). subst row.
      rewrite (mget_mset M dp dp) by auto. destruct (Nat.eqb_spec 0 r); [lia|]. cbn [andb]. auto.
    - split; auto. intros mu w. rewrite P2. fold M. rewrite (wsum_madd_at q M dp dp) by auto.
      apply cong_of_eq. ring.
  Qed.

  Lemma radd_fold us : forall R, Rok R ->
    (forall key row col x, In (key, (row, col, x)) us -> length key = N /\ nonneg key /\ zsum key <= top /\
      (row < dp)%nat /\ (col < dp)%nat /\ (zsum key = top -> row = 0%nat)) ->
    Rok (fold_left (radd q dp) us R) /\
    forall mu w, cong q (rval mu w (fold_left (radd q dp) us R))
      (rval mu w R + sumf (fun t => mu (fst t) * (w (fst (fst (snd t))) (snd (fst (snd t))) * snd (snd t))) us).
  Proof.
    induction us as [|[key [[row col] x]] us IH]; intros R HR Hu; cbn [fold_left].
    - split; auto. intros. rewrite sumf_nil. apply cong_of_eq. ring.
    - destruct (Hu key row col x) as (U1 & U2 & U3 & U4 & U5 & U6); [now left|].
      destruct (radd_ok R key row col x HR U1 U2 U3 U4 U5 U6) as [A1 A2].
      destruct (IH (radd q dp R (key, (row, col, x))) A1) as [B1 B2]. { intros; eapply Hu; right; eauto. }
      split; auto. intros mu w. rewrite (B2 mu w), (A2 mu w), sumf_cons. cbn [fst snd]. apply cong_of_eq. ring.
  Qed.
End RMAP.

Section NDS.
  Variables (slv : solver) (N : dND).
  Notation D := (nd_dr N).
  Hypothesis ninv : nd_inv slv N.
  Hypothesis Hslv : solver_ok (r_q D) slv.
  Notation n := (r_n D).
  Notation d := (r_d D).
  Notation q := (r_q D).
  Notation zn := (Z.of_nat (r_n D)).
  Notation bas := (nd_basis N).
  Notation dp := (length bas).
  Variable v : vec.
  Hypothesis Hv : is_tuple (S n) d v.
  Hypothesis Hn : (1 <= n)%nat.

  (** weights: G_col times the value at the monomial of the row *)
  Definition gw (u : vec) (Phi : vec -> Z) (G : list Z) (row col : nat) : Z :=
    nth col G 0 * Phi (vadd u (nth row bas [])).

  Lemma crm_gen : exists solves top R, nd_solves slv D = OK solves /\ get_solve_ND slv D (top_ND D) = OK top /\
    compute_reduction_matrix_ND slv N v = OK R /\ Rok (S n) dp (zn + 1) R /\
    exists colf, (forall b, In b bas -> nd_column N solves top v b = OK (colf b)) /\
    forall mu w, cong q (rval dp mu w R)
      (sumf (fun c => sumf (fun t : vec * (nat * Z) => mu (fst t) * (w (fst (snd t)) c * snd (snd t))) (colf (nth c bas []))) (seq 0 dp)).
  Proof.
    pose proof (nd_nd slv N ninv) as ND. unfold compute_reduction_matrix_ND. cbv zeta.
    assert (Hv' := Hv). destruct Hv' as (V1 & V2 & V3).
    rewrite V3. unfold check at 1. rewrite Z.eqb_refl. cbn [bind].
    destruct (nd_solves_ok slv N ninv Hslv) as (solves & Es & _). rewrite Es. cbn [bind].
    destruct (ni_top _ _ ninv) as (U & Et). rewrite Et. cbn [bind].
    set (colf := fun b => match nd_column N solves ([], U) v b with OK us => us | Err _ => [] end).
    assert (HC : forall b, In b bas -> nd_column N solves ([], U) v b = OK (colf b) /\
      (forall t, In t (colf b) -> nup_ok N (zn + 1) t) /\ nups_top N (colf b)).
    { intros b Hb. destruct (nd_column_ok slv N ninv Hslv v Hv Hn solves ([], U) b Es Et Hb) as (ups & E1 & E2 & E3 & _).
      unfold colf. rewrite E1. auto. }
    set (tag := fun cb : nat * vec => map (fun u => (fst u, (fst (snd u), fst cb, snd (snd u)))) (colf (snd cb))).
    rewrite (mapM_total _ tag).
    2:{ intros [c b] Hin. apply in_combine_r in Hin. cbn [fst snd]. rewrite (proj1 (HC b Hin)). reflexivity. }
    cbn [bind].
    assert (HU : forall key row col x, In (key, (row, col, x)) (concat (map tag (combine (seq 0 dp) bas))) ->
       length key = S n /\ nonneg key /\ zsum key <= zn + 1 /\ (row < dp)%nat /\ (col < dp)%nat /\ (zsum key = zn + 1 -> row = 0%nat)).
    { intros key row col x Hin. apply in_concat in Hin. destruct Hin as (l0 & Hl0 & Hin).
      apply in_map_iff in Hl0. destruct Hl0 as ([c b] & <- & Hcb).
      unfold tag in Hin. cbn [fst snd] in Hin. apply in_map_iff in Hin. destruct Hin as ([key' [row' x']] & Eq & Hin).
      cbn [fst snd] in Eq. injection Eq as <- <- <- <-.
      assert (Hb : In b bas) by (eapply in_combine_r; eauto). apply in_combine_l, in_seq in Hcb.
      destruct (HC b Hb) as (_ & C2 & C3). destruct (C2 _ Hin) as (A1 & A2 & A3 & A4). cbn [fst snd] in *.
      do 4 (split; [assumption|]). split; [lia|]. eapply C3; eauto. }
    unfold check. replace (forallb _ _) with true.
    2:{ symmetry. apply forallb_forall. intros [key [[row col] x]] Hin. cbn [fst snd]. apply Nat.ltb_lt. destruct (HU key row col x Hin) as (_ & _ & _ & X & _). exact X. }
    cbn [bind]. exists solves, ([], U). eexists. split; [reflexivity|]. split; [reflexivity|]. split; [reflexivity|].
    destruct (radd_fold q (S n) dp (zn + 1) _ [] (Rok_nil _ _ _) HU) as [F1 F2].
    destruct (Rok_filter (S n) dp (zn + 1) _ F1) as [G1 G2].
    split; [exact G1|]. exists colf. split; [intros b Hb; apply (HC b Hb)|].
    intros mu w. rewrite G2, (F2 mu w).
    unfold rval. rewrite sumf_nil, Z.add_0_l, sumf_concat, sumf_map. rewrite (sumf_combine_seq _ bas []).
    apply cong_of_eq. apply sumf_ext. intros c Hc. unfold tag. cbn [fst snd]. rewrite sumf_map. reflexivity.
  Qed.

  Lemma crm_ok : exists R, compute_reduction_matrix_ND slv N v = OK R /\ Rok (S n) dp (zn + 1) R /\
    forall u Phi G, length u = S n -> (d | zsum u) -> LGD q n d (r_f D) u Phi ->
      cong q (rval dp (mono u) (gw u Phi G) R) (ev_ND Phi (vadd u v) bas G).
  Proof.
    destruct crm_gen as (solves & top & R & Es & Et & ER & HR & colf & HC & HV).
    exists R. split; auto. split; auto. intros u Phi G Lu Du HL. rewrite HV. unfold ev_ND.
    destruct Hv as (V1 & V2 & V3).
    apply cong_sumf. intros c Hc. apply in_seq in Hc.
    assert (Hb : In (nth c bas []) bas) by (apply nth_In; lia).
    destruct (nd_column_ok slv N ninv Hslv v Hv Hn solves top _ Es Et Hb) as (ups & E1 & _ & _ & E4).
    rewrite (HC _ Hb) in E1. injection E1 as ->. specialize (E4 u Phi Lu Du HL).
    assert (Lb : length (nth c bas []) = S n) by (eapply nbasis_len; eauto).
    rewrite eplus_vadd, <- vadd_assoc by congruence. rewrite <- E4.
    unfold nups. rewrite <- sumf_scal. apply cong_of_eq. apply sumf_ext. intros t _. unfold gw. ring.
  Qed.

  (** the matrix is not zero for all u *)
  Lemma crm_nonzero : 2 <= q -> forall R0, compute_reduction_matrix_ND slv N v = OK R0 ->
    (forall u w, length u = S n -> cong q (rval dp (mono u) w R0) 0) -> False.
  Proof.
    intros Hq R0 ER0 Hnil. pose proof (nd_nd slv N ninv) as ND. pose proof (nbase slv N ninv) as NB.
    destruct crm_gen as (solves & top & R & Es & Et & ER & HR & colf & HC & HV).
    rewrite ER0 in ER. injection ER as <-.
    destruct (nbasis_0 slv N ninv Hslv) as [B0 B1]. destruct Hv as (V1 & V2 & V3).
    assert (Hb : In (nth 0 bas []) bas) by now apply nth_In.
    specialize (HC _ Hb). rewrite B0 in HC.
    assert (LZ : length (repeat 0 (S n)) = S n) by apply repeat_length.
    assert (NZ : nonneg (repeat 0 (S n))) by (apply nonneg_iff; intros i _; rewrite nth_repeat_any; destruct (Nat.ltb i (S n)); lia).
    unfold nd_column in HC. cbv zeta in HC. rewrite zsum_repeat0, Z.rem_0_l, Z.quot_0_l in HC by lia.
    unfold check at 1 in HC. change (0 =? 0) with true in HC. cbn [bind] in HC.
    replace (0 =? zn) with false in HC by (symmetry; apply Z.eqb_neq; lia).
    change (0 + 1) with 1 in HC. rewrite Z.mul_1_l in HC.
    rewrite (base_tl _ NB) in HC by nia. cbn [bind] in HC. rewrite (base_td _ NB) in HC by nia. cbn [bind] in HC.
    rewrite vec_add_ok in HC by congruence. cbn [bind] in HC.
    assert (E0v : vadd (repeat 0 (S n)) v = v).
    { apply vec_ext; [rewrite (vadd_length _ _ (S n)); auto|]. intros i Hi. rewrite vadd_nth by congruence.
      rewrite nth_repeat. lia. }
    rewrite E0v in HC.
    set (hi := enum (S n) (Z.to_nat d)) in *.
    assert (Tv : is_tuple (S n) (Z.of_nat (Z.to_nat d)) v) by (rewrite Z2Nat.id by lia; repeat split; auto).
    destruct (pos_ok _ _ _ Tv) as (P1 & P2 & P3). fold hi in P1, P2, P3. rewrite P1 in HC. cbn [bind] in HC.
    set (j := pos n (Z.to_nat d) v) in *.
    unfold check at 1 in HC. replace (Nat.ltb j (length hi)) with true in HC by (symmetry; now apply Nat.ltb_lt). cbn [bind] in HC.
    change (Z.to_nat 1) with 1%nat in HC. cbn [nd_levels] in HC.
    destruct (nd_solves_ok slv N ninv Hslv) as (s' & Es' & HS). rewrite Es in Es'. injection Es' as <-.
    destruct (HS 0%nat ltac:(lia)) as (B & U & G1 & G2 & G3).
    change (Z.of_nat 0) with 0 in *. rewrite G1 in HC. cbn [bind] in HC.
    change (0 + 1) with 1 in G2, G3. rewrite Z.mul_1_l in G2, G3. fold hi in G3.
    destruct (matrix_ND_any slv N ninv d ltac:(nia)) as (nc & T & M1 & M2 & _). fold hi in M2.
    assert (Enc : nc = (S n * length (enum (S n) (Z.to_nat 0)))%nat).
    { destruct (matrix_ND_weighted D NB d ltac:(nia)) as (T' & W1 & _). rewrite Z.sub_diag in W1. congruence. }
    assert (G2' := G2). unfold get_solve_ND in G2'. rewrite M1 in G2'. cbn [bind fst snd] in G2'.
    destruct (Hslv _ _ _ _ _ M2 G2') as [(S1 & S2 & S3) S4].
    set (lo := enum (S n) (Z.to_nat 0)) in *.
    unfold nd_level in HC. cbv zeta in HC. cbn [Z.of_nat] in HC. change (0 + 1) with 1 in HC. rewrite Z.mul_0_l, Z.mul_1_l in HC.
    rewrite (base_tl _ NB) in HC by nia. cbn [bind] in HC. fold lo in HC.
    rewrite (base_tl _ NB) in HC by nia. cbn [bind] in HC. fold hi in HC. cbn [foldM fst snd] in HC.
    destruct (mat_vec_ok q U (unit_at (length hi) j) (nc + length B)) as (F & F1 & F2 & F3).
    { rewrite unit_at_length. exact S4. }
    rewrite F1 in HC. cbn [bind] in HC. unfold check at 1 in HC.
    rewrite F2, Enc, Nat.leb_refl in HC. cbn [bind] in HC.
    replace (Nat.leb (0 + 1) n) with true in HC by (symmetry; apply Nat.leb_le; lia).
    set (rowof := fun b => match dget (nd_bdict N) (nth b hi []) with OK j => j | Err _ => O end).
    assert (HRo : forall b, In b B -> dget (nd_bdict N) (nth b hi []) = OK (rowof b) /\ (rowof b < length bas)%nat /\ nth (rowof b) bas [] = nth b hi []).
    { intros b Hb'. destruct (nbdict_ok slv N ninv Hslv _ (G3 b Hb')) as (j0 & J1 & J2 & J3). unfold rowof. rewrite J1. auto. }
    rewrite (mapM_total _ (fun cb => (repeat 0 (S n), (rowof (snd cb), nth (S n * length lo + fst cb) F 0)))) in HC.
    2:{ intros [c b] Hin. apply in_combine_r in Hin. cbn [fst snd].
        assert (G : get_at hi (Z.of_nat b) = OK (nth b hi [])).
        { apply get_at_ok. split; [lia|]. rewrite Nat2Z.id. apply nth_error_nth'. auto. }
        rewrite G. cbn [bind]. destruct (HRo b Hin) as (R1 & _). rewrite R1. reflexivity. }
    cbn [bind fst snd app] in HC.
    assert (L0 : length lo = 1%nat).
    { unfold lo. pose proof (enum_length (S n) (Z.to_nat 0) ltac:(lia)) as Q. cbn [Z.to_nat Nat.add] in Q.
      replace (S n - 1)%nat with n in Q by lia. rewrite choose_diag in Q. change (Z.to_nat 0) with 0%nat. lia. }
    destruct (spread_gen q n (length lo) 0 (length lo) (combine (seq 0 (length lo)) lo) (repeat 0 (S n)) F []) as [Q1 Q2]; auto.
    { split; [apply vsorted_nil|]. intros ? ? []. }
    { rewrite zsum_repeat0. lia. }
    { intros j0 m Hin. apply in_combine_l, in_seq in Hin. lia. }
    set (H' := nd_spread q n (length lo) (length lo) (combine (seq 0 (length lo)) lo) (repeat 0 (S n)) F []) in *.
    destruct Q1 as [Q3 Q4].
    rewrite (mapM_total _ (fun kh => (fst kh, (0%nat, nth 0 (snd kh) 0)))) in HC.
    2:{ intros [key h] Hin. destruct (Q4 key h Hin) as (X & _). rewrite L0 in X. cbn [fst snd]. destruct h; [discriminate|]. reflexivity. }
    cbn [bind] in HC. injection HC as HC. change (0 :: repeat 0 n) with (repeat 0 (S n)) in HC.
    (* the sums vanish for every u and every choice of weights *)
    assert (HT : forall uu w, length uu = S n -> let mu := mono uu in cong q (mu (repeat 0 (S n)) * sumf (fun c => w (rowof (nth c B O)) * nth (S n + c) F 0) (seq 0 (length B)) +
        w 0%nat * sumf (fun i => mu (upd (repeat 0 (S n)) i 1) * nth i F 0) (seq 0 (S n))) 0).
    { intros uu w Luu mu. specialize (HV mu (fun row col => if Nat.eqb col 0 then w row else 0)).
      unfold mu in HV at 1. rewrite (Hnil uu _ Luu) in HV.
      rewrite (sumf_seq_single _ 0 dp 0) in HV; [|lia|].
      2:{ intros k _ Hk. apply sumf_zero. intros t _. apply Nat.eqb_neq in Hk. rewrite Hk. ring. }
      rewrite B0 in HV. cbn [Nat.eqb] in HV. rewrite <- HC in HV. rewrite sumf_app, !sumf_map in HV. cbn [fst snd] in HV.
      rewrite (sumf_combine_seq _ B O) in HV. cbn [fst snd] in HV.
      rewrite L0 in *. rewrite Nat.mul_1_r in HV.
      specialize (Q2 mu (fun _ => w 0%nat)). unfold hval in Q2. cbn [seq] in Q2. rewrite sumf_nil in Q2.
      eapply cong_trans; [|symmetry; exact HV].
      apply cong_add.
      - apply cong_of_eq. rewrite <- sumf_scal. apply sumf_ext. intros c _. reflexivity.
      - symmetry. transitivity (sumf (fun kh : vec * list Z => mu (fst kh) * sumf (fun c => w 0%nat * nth c (snd kh) 0) [0%nat]) H').
        { apply cong_of_eq. apply sumf_ext. intros [key h] _. cbn [fst snd]. rewrite sumf_cons, sumf_nil. ring. }
        rewrite Q2. rewrite Z.add_0_l, <- sumf_scal. apply cong_of_eq. rewrite combine_length, L0. cbn [length Nat.min].
        change (0%nat :: seq 1 n) with (seq 0 (S n)). apply sumf_ext. intros i _.
        cbn [seq]. rewrite sumf_cons, sumf_nil. cbv zeta.
        rewrite nth_repeat. destruct lo as [|lo0 [|]] eqn:El; try discriminate L0. cbn [length seq combine nth fst snd].
        assert (X : lo0 = repeat 0 (S n)).
        { assert (In lo0 lo) by (rewrite El; now left). unfold lo in H.
          apply enum_tuple in H; [|lia]. now apply tuple_zero in H. }
        rewrite X, nth_repeat, Nat.mul_1_r, Nat.add_0_r. change (0 + 1) with 1. ring. }
    (* hence F vanishes *)
    assert (MZ : forall uu, length uu = S n -> mono uu (repeat 0 (S n)) = 1).
    { intros uu L. rewrite <- L. clear. induction uu as [|x uu IH]; [reflexivity|]. cbn [length repeat mono]. rewrite IH. reflexivity. }
    assert (ME : forall uu i, length uu = S n -> (i < S n)%nat -> mono uu (upd (repeat 0 (S n)) i 1) = nth i uu 0).
    { intros uu i L Hi. pose proof (mono_incr uu (repeat 0 (S n)) i ltac:(rewrite repeat_length; auto) NZ ltac:(lia)) as X.
      rewrite nth_repeat in X. change (0 + 1) with 1 in X. rewrite X, (MZ uu L). ring. }
    assert (FB : forall c, (c < length B)%nat -> cong q (nth (S n + c) F 0) 0).
    { intros c Hc. specialize (HT (repeat 0 (S n)) (fun r => if Nat.eqb r (rowof (nth c B O)) then 1 else 0) LZ).
      cbv zeta in HT. rewrite (MZ _ LZ) in HT.
      rewrite (sumf_zero _ (seq 0 (S n))) in HT.
      2:{ intros i Hi. apply in_seq in Hi. rewrite ME by (auto; lia). rewrite nth_repeat. ring. }
      rewrite (sumf_seq_single _ 0 (length B) c) in HT; [|lia|].
      - rewrite Nat.eqb_refl in HT. eapply cong_trans; [|exact HT]. apply cong_of_eq. ring.
      - intros k Hk Hkc. destruct (Nat.eqb_spec (rowof (nth k B O)) (rowof (nth c B O))) as [X|]; [|ring].
        exfalso. apply Hkc.
        assert (I1 : In (nth k B O) B) by (apply nth_In; lia). assert (I2 : In (nth c B O) B) by (apply nth_In; lia).
        destruct (HRo _ I1) as (_ & _ & X1). destruct (HRo _ I2) as (_ & _ & X2). rewrite X in X1.
        assert (Y : nth k B O = nth c B O).
        { apply (enum_nth_inj n (Z.to_nat d)); [apply S2; auto|apply S2; auto|]. fold hi. congruence. }
        apply (proj1 (NoDup_nth B O)); [now apply strict_inc_NoDup|lia|lia|exact Y]. }
    assert (FA : forall i, (i < S n)%nat -> cong q (nth i F 0) 0).
    { intros i Hi. assert (LU : length (upd (repeat 0 (S n)) i 1) = S n) by (rewrite upd_length; exact LZ).
      specialize (HT (upd (repeat 0 (S n)) i 1) (fun _ => 1) LU).
      cbv zeta in HT. rewrite (MZ _ LU) in HT.
      rewrite (cong_sumf q (fun c => 1 * nth (S n + c) F 0) (fun _ => 0)) in HT.
      2:{ intros c Hc. apply in_seq in Hc. rewrite FB by lia. reflexivity. }
      rewrite (sumf_zero (fun _ => 0)) in HT by auto.
      rewrite (sumf_seq_single _ 0 (S n) i) in HT; [|lia|].
      - rewrite ME in HT by (auto; lia). rewrite nth_upd_eq in HT by lia.
        eapply cong_trans; [|exact HT]. apply cong_of_eq. ring.
      - intros k Hk Hki. rewrite ME by (auto; lia). rewrite nth_upd_neq by auto. rewrite nth_repeat. ring. }
    specialize (S3 j j P2 P2). rewrite Nat.eqb_refl in S3.
    assert (FU : forall k, (k < nc + length B)%nat -> cong q (mget U k j) 0).
    { intros k Hk. transitivity (nth k F 0).
      - symmetry. rewrite F3 by auto. rewrite cong_mod, unit_at_length.
        rewrite (sumf_seq_single _ 0 (length hi) j); [|lia|].
        + rewrite (unit_at_nth D) by auto. rewrite Nat.eqb_refl. apply cong_of_eq. ring.
        + intros k' _ Hk'. rewrite (unit_at_nth D) by auto. apply Nat.neq_sym, Nat.eqb_neq in Hk'. rewrite Hk'. ring.
      - rewrite Enc, L0, Nat.mul_1_r in Hk. destruct (Nat.lt_ge_cases k (S n)) as [X|X]; [now apply FA|].
        replace k with (S n + (k - S n))%nat by lia. apply FB. lia. }
    assert (C01 : cong q 0 1).
    { rewrite <- S3.
      rewrite (cong_sumf q _ (fun k => 0) (seq 0 nc)).
      2:{ intros k Hk. apply in_seq in Hk. rewrite (FU k) by lia. apply cong_of_eq. ring. }
      rewrite (cong_sumf q (fun k => if Nat.eqb (nth k B O) j then mget U (nc + k) j else 0) (fun k => 0) (seq 0 (length B))).
      2:{ intros k Hk. apply in_seq in Hk. destruct (Nat.eqb _ _); [|reflexivity]. apply FU. lia. }
      rewrite !sumf_zero by auto. reflexivity. }
    destruct C01 as [x Hx]. assert (q * -x = 1) by lia.
    assert (q = 1 \/ q = -1) by (apply Z.eq_mul_1 with (-x); lia). lia.
  Qed.

  (** the map is never empty, as the code of the ZZ variant assumes *)
  Lemma crm_nonempty : 2 <= q -> compute_reduction_matrix_ND slv N v <> OK [].
  Proof. intros Hq E. apply (crm_nonzero Hq [] E). intros. unfold rval. rewrite sumf_nil. reflexivity. Qed.

  Lemma nd_pre_ok u : length u = S n -> (d | zsum u) -> nd_pre D u v = OK tt.
  Proof.
    intros Lu Du. pose proof (nd_nd slv N ninv) as ND. destruct Hv as (V1 & V2 & V3). unfold nd_pre.
    rewrite !sumf_nth_zsum by auto. rewrite V3. unfold check. rewrite Z.eqb_refl. cbn [bind].
    replace (Z.rem (zsum u) d) with 0; [reflexivity|]. symmetry. apply Z.rem_divide; [lia|auto].
  Qed.

  (** the entries of the sum of the matrices *)
  Definition Rent (u : vec) (R : vmap mat) (i j : nat) : Z := sumf (fun kM => mono u (fst kM) * mget (snd kM) i j) R.

  Lemma Rent_rval u R w : rval dp (mono u) w R = sumf (fun i => sumf (fun j => w i j * Rent u R i j) (seq 0 dp)) (seq 0 dp).
  Proof.
    unfold rval, Rent, wsum.
    transitivity (sumf (fun kM : vec * mat => sumf (fun i => sumf (fun j => w i j * (mono u (fst kM) * mget (snd kM) i j)) (seq 0 dp)) (seq 0 dp)) R).
    { apply sumf_ext. intros kM _. rewrite <- sumf_scal. apply sumf_ext. intros. rewrite <- sumf_scal. apply sumf_ext. intros; ring. }
    rewrite sumf_swap. apply sumf_ext. intros i _. rewrite sumf_swap. apply sumf_ext. intros j _. now rewrite sumf_scal.
  Qed.

  Lemma ev_of_rent R u Phi G G' :
    (forall i, (i < dp)%nat -> cong q (nth i G' 0) (sumf (fun j => Rent u R i j * nth j G 0) (seq 0 dp))) ->
    cong q (ev_ND Phi u bas G') (rval dp (mono u) (gw u Phi G) R).
  Proof.
    intros H. rewrite Rent_rval. unfold ev_ND. apply cong_sumf. intros i Hi. apply in_seq in Hi.
    rewrite H by lia. rewrite eplus_vadd. apply cong_of_eq. rewrite <- sumf_scal_r. apply sumf_ext. intros j _. unfold gw. ring.
  Qed.

  Section U.
    Variable u : vec.
    Hypothesis Lu : length u = S n.
    Hypothesis Du : (d | zsum u).

    Lemma get_reduction_matrix_ND_ok r : (q | r) -> exists R A,
      compute_reduction_matrix_ND slv N v = OK R /\ get_reduction_matrix_ND slv N r u v = OK A /\ shape A dp dp /\
      forall i j, (i < dp)%nat -> (j < dp)%nat -> cong q (mget A i j) (Rent u R i j).
    Proof.
      intros Hr. destruct crm_ok as (R & ER & [R1 R2] & _). unfold get_reduction_matrix_ND. cbv zeta.
      rewrite nd_pre_ok by auto. cbn [bind]. rewrite ER. cbn [bind].
      assert (G : forall L A0, shape A0 dp dp -> (forall key M, In (key, M) L -> shape M dp dp /\ length key = S n) ->
        exists A, foldM (fun A kM => mat_add r A (mat_scal r (mono_ev n u (fst kM) mod q) (snd kM))) L A0 = OK A /\ shape A dp dp /\
          forall i j, (i < dp)%nat -> (j < dp)%nat -> cong q (mget A i j) (mget A0 i j + Rent u L i j)).
      { induction L as [|[key M] L IH]; intros A0 S0 HL; cbn [foldM].
        - exists A0. split; auto. split; auto. intros. unfold Rent. rewrite sumf_nil. apply cong_of_eq. ring.
        - destruct (HL key M) as [SM Lk]; [now left|]. cbn [fst snd].
          destruct (mat_add_ok r A0 (mat_scal r (mono_ev n u key mod q) M) dp dp S0 (mat_scal_shape _ _ _ _ _ SM)) as (C & C1 & C2 & C3).
          rewrite C1. cbn [bind]. destruct (IH C C2) as (A & A1 & A2 & A3). { intros; apply HL; now right. }
          exists A. split; auto. split; auto. intros i j Hi Hj. rewrite (A3 i j Hi Hj). rewrite C3 by auto.
          unfold Rent. rewrite sumf_cons. cbn [fst snd]. rewrite (mat_scal_get _ _ _ dp dp) by auto.
          rewrite mono_ev_ok by lia. rewrite !(cong_mod_dvd q r) by auto. rewrite cong_mod. apply cong_of_eq. ring. }
      destruct (G R (mzero dp dp)) as (A & A1 & A2 & A3); [apply shape_mzero| |].
      { intros key M Hin. split; [apply (R2 _ _ Hin)|eapply vsorted_len; eauto]. }
      exists R, A. do 3 (split; [first [assumption | reflexivity]|]). intros i j Hi Hj. rewrite A3, mget_mzero by auto. reflexivity.
    Qed.

    Lemma reduce_vector_ND_ok G : length G = dp -> exists R G',
      compute_reduction_matrix_ND slv N v = OK R /\ reduce_vector_ND slv N u v G = OK G' /\ length G' = dp /\
      forall i, (i < dp)%nat -> cong q (nth i G' 0) (sumf (fun j => Rent u R i j * nth j G 0) (seq 0 dp)).
    Proof.
      intros LG. destruct crm_ok as (R & ER & [R1 R2] & _). unfold reduce_vector_ND. cbv zeta.
      rewrite nd_pre_ok by auto. cbn [bind]. rewrite ER. cbn [bind].
      assert (F : forall L A0, length A0 = dp -> (forall key M, In (key, M) L -> shape M dp dp /\ length key = S n) ->
        exists A, foldM (fun A kM => t <- mat_vec q (snd kM) (lvec_scal q (mono_ev n u (fst kM) mod q) G) ;; lvec_add q A t) L A0 = OK A /\ length A = dp /\
          forall i, (i < dp)%nat -> cong q (nth i A 0) (nth i A0 0 + sumf (fun j => Rent u L i j * nth j G 0) (seq 0 dp))).
      { induction L as [|[key M] L IH]; intros A0 S0 HL; cbn [foldM].
        - exists A0. split; auto. split; auto. intros. rewrite sumf_zero; [apply cong_of_eq; ring|].
          intros. unfold Rent. rewrite sumf_nil. ring.
        - destruct (HL key M) as [SM Lk]; [now left|]. cbn [fst snd].
          destruct (mat_vec_ok q M (lvec_scal q (mono_ev n u key mod q) G) dp) as (t & T1 & T2 & T3).
          { rewrite lvec_scal_length, LG. auto. }
          rewrite T1. cbn [bind]. destruct (lvec_add_ok q A0 t) as (C & C1 & C2 & C3); [congruence|].
          rewrite C1. cbn [bind]. destruct (IH C) as (A & A1 & A2 & A3); [congruence| |]. { intros; apply HL; now right. }
          exists A. split; auto. split; auto. intros i Hi. rewrite (A3 i Hi). rewrite C3 by lia. rewrite cong_mod.
          rewrite T3 by auto. rewrite cong_mod, lvec_scal_length, LG.
          rewrite <- Z.add_assoc. apply cong_add; [reflexivity|]. rewrite <- sumf_plus. apply cong_sumf. intros j Hj. apply in_seq in Hj.
          unfold lvec_scal. rewrite (nth_map_lt _ _ _ _ 0) by lia. rewrite cong_mod, cong_mod, mono_ev_ok by lia.
          unfold Rent. rewrite sumf_cons. cbn [fst snd]. apply cong_of_eq. ring. }
      destruct (F R (repeat 0 dp)) as (A & A1 & A2 & A3); [apply repeat_length| |].
      { intros key M Hin. split; [apply (R2 _ _ Hin)|eapply vsorted_len; eauto]. }
      exists R, A. do 3 (split; [first [assumption | reflexivity]|]). intros i Hi. rewrite A3 by auto. rewrite nth_repeat. apply cong_of_eq. ring.
    Qed.

    Lemma reduce_vector_ND_ZZ_ok G : 2 <= q -> length G = dp -> exists R G',
      compute_reduction_matrix_ND slv N v = OK R /\ reduce_vector_ND_ZZ slv N u v G = OK G' /\ length G' = dp /\
      forall i, (i < dp)%nat -> nth i G' 0 = sumf (fun j => Rent u R i j * nth j G 0) (seq 0 dp).
    Proof.
      intros Hq LG. destruct crm_ok as (R & ER & [R1 R2] & _). unfold reduce_vector_ND_ZZ. cbv zeta.
      rewrite nd_pre_ok by auto. cbn [bind]. rewrite ER. cbn [bind].
      destruct R as [|[key0 M0] R]; [exfalso; now apply (crm_nonempty Hq)|].
      assert (T0 : forall key M, In (key, M) ((key0, M0) :: R) -> exists t, mat_vec 0 M (lvec_scal 0 (mono_ev n u key) G) = OK t /\ length t = dp /\
         forall i, (i < dp)%nat -> nth i t 0 = sumf (fun j => mono u key * mget M i j * nth j G 0) (seq 0 dp)).
      { intros key M Hin. destruct (R2 _ _ Hin) as (SM & _). assert (Lk : length key = S n) by (eapply vsorted_len; eauto).
        destruct (mat_vec_ok 0 M (lvec_scal 0 (mono_ev n u key) G) dp) as (t & T1 & T2 & T3).
        { rewrite lvec_scal_length, LG. auto. }
        exists t. split; auto. split; auto. intros i Hi. rewrite T3 by auto. rewrite Zmod_0_r, lvec_scal_length, LG.
        apply sumf_ext. intros j Hj. apply in_seq in Hj. unfold lvec_scal. rewrite (nth_map_lt _ _ _ _ 0) by lia.
        rewrite Zmod_0_r, mono_ev_ok by lia. ring. }
      destruct (T0 key0 M0) as (t0 & A1 & A2 & A3); [now left|]. cbn [fst snd]. rewrite A1. cbn [bind].
      assert (F : forall L A0, length A0 = dp -> (forall key M, In (key, M) L -> In (key, M) ((key0, M0) :: R)) ->
        exists A, foldM (fun A kM => t <- mat_vec 0 (snd kM) (lvec_scal 0 (mono_ev n u (fst kM)) G) ;; lvec_add 0 A t) L A0 = OK A /\ length A = dp /\
          forall i, (i < dp)%nat -> nth i A 0 = nth i A0 0 + sumf (fun j => Rent u L i j * nth j G 0) (seq 0 dp)).
      { induction L as [|[key M] L IH]; intros A0 S0 HL; cbn [foldM].
        - exists A0. split; auto. split; auto. intros. rewrite sumf_zero; [ring|].
          intros. unfold Rent. rewrite sumf_nil. ring.
        - destruct (T0 key M) as (t & T1 & T2 & T3); [apply HL; now left|]. cbn [fst snd]. rewrite T1. cbn [bind].
          destruct (lvec_add_ok 0 A0 t) as (C & C1 & C2 & C3); [congruence|].
          rewrite C1. cbn [bind]. destruct (IH C) as (A & B1 & B2 & B3); [congruence| |]. { intros; apply HL; now right. }
          exists A. split; auto. split; auto. intros i Hi. rewrite (B3 i Hi). rewrite C3, Zmod_0_r by lia.
          rewrite T3 by auto. rewrite <- Z.add_assoc. f_equal. rewrite <- sumf_plus. apply sumf_ext. intros j _.
          unfold Rent. rewrite sumf_cons. cbn [fst snd]. ring. }
      destruct (F R t0 A2) as (A & B1 & B2 & B3). { intros; now right. }
      eexists _, A. split; [reflexivity|]. do 2 (split; [assumption|]). intros i Hi. rewrite B3, A3 by auto.
      rewrite <- sumf_plus. apply sumf_ext. intros j _. unfold Rent. rewrite sumf_cons. cbn [fst snd]. ring.
    Qed.

    (** the class is preserved *)
    Lemma reduce_vector_ND_class G : length G = dp ->
      exists G', reduce_vector_ND slv N u v G = OK G' /\ length G' = dp /\
      forall Phi, LGD q n d (r_f D) u Phi -> cong q (ev_ND Phi u bas G') (ev_ND Phi (eplus u v) bas G).
    Proof.
      intros LG. destruct (reduce_vector_ND_ok G LG) as (R & G' & ER & E1 & E2 & E3).
      exists G'. do 2 (split; [assumption|]). intros Phi HL.
      destruct crm_ok as (R' & ER' & _ & HC). rewrite ER in ER'. injection ER' as <-.
      rewrite eplus_vadd, <- (HC u Phi G Lu Du HL). now apply ev_of_rent.
    Qed.

    Lemma reduce_vector_ND_ZZ_class G : 2 <= q -> length G = dp ->
      exists G', reduce_vector_ND_ZZ slv N u v G = OK G' /\ length G' = dp /\
      forall Phi, LGD q n d (r_f D) u Phi -> cong q (ev_ND Phi u bas G') (ev_ND Phi (eplus u v) bas G).
    Proof.
      intros Hq LG. destruct (reduce_vector_ND_ZZ_ok G Hq LG) as (R & G' & ER & E1 & E2 & E3).
      exists G'. do 2 (split; [assumption|]). intros Phi HL.
      destruct crm_ok as (R' & ER' & _ & HC). rewrite ER in ER'. injection ER' as <-.
      rewrite eplus_vadd, <- (HC u Phi G Lu Du HL). apply ev_of_rent. intros i Hi. now rewrite E3.
    Qed.

    Lemma get_reduction_matrix_ND_class r : (q | r) -> exists A, get_reduction_matrix_ND slv N r u v = OK A /\ shape A dp dp /\
      forall G, length G = dp -> exists G', mat_vec r A G = OK G' /\ length G' = dp /\
      forall Phi, LGD q n d (r_f D) u Phi -> cong q (ev_ND Phi u bas G') (ev_ND Phi (eplus u v) bas G).
    Proof.
      intros Hr. destruct (get_reduction_matrix_ND_ok r Hr) as (R & A & ER & E1 & E2 & E3).
      exists A. do 2 (split; [assumption|]). intros G LG.
      destruct (mat_vec_ok r A G dp) as (G' & W1 & W2 & W3); [now rewrite LG|].
      exists G'. do 2 (split; [assumption|]). intros Phi HL.
      destruct crm_ok as (R' & ER' & _ & HC). rewrite ER in ER'. injection ER' as <-.
      rewrite eplus_vadd, <- (HC u Phi G Lu Du HL). apply ev_of_rent. intros i Hi. rewrite W3 by auto.
      rewrite (cong_mod_dvd q r) by auto. rewrite LG. apply cong_sumf. intros j Hj. apply in_seq in Hj. rewrite E3 by lia. reflexivity.
    Qed.
  End U.
End NDS.

(** a functional on forms with poles along f gives one on logarithmic forms *)
Lemma GD_LGD q n d f u phi : 1 <= d -> (forall a c, In (a, c) f -> is_tuple (S n) d a) ->
  length u = S n -> positive u = true -> GD q n d f phi -> LGD q n d f u (log_of d phi).
Proof.
  intros Hd Hf Lu Pu HG i w Hi Lw Dw Hw.
  assert (Pw : forall k, (k <= n)%nat -> 0 < nth k w 0).
  { intros k Hk. pose proof (proj1 (positive_iff _) Pu k). specialize (Hw k Hk). rewrite Lu in H. specialize (H ltac:(lia)). lia. }
  destruct Dw as [m Hm].
  set (h := upd (epred w) i (nth i w 0)).
  assert (Lh : length h = S n) by (unfold h; rewrite upd_length, epred_length; auto).
  assert (Nh : forall k, (k <= n)%nat -> nth k h 0 = nth k w 0 - (if Nat.eqb i k then 0 else 1)).
  { intros k Hk. unfold h. rewrite nth_upd, epred_length, Lw. destruct (Nat.eqb_spec i k) as [->|].
    - destruct (Nat.ltb_spec k (S n)); lia.
    - rewrite epred_nth; lia. }
  assert (Th : is_tuple (S n) (d * m - Z.of_nat n) h).
  { split; auto. split.
    - apply nonneg_iff. intros k Hk. rewrite Nh by lia. specialize (Pw k ltac:(lia)). destruct (Nat.eqb i k); lia.
    - unfold h. rewrite zsum_upd by (rewrite epred_length; lia). rewrite epred_sum, epred_nth by lia. rewrite Lw. lia. }
  specialize (HG m i h Hi Th). rewrite Nh, Nat.eqb_refl, Z.sub_0_r in HG by auto.
  assert (Pos : forall x, length x = S n -> (forall k, (k <= n)%nat -> 0 < nth k x 0) -> positive x = true).
  { intros x Lx Hx. apply positive_iff. intros k Hk. apply Hx. lia. }
  unfold log_of, phi_div. rewrite (Pos w Lw Pw).
  replace (zsum w / d) with m by (rewrite Hm, Z.div_mul; lia).
  assert (E : eminus h i = epred w).
  { apply vec_ext; [now rewrite eminus_length, epred_length, Lh|]. intros k Hk. rewrite eminus_length, Lh in Hk.
    rewrite eminus_nth, Nh, epred_nth by lia. destruct (Nat.eqb i k); lia. }
  rewrite E in HG. rewrite <- HG. apply cong_of_eq. apply sumf_ext. intros [a c] Hin. cbn [fst snd].
  destruct (Hf a c Hin) as (La & Na & Sa). rewrite !eplus_vadd.
  rewrite (Pos (vadd w a)).
  - rewrite zsum_vadd by congruence. rewrite Hm, Sa. replace ((m * d + d) / d) with (m + 1) by (replace (m * d + d) with ((m + 1) * d) by ring; rewrite Z.div_mul; lia).
    f_equal. f_equal. apply vec_ext.
    + rewrite epred_length, eminus_length, !(vadd_length _ _ (S n)); auto.
    + intros k Hk. rewrite epred_length, (vadd_length _ _ (S n)) in Hk by auto.
      rewrite epred_nth by (rewrite (vadd_length _ _ (S n)); auto).
      rewrite eminus_nth by (rewrite (vadd_length _ _ (S n)); auto; lia).
      rewrite (vadd_nth w a) by congruence. rewrite (vadd_nth h a) by congruence. rewrite Nh by lia. destruct (Nat.eqb i k); lia.
  - now apply vadd_length.
  - intros k Hk. rewrite vadd_nth by congruence. specialize (Pw k Hk). pose proof (nonneg_nth a k Na). lia.
Qed.
