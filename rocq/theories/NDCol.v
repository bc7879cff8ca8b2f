(** Proofs: the cokernel basis and one column of the non-degenerate reduction
    matrices. *)
From Coq Require Import ZArith List Lia Bool.
From Verif Require Import Base VecModel VecSpec VecProofs ToolsModel ToolsSpec ToolsProofs PolyProofs
  MatModel MatProofs DRModel DRSpec DRProofs DRRed DRFinal DRPath NDModel NDSpec NDMat NDRed.
Import ListNotations.
Open Scope Z_scope.

Lemma hilbert_pow_0 k a : (1 <= length a)%nat -> nth 0 a 0 = 1 ->
  (1 <= length (hilbert_pow k a))%nat /\ nth 0 (hilbert_pow k a) 0 = 1.
Proof.
  intros H1 H2. induction k as [|k [I1 I2]]; [cbn; auto|]. cbn [hilbert_pow]. unfold conv_mul.
  rewrite map_length, seq_length. split; [lia|].
  rewrite (nth_map_lt _ _ _ _ O) by (rewrite seq_length; lia). rewrite seq_nth by lia.
  unfold conv_coeff. cbn [seq plus]. rewrite sumf_cons, sumf_nil, I2, Nat.sub_0_r, H2. reflexivity.
Qed.

Lemma tuple_zero N t : is_tuple N 0 t -> t = repeat 0 N.
Proof.
  intros (H1 & H2 & H3). subst N. induction H2 as [|x t Hx H2 IH]; auto.
  cbn [zsum] in H3. pose proof (nonneg_zsum t H2). cbn [length repeat]. f_equal; [lia|]. apply IH. lia.
Qed.

Lemma zsum_repeat0 k : zsum (repeat 0 k) = 0.
Proof. induction k; simpl; lia. Qed.

Section NDB.
  Variables (slv : solver) (N : dND).
  Notation D := (nd_dr N).
  Hypothesis ninv : nd_inv slv N.
  Hypothesis Hslv : solver_ok (r_q D) slv.
  Notation n := (r_n D).
  Notation d := (r_d D).
  Notation q := (r_q D).
  Notation zn := (Z.of_nat (r_n D)).
  Notation E l := (enum (S n) (Z.to_nat l)).
  Notation bas := (nd_basis N).

  Lemma nd_nd : zn < d.
  Proof. exact (inv_nd _ _ (ni_dr _ _ ninv)). Qed.
  Lemma nbase : dr_base D.
  Proof. eapply inv_base, ni_dr, ninv. Qed.

  Lemma matrix_ND_any l : 0 <= l <= (zn + 1) * d -> exists nc T, matrix_ND D l = OK (nc, T) /\ shape T (length (E l)) nc /\
     (l < d -> nc = 0%nat).
  Proof.
    intros Hl. destruct (Z_lt_ge_dec l d) as [H|H].
    - unfold matrix_ND. rewrite (base_tl _ nbase) by lia. cbn [bind].
      replace (l <? d) with true by (symmetry; apply Z.ltb_lt; lia).
      eexists _, _. split; [reflexivity|]. split; [apply shape_mzero|auto].
    - destruct (matrix_ND_weighted D nbase l) as (T & E1 & E2 & _); [lia|]. do 2 eexists. split; [exact E1|]. split; [exact E2|]. lia.
  Qed.

  Lemma nlevel_ok i b : 0 <= i <= zn -> init_ND_level slv D (hilbert_ND n d) i = OK b ->
    exists nc T B U, matrix_ND D (i * d) = OK (nc, T) /\ shape T (length (E (i * d))) nc /\
      get_solve_ND slv D (i * d) = OK (B, U) /\
      solves q (length (E (i * d))) nc (mget T) B (mget U) /\ shape U (nc + length B) (length (E (i * d))) /\
      b = map (fun k => nth k (E (i * d)) []) B /\ get_at (hilbert_ND n d) (i * d) = OK (zlen B).
  Proof.
    intros Hi H. pose proof nd_nd. unfold init_ND_level in H.
    apply bind_ok in H. destruct H as ([B U] & H1 & H). cbn [fst snd] in H.
    apply bind_ok in H. destruct H as (h & Hh & H).
    apply bind_ok in H. destruct H as ([] & Hc & H).
    unfold check in Hc. destruct (Z.eqb_spec h (zlen B)) as [->|]; [|discriminate].
    rewrite (base_tl _ nbase) in H by nia. cbn [bind] in H.
    destruct (matrix_ND_any (i * d) ltac:(nia)) as (nc & T & M1 & M2 & _).
    assert (H1' := H1). unfold get_solve_ND in H1'. rewrite M1 in H1'. cbn [bind fst snd] in H1'.
    destruct (Hslv _ _ _ _ _ M2 H1') as [S1 S2].
    exists nc, T, B, U. do 5 (split; [assumption|]). split; [|assumption].
    destruct S1 as (S1a & S1b & _).
    rewrite (mapM_total _ (fun k => nth k (E (i * d)) [])) in H.
    - injection H as <-. reflexivity.
    - intros k Hk. apply get_at_ok. split; [lia|]. rewrite Nat2Z.id. apply nth_error_nth'. auto.
  Qed.

  Lemma nbasis_levels : exists bs,
    Forall2 (fun i b => init_ND_level slv D (hilbert_ND n d) i = OK b) (zseq 0 (zn + 1)) bs /\ bas = concat bs.
  Proof. destruct (ni_basis _ _ ninv) as (bs & H1 & H2). exists bs. split; auto. now apply mapM_ok. Qed.

  Lemma nlevel_elem i B U nc T b : 0 <= i <= zn ->
    solves q (length (E (i * d))) nc T B U ->
    In b (map (fun k => nth k (E (i * d)) []) B) -> is_tuple (S n) (i * d) b.
  Proof.
    intros Hi (_ & S2 & _) Hb. apply in_map_iff in Hb. destruct Hb as (k & <- & Hk).
    pose proof nd_nd. apply enum_tuple; [nia|]. apply nth_In. auto.
  Qed.

  Lemma nbasis_elem b : In b bas -> exists i, 0 <= i <= zn /\ is_tuple (S n) (i * d) b.
  Proof.
    destruct nbasis_levels as (bs & F & ->). intros Hb. apply in_concat in Hb. destruct Hb as (l & Hl & Hb).
    assert (X : exists i, In i (zseq 0 (zn + 1)) /\ init_ND_level slv D (hilbert_ND n d) i = OK l).
    { clear Hb. induction F as [|i b0 is bs H F IH]; [destruct Hl|]. destruct Hl as [->|Hl].
      - exists i. split; auto. now left.
      - destruct (IH Hl) as (i' & I1 & I2). exists i'. split; auto. now right. }
    destruct X as (i & Hi & HX). apply zseq_In in Hi.
    destruct (nlevel_ok i l ltac:(lia) HX) as (nc & T & B & U & _ & _ & _ & S1 & _ & -> & _).
    exists i. split; [lia|]. eapply nlevel_elem; eauto. lia.
  Qed.

  Lemma nbasis_len b : In b bas -> length b = S n.
  Proof. intros H. apply nbasis_elem in H. destruct H as (i & _ & (H & _)). auto. Qed.

  Lemma nbasis_NoDup : NoDup bas.
  Proof.
    pose proof nd_nd. destruct nbasis_levels as (bs & F & ->).
    apply (NoDup_concat_key (fun b => zsum b / d) (zseq 0 (zn + 1))); [|apply zseq_NoDup].
    eapply Forall2_impl; [|exact F]. cbn beta. intros i b Hi HL. apply zseq_In in Hi.
    destruct (nlevel_ok i b ltac:(lia) HL) as (nc & T & B & U & _ & _ & _ & S1 & _ & -> & _).
    split.
    - apply NoDup_map_on.
      + eapply strict_inc_NoDup. apply S1.
      + intros x y Hx Hy. apply enum_nth_inj; apply S1; auto.
    - intros x Hx. destruct (nlevel_elem i B _ nc _ x ltac:(lia) S1 Hx) as (_ & _ & ->). apply Z.div_mul. lia.
  Qed.

  Lemma nbdict_ok b : In b bas -> exists j, dget (nd_bdict N) b = OK j /\ (j < length bas)%nat /\ nth j bas [] = b.
  Proof.
    intros Hb. rewrite (ni_bdict _ _ ninv).
    destruct (tuple_index_spec (S n) bas nbasis_len nbasis_NoDup) as [_ S2].
    destruct (In_nth bas b [] Hb) as (j & Hj & Ej).
    exists j. split; auto. unfold dget. specialize (S2 b (nbasis_len b Hb) j).
    rewrite (proj2 S2); auto. rewrite <- Ej. now apply nth_error_nth'.
  Qed.

  Lemma nlevel_data i : 0 <= i <= zn -> exists B U, get_solve_ND slv D (i * d) = OK (B, U) /\
      forall k, In k B -> In (nth k (E (i * d)) []) bas.
  Proof.
    intros Hi. destruct nbasis_levels as (bs & F & Hb).
    destruct (Forall2_nth_error _ _ _ (Z.to_nat i) i F) as (b & Hb1 & Hb2).
    { unfold zseq. rewrite zrange_nth_error by lia. f_equal. lia. }
    destruct (nlevel_ok i b Hi Hb2) as (nc & T & B & U & H1 & H2 & H3 & H4 & H5 & -> & _).
    exists B, U. split; [auto|]. intros k Hk. rewrite Hb. apply in_concat.
    eexists. split; [eapply nth_error_In; exact Hb1|]. apply in_map_iff. eauto.
  Qed.

  (** the first basis element is the constant monomial *)
  Lemma nbasis_0 : nth 0 bas [] = repeat 0 (S n) /\ (0 < length bas)%nat.
  Proof.
    pose proof nd_nd as ND.
    destruct nbasis_levels as (bs & F & Hb).
    rewrite zseq_cons in F by lia. inversion F as [|i b is bs' F1 F2]; subst.
    destruct (nlevel_ok 0 b ltac:(lia) F1) as (nc & T & B & U & _ & _ & _ & S1 & _ & -> & Hh).
    apply get_at_ok in Hh. destruct Hh as [_ Hh]. cbn [Z.mul Z.to_nat] in Hh.
    assert (P : (1 <= length (hilbert_ND n d))%nat /\ nth 0 (hilbert_ND n d) 0 = 1).
    { apply hilbert_pow_0; [rewrite repeat_length; lia|]. destruct (Z.to_nat d) eqn:Ed; [lia|reflexivity]. }
    destruct P as [P1 P2].
    assert (LB : length B = 1%nat).
    { erewrite nth_error_nth in P2 by exact Hh. unfold zlen in P2. lia. }
    destruct B as [|b0 [|]]; try discriminate LB.
    assert (T0 : is_tuple (S n) (0 * d) (nth b0 (E (0 * d)) [])).
    { eapply (nlevel_elem 0); [lia|exact S1|]. cbn. auto. }
    rewrite Hb. cbn [map concat app nth length]. split; [|lia].
    apply tuple_zero. exact T0.
  Qed.

  (** * one level *)
  Notation Hok := (Hok n).

  Definition nup_ok (deg : Z) (u : vec * (nat * Z)) : Prop :=
    length (fst u) = S n /\ nonneg (fst u) /\ zsum (fst u) <= deg /\ (fst (snd u) < length bas)%nat.

  (** value of a list of updates *)
  Definition nups (u : vec) (Phi : vec -> Z) (ups : list (vec * (nat * Z))) : Z :=
    sumf (fun t => mono u (fst t) * snd (snd t) * Phi (vadd u (nth (fst (snd t)) bas []))) ups.

  Definition wl (u : vec) (Phi : vec -> Z) (l : Z) (c : nat) : Z := Phi (vadd u (nth c (E l) [])).

  Lemma lgd_at u Phi w i : LGD q n d (r_f D) u Phi -> length u = S n -> (d | zsum u) -> (i <= n)%nat ->
    length w = S n -> nonneg w -> (d | zsum w) ->
    cong q (sumf (fun t => nth i (fst t) 0 * snd t * Phi (vadd u (eplus w (fst t)))) (r_f D))
           ((nth i u 0 + nth i w 0) * Phi (vadd u w)).
  Proof.
    intros HL Lu Du Hi Lw Nw Dw.
    pose proof (HL i (vadd u w) Hi) as H. rewrite vadd_nth in H by (rewrite ?Lw; lia).
    rewrite <- H.
    - apply cong_of_eq. apply sumf_ext. intros [a c] Hin. cbn [fst snd].
      destruct (base_h _ nbase _ _ Hin) as (La & _). rewrite !eplus_vadd, vadd_assoc by congruence. reflexivity.
    - now apply vadd_length.
    - rewrite zsum_vadd by congruence. now apply Z.divide_add_r.
    - intros k Hk. rewrite vadd_nth by (rewrite ?Lw; lia). pose proof (nonneg_nth w k Nw). lia.
  Qed.

  Section LEVEL.
    Variable k : nat.
    Hypothesis Hk : (k < n)%nat.
    Notation lo := (E (Z.of_nat k * d)).
    Notation hi := (E ((Z.of_nat k + 1) * d)).
    Variables (B : list nat) (U : mat).
    Hypothesis HBU : get_solve_ND slv D ((Z.of_nat k + 1) * d) = OK (B, U).
    Hypothesis HB : forall b, In b B -> In (nth b hi []) bas.

    Lemma klo c : (c < length lo)%nat -> is_tuple (S n) (Z.of_nat k * d) (nth c lo []).
    Proof. intros H. pose proof nd_nd. apply enum_tuple; [nia|]. now apply nth_In. Qed.

    Lemma cells_nth (l : list vec) c : (c < length l)%nat -> nth c (combine (seq 0 (length l)) l) (0%nat, []) = (c, nth c l []).
    Proof.
      intros H. rewrite combine_nth by (now rewrite seq_length). now rewrite seq_nth.
    Qed.

    (** one entry of H *)
    Let step (st : vmap (list Z) * list (vec * (nat * Z))) (kh : vec * list Z) :=
      F <- mat_vec q U (snd kh) ;;
      _ <- check (Nat.leb (S n * length lo + length B) (length F)) EUB ;;
      let Hnew := nd_spread q n (length lo) (length lo) (combine (seq 0 (length lo)) lo) (fst kh) F (fst st) in
      ups <- (if Nat.leb (k + 1) n
              then mapM (fun cb =>
                     mon <- get_at hi (Z.of_nat (snd cb)) ;;
                     row <- dget (nd_bdict N) mon ;;
                     OK (fst kh, (row, nth (S n * length lo + fst cb) F 0)))
                   (combine (seq 0 (length B)) B)
              else OK []) ;;
      OK (Hnew, snd st ++ ups).

    Lemma nstep_ok deg st key h : Hok (length lo) (deg + 1) (fst st) ->
      (forall t, In t (snd st) -> nup_ok deg t) ->
      length key = S n -> nonneg key -> zsum key <= deg -> length h = length hi ->
      exists st', step st (key, h) = OK st' /\ Hok (length lo) (deg + 1) (fst st') /\
        (forall t, In t (snd st') -> nup_ok deg t) /\
        forall u Phi, length u = S n -> (d | zsum u) -> LGD q n d (r_f D) u Phi ->
          cong q (hval (mono u) (wl u Phi (Z.of_nat k * d)) (length lo) (fst st') + nups u Phi (snd st'))
            (hval (mono u) (wl u Phi (Z.of_nat k * d)) (length lo) (fst st) + nups u Phi (snd st) +
             mono u key * sumf (fun c => wl u Phi ((Z.of_nat k + 1) * d) c * nth c h 0) (seq 0 (length hi))).
    Proof.
      intros HH Hups Lk Nk Sk Lh. pose proof nd_nd as ND.
      assert (Hl : d <= (Z.of_nat k + 1) * d <= (zn + 1) * d) by nia.
      destruct (solve_ND_ok slv D nbase Hslv _ Hl B U HBU) as (S1 & S2 & S3 & S4).
      replace ((Z.of_nat k + 1) * d - d) with (Z.of_nat k * d) in S1, S4 by ring.
      unfold step. cbn [fst snd].
      destruct (mat_vec_ok q U h (S n * length lo + length B)) as (F & F1 & F2 & F3); [now rewrite Lh|].
      rewrite F1. cbn [bind]. unfold check at 1. rewrite F2, Nat.leb_refl. cbn [bind]. cbv zeta.
      replace (Nat.leb (k + 1) n) with true by (symmetry; apply Nat.leb_le; lia).
      set (rowof := fun b => match dget (nd_bdict N) (nth b hi []) with OK j => j | Err _ => O end).
      assert (HR : forall b, In b B -> dget (nd_bdict N) (nth b hi []) = OK (rowof b) /\ (rowof b < length bas)%nat /\ nth (rowof b) bas [] = nth b hi []).
      { intros b Hb. destruct (nbdict_ok _ (HB b Hb)) as (j & J1 & J2 & J3). unfold rowof. rewrite J1. auto. }
      rewrite (mapM_total _ (fun cb => (key, (rowof (snd cb), nth (S n * length lo + fst cb) F 0)))).
      2:{ intros [c b] Hin. apply in_combine_r in Hin. cbn [fst snd].
          assert (G : get_at hi (Z.of_nat b) = OK (nth b hi [])).
          { apply get_at_ok. split; [lia|]. rewrite Nat2Z.id. apply nth_error_nth'. auto. }
          rewrite G. cbn [bind]. destruct (HR b Hin) as (R1 & _). rewrite R1. reflexivity. }
      cbn [bind].
      destruct (spread_ok q n (length lo) deg (length lo) (combine (seq 0 (length lo)) lo) key F (fst st)) as [P1 P2]; auto.
      { intros j m Hin. apply in_combine_l, in_seq in Hin. lia. }
      rewrite combine_length, seq_length, Nat.min_id in P2.
      eexists. split; [reflexivity|]. cbn [fst snd]. split; [exact P1|]. split.
      { intros t Hin. apply in_app_iff in Hin. destruct Hin as [Hin|Hin]; auto.
        apply in_map_iff in Hin. destruct Hin as ([c b] & <- & Hin). apply in_combine_r in Hin. cbn [fst snd].
        repeat split; auto. cbn [fst snd]. apply (HR b Hin). }
      intros u Phi Lu Du HL. rewrite (P2 u _ Lu).
      unfold nups at 1. rewrite sumf_app. fold (nups u Phi (snd st)).
      set (H0 := hval (mono u) _ _ (fst st)). set (U0 := nups u Phi (snd st)).
      rewrite sumf_map. rewrite (sumf_combine_seq _ B O). cbn [fst snd].
      cbv zeta.
      assert (Ea : sumf (fun i => sumf (fun c =>
          (nth i u 0 + nth i (snd (nth c (combine (seq 0 (length lo)) lo) (0%nat, []))) 0) * nth (i * length lo + c) F 0 * wl u Phi (Z.of_nat k * d) (fst (nth c (combine (seq 0 (length lo)) lo) (0%nat, [])))) (seq 0 (length lo))) (seq 0 (S n))
        = sumf (fun i => sumf (fun c => nth (i * length lo + c) F 0 * ((nth i u 0 + nth i (nth c lo []) 0) * Phi (vadd u (nth c lo [])))) (seq 0 (length lo))) (seq 0 (S n))).
      { apply sumf_ext. intros i _. apply sumf_ext. intros c Hc. apply in_seq in Hc.
        rewrite cells_nth by lia. cbn [fst snd]. unfold wl. ring. }
      rewrite Ea. clear Ea.
      assert (Eb : cong q (sumf (fun i => sumf (fun c => nth (i * length lo + c) F 0 * ((nth i u 0 + nth i (nth c lo []) 0) * Phi (vadd u (nth c lo [])))) (seq 0 (length lo))) (seq 0 (S n)))
         (sumf (fun i => sumf (fun c => sumf (fun j => mget U (i * length lo + c) j * nth j h 0) (seq 0 (length hi)) *
             sumf (fun t => nth i (fst t) 0 * snd t * Phi (vadd u (eplus (nth c lo []) (fst t)))) (r_f D)) (seq 0 (length lo))) (seq 0 (S n)))).
      { apply cong_sumf. intros i Hi. apply in_seq in Hi. apply cong_sumf. intros c Hc. apply in_seq in Hc.
        destruct (klo c ltac:(lia)) as (K1 & K2 & K3).
        rewrite (lgd_at u Phi (nth c lo []) i HL Lu Du ltac:(lia) K1 K2) by (rewrite K3; apply Z.divide_factor_r).
        rewrite F3 by nia. rewrite cong_mod, Lh. reflexivity. }
      rewrite Eb. clear Eb.
      assert (Ec : cong q (sumf (fun c => mono u key * nth (S n * length lo + c) F 0 * Phi (vadd u (nth (rowof (nth c B O)) bas []))) (seq 0 (length B)))
         (mono u key * sumf (fun c => sumf (fun j => mget U (S n * length lo + c) j * nth j h 0) (seq 0 (length hi)) * Phi (vadd u (nth (nth c B O) hi []))) (seq 0 (length B)))).
      { rewrite <- sumf_scal. apply cong_sumf. intros c Hc. apply in_seq in Hc.
        destruct (HR (nth c B O)) as (_ & _ & R3); [apply nth_In; lia|]. rewrite R3.
        rewrite F3 by lia. rewrite cong_mod, Lh. apply cong_of_eq. ring. }
      rewrite Ec. clear Ec.
      assert (Ed : cong q (sumf (fun c => wl u Phi ((Z.of_nat k + 1) * d) c * nth c h 0) (seq 0 (length hi)))
         (sumf (fun i => sumf (fun c => sumf (fun j => mget U (i * length lo + c) j * nth j h 0) (seq 0 (length hi)) *
             sumf (fun t => nth i (fst t) 0 * snd t * Phi (vadd u (eplus (nth c lo []) (fst t)))) (r_f D)) (seq 0 (length lo))) (seq 0 (S n))
          + sumf (fun c => sumf (fun j => mget U (S n * length lo + c) j * nth j h 0) (seq 0 (length hi)) * Phi (vadd u (nth (nth c B O) hi []))) (seq 0 (length B)))).
      { transitivity (sumf (fun j => nth j h 0 *
           (sumf (fun i => sumf (fun c => mget U (i * length lo + c) j *
            sumf (fun t => nth i (fst t) 0 * snd t * Phi (vadd u (eplus (nth c lo []) (fst t)))) (r_f D))
            (seq 0 (length lo))) (seq 0 (S n)) +
            sumf (fun c => mget U (S n * length lo + c) j * Phi (vadd u (nth (nth c B O) hi []))) (seq 0 (length B)))) (seq 0 (length hi))).
        - apply cong_sumf. intros j Hj. apply in_seq in Hj. unfold wl.
          rewrite (S4 (fun m => Phi (vadd u m)) j) by lia. apply cong_of_eq. ring.
        - apply cong_of_eq.
          transitivity (sumf (fun j => sumf (fun i => sumf (fun c => nth j h 0 * mget U (i * length lo + c) j *
            sumf (fun t => nth i (fst t) 0 * snd t * Phi (vadd u (eplus (nth c lo []) (fst t)))) (r_f D))
            (seq 0 (length lo))) (seq 0 (S n))) (seq 0 (length hi)) +
            sumf (fun j => sumf (fun c => nth j h 0 * mget U (S n * length lo + c) j * Phi (vadd u (nth (nth c B O) hi []))) (seq 0 (length B))) (seq 0 (length hi))).
          { rewrite <- sumf_plus. apply sumf_ext. intros j _. rewrite Z.mul_add_distr_l. f_equal.
            - rewrite <- sumf_scal. apply sumf_ext. intros i _. rewrite <- sumf_scal. apply sumf_ext. intros; ring.
            - rewrite <- sumf_scal. apply sumf_ext. intros; ring. }
          f_equal.
          + rewrite sumf_swap. apply sumf_ext. intros i _. rewrite sumf_swap. apply sumf_ext. intros c _.
            rewrite <- sumf_scal_r. apply sumf_ext. intros; ring.
          + rewrite sumf_swap. apply sumf_ext. intros c _. rewrite <- sumf_scal_r. apply sumf_ext. intros; ring. }
      rewrite Ed. apply cong_of_eq. ring.
    Qed.

    Lemma nd_level_ok deg H : Hok (length hi) deg H ->
      exists H' ups, nd_level N k (B, U) H = OK (H', ups) /\ Hok (length lo) (deg + 1) H' /\
        (forall t, In t ups -> nup_ok deg t) /\
        forall u Phi, length u = S n -> (d | zsum u) -> LGD q n d (r_f D) u Phi ->
          cong q (hval (mono u) (wl u Phi (Z.of_nat k * d)) (length lo) H' + nups u Phi ups)
                 (hval (mono u) (wl u Phi ((Z.of_nat k + 1) * d)) (length hi) H).
    Proof.
      intros [Hs Hv]. pose proof nd_nd as ND. unfold nd_level. cbv zeta.
      rewrite (base_tl _ nbase) by nia. cbn [bind]. rewrite (base_tl _ nbase) by nia. cbn [bind fst snd].
      change (fun (st : vmap (list Z) * list (vec * (nat * Z))) (kh : vec * list Z) => _) with step.
      assert (G : forall L st, (forall key h, In (key, h) L -> length key = S n /\ nonneg key /\ zsum key <= deg /\ length h = length hi) ->
        Hok (length lo) (deg + 1) (fst st) -> (forall t, In t (snd st) -> nup_ok deg t) ->
        exists st', foldM step L st = OK st' /\ Hok (length lo) (deg + 1) (fst st') /\ (forall t, In t (snd st') -> nup_ok deg t) /\
        forall u Phi, length u = S n -> (d | zsum u) -> LGD q n d (r_f D) u Phi ->
          cong q (hval (mono u) (wl u Phi (Z.of_nat k * d)) (length lo) (fst st') + nups u Phi (snd st'))
            (hval (mono u) (wl u Phi (Z.of_nat k * d)) (length lo) (fst st) + nups u Phi (snd st) +
             hval (mono u) (wl u Phi ((Z.of_nat k + 1) * d)) (length hi) L)).
      { induction L as [|[key h] L IH]; intros st HL Hst Hu.
        - exists st. split; [reflexivity|]. split; auto. split; auto. intros. unfold hval at 3. rewrite sumf_nil. apply cong_of_eq. ring.
        - destruct (HL key h) as (K1 & K2 & K3 & K4); [now left|].
          destruct (nstep_ok deg st key h Hst Hu K1 K2 K3 K4) as (st1 & E1 & A1 & A2 & A3).
          destruct (IH st1) as (st' & E2 & B1 & B2 & B3); auto. { intros; apply HL; now right. }
          exists st'. cbn [foldM]. rewrite E1. cbn [bind]. split; auto. split; auto. split; auto.
          intros u Phi Lu Du Hg. rewrite (B3 u Phi Lu Du Hg), (A3 u Phi Lu Du Hg).
          unfold hval at 4. rewrite sumf_cons. cbn [fst snd]. fold (hval (mono u) (wl u Phi ((Z.of_nat k + 1) * d)) (length hi) L).
          apply cong_of_eq. ring. }
      destruct (G H ([], [])) as ([H' ups] & E1 & E2 & E3 & E4).
      - intros key h Hin. destruct (Hv key h Hin) as (V1 & V2 & V3). repeat split; auto. eapply vsorted_len; eauto.
      - split; [apply vsorted_nil|]. intros ? ? [].
      - intros ? [].
      - exists H', ups. cbn [fst snd] in *. do 3 (split; [assumption|]). intros u Phi Lu Du Hg.
        rewrite (E4 u Phi Lu Du Hg). unfold hval at 1, nups. rewrite !sumf_nil. apply cong_of_eq. ring.
    Qed.
  End LEVEL.

  (** * the solves *)
  Lemma nd_solves_ok : exists solves, nd_solves slv D = OK solves /\
    forall k, (k < n)%nat -> exists B U, get_at solves (Z.of_nat k) = OK (B, U) /\
      get_solve_ND slv D ((Z.of_nat k + 1) * d) = OK (B, U) /\
      forall b, In b B -> In (nth b (E ((Z.of_nat k + 1) * d)) []) bas.
  Proof.
    unfold nd_solves.
    set (g := fun i => match get_solve_ND slv D ((i + 1) * d) with OK x => x | Err _ => ([], []) end).
    rewrite (mapM_total _ g).
    2:{ intros i Hi. apply zseq_In in Hi. destruct (nlevel_data (i + 1) ltac:(lia)) as (B & U & H & _).
        unfold g. rewrite H. reflexivity. }
    eexists. split; [reflexivity|]. intros k Hk.
    destruct (nlevel_data (Z.of_nat k + 1) ltac:(lia)) as (B & U & H & HB). exists B, U. split; auto.
    apply get_at_ok. split; [lia|]. rewrite Nat2Z.id, nth_error_map. unfold zseq. rewrite zrange_nth_error by lia.
    cbn [option_map]. unfold g. now rewrite Z.add_0_l, H.
  Qed.

  Definition nups_top (ups : list (vec * (nat * Z))) : Prop :=
    forall key row x, In (key, (row, x)) ups -> zsum key = zn + 1 -> row = 0%nat.

  Lemma nd_levels_ok solves : nd_solves slv D = OK solves -> forall k deg H, (k <= n)%nat ->
    deg + Z.of_nat k <= zn + 1 ->
    Hok (length (E (Z.of_nat k * d))) deg H ->
    exists ups, nd_levels N solves k H = OK ups /\
      (forall t, In t ups -> nup_ok (deg + Z.of_nat k) t) /\ nups_top ups /\
      forall u Phi, length u = S n -> (d | zsum u) -> LGD q n d (r_f D) u Phi ->
        cong q (nups u Phi ups) (hval (mono u) (wl u Phi (Z.of_nat k * d)) (length (E (Z.of_nat k * d))) H).
  Proof.
    intros Es. pose proof nd_nd as ND. destruct nd_solves_ok as (s' & Es' & HS). rewrite Es in Es'. injection Es' as <-.
    induction k as [|k IH]; intros deg H Hk Hdeg HH.
    - cbn [nd_levels]. change (Z.of_nat 0 * d) with 0 in *. destruct nbasis_0 as [B0 B1].
      assert (E0 : E 0 = [repeat 0 (S n)]).
      { assert (T : is_tuple (S n) 0 (repeat 0 (S n))).
        { split; [apply repeat_length|]. split; [apply nonneg_iff; intros i _; rewrite nth_repeat_any; destruct (Nat.ltb i (S n)); lia|apply zsum_repeat0]. }
        pose proof (enum_NoDup (S n) (Z.to_nat 0)) as NDu. apply enum_tuple in T; [|lia].
        assert (Hall : forall t, In t (E 0) -> t = repeat 0 (S n)).
        { intros t Ht. apply tuple_zero. apply enum_tuple in Ht; [exact Ht|lia]. }
        destruct (E 0) as [|t l] eqn:El; [destruct T|].
        rewrite (Hall t) by now left. destruct l as [|t' l]; auto. exfalso. inversion NDu as [|? ? X _]; subst. apply X.
        rewrite (Hall t) by now left. rewrite <- (Hall t') by (right; now left). now left. }
      destruct HH as [Hs Hv].
      rewrite (mapM_total _ (fun kh => (fst kh, (0%nat, nth 0 (snd kh) 0)))).
      2:{ intros [key h] Hin. destruct (Hv key h Hin) as (V1 & _). cbn [fst snd]. rewrite E0 in V1. cbn in V1.
          destruct h; [discriminate|]. reflexivity. }
      eexists. split; [reflexivity|]. split; [|split].
      + intros t Hin. apply in_map_iff in Hin. destruct Hin as ([key h] & <- & Hin). destruct (Hv key h Hin) as (V1 & V2 & V3).
        repeat split; cbn [fst snd]; auto; [eapply vsorted_len; eauto|lia].
      + intros key row x Hin _. apply in_map_iff in Hin. destruct Hin as ([key' h] & Eq & Hin). congruence.
      + intros u Phi Lu Du HL. apply cong_of_eq. unfold nups, hval. rewrite sumf_map. apply sumf_ext. intros [key h] _. cbn [fst snd].
        rewrite E0. cbn [length seq]. rewrite sumf_cons, sumf_nil. unfold wl. rewrite E0, B0. cbn [nth]. ring.
    - cbn [nd_levels]. destruct (HS k ltac:(lia)) as (B & U & G1 & G2 & G3). rewrite G1. cbn [bind].
      replace (Z.of_nat (S k)) with (Z.of_nat k + 1) in * by lia.
      destruct (nd_level_ok k ltac:(lia) B U G2 G3 deg H HH) as (H' & ups & E1 & E2 & E3 & E4).
      rewrite E1. cbn [bind fst snd].
      destruct (IH (deg + 1) H' ltac:(lia) ltac:(lia) E2) as (rest & R1 & R2 & R3 & R4). rewrite R1. cbn [bind].
      eexists. split; [reflexivity|]. split; [|split].
      + intros t Hin. apply in_app_iff in Hin. destruct Hin as [Hin|Hin].
        * destruct (E3 t Hin) as (A1 & A2 & A3 & A4). repeat split; auto. lia.
        * replace (deg + (Z.of_nat k + 1)) with (deg + 1 + Z.of_nat k) by lia. auto.
      + intros key row x Hin Hsum. apply in_app_iff in Hin. destruct Hin as [Hin|Hin].
        * destruct (E3 _ Hin) as (A1 & A2 & A3 & A4). cbn [fst] in A3. lia.
        * eapply R3; eauto.
      + intros u Phi Lu Du HL. unfold nups. rewrite sumf_app. fold (nups u Phi ups) (nups u Phi rest).
        rewrite (R4 u Phi Lu Du HL), <- (E4 u Phi Lu Du HL). apply cong_of_eq. ring.
  Qed.

  (** * the first step in the top degree *)
  Variable v : vec.
  Hypothesis Hv : is_tuple (S n) d v.
  Hypothesis Hn : (1 <= n)%nat.

  Lemma vadd_tweak r : length r = length v -> vadd r (vsub v r) = v.
  Proof.
    intros H. apply vec_ext.
    - apply vadd_length; auto. now apply vsub_length.
    - intros i Hi. rewrite vadd_nth, vsub_nth by (rewrite ?(vsub_length v r (length v)) by auto; lia). lia.
  Qed.

  Lemma nd_top_ok top b : get_solve_ND slv D (top_ND D) = OK top -> is_tuple (S n) (zn * d) b ->
    exists H, nd_top N top v b = OK H /\ Hok (length (E (zn * d))) 1 H /\
      forall u Phi, length u = S n -> (d | zsum u) -> LGD q n d (r_f D) u Phi ->
        cong q (hval (mono u) (wl u Phi (zn * d)) (length (E (zn * d))) H) (Phi (vadd u (vadd v b))).
  Proof.
    intros Et Hb. pose proof nd_nd as ND. destruct Hv as (V1 & V2 & V3).
    destruct (ni_top _ _ ninv) as (U & EU). rewrite Et in EU. injection EU as ->.
    assert (Hl : d <= top_ND D <= (zn + 1) * d) by (unfold top_ND; nia).
    destruct (solve_ND_ok slv D nbase Hslv _ Hl [] U Et) as (S1 & _ & _ & S4).
    replace (top_ND D - d) with (d * zn - zn) in S1, S4 by (unfold top_ND; ring).
    unfold nd_top. cbv zeta.
    destruct (tweak_ok v (d - zn) V2 ltac:(lia)) as (r & R1 & R2 & R3 & R4 & R5 & _). rewrite R1. cbn [bind].
    assert (Sr : zsum r = zn) by lia.
    rewrite vec_sub_ok by congruence. cbn [bind].
    assert (Ts : is_tuple (S n) (d - zn) (vsub v r)).
    { split; [apply vsub_length; congruence|]. split.
      - apply nonneg_iff. intros i Hi. rewrite vsub_nth by lia. specialize (R5 i). lia.
      - rewrite zsum_vsub by congruence. lia. }
    destruct Hb as (B1 & B2 & B3).
    rewrite vec_add_ok by (destruct Ts; congruence). cbn [bind].
    rewrite (base_td _ nbase) by (fold d; lia). cbn [bind].
    assert (Tb : is_tuple (S n) (Z.of_nat (Z.to_nat (top_ND D))) (vadd b (vsub v r))).
    { rewrite Z2Nat.id by lia. replace (top_ND D) with (zn * d + (d - zn)) by (unfold top_ND; ring).
      apply tuple_vadd; auto. repeat split; auto. }
    destruct (pos_ok _ _ _ Tb) as (P1 & P2 & P3). rewrite P1. cbn [bind].
    rewrite (base_tl _ nbase) by nia. cbn [bind]. rewrite (base_tl _ nbase) by nia. cbn [bind].
    rewrite (base_td _ nbase) by nia. cbn [bind].
    cbn [fst snd].
    set (cH := pos _ _ _) in *. set (lo := E (d * zn - zn)) in *. set (hi := E (zn * d)).
    set (F := map (fun row => nth cH row 0) U).
    assert (FL : length F = (S n * length lo)%nat).
    { unfold F. rewrite map_length. destruct S1 as [-> _]. cbn [length]. lia. }
    unfold check at 1. rewrite FL, Nat.leb_refl. cbn [bind].
    assert (HF : forall j, (j < S n * length lo)%nat -> nth j F 0 = mget U j cH).
    { intros j Hj. unfold F. rewrite (nth_map_lt _ _ _ _ []); [reflexivity|]. destruct S1 as [-> _]. lia. }
    assert (Tlo : forall w, In w lo -> is_tuple (S n) (d * zn - zn) w).
    { intros w Hw. apply enum_tuple; [nia|exact Hw]. }
    assert (Tm : forall w, In w lo -> is_tuple (S n) (Z.of_nat (Z.to_nat (zn * d))) (vadd r w)).
    { intros w Hw. rewrite Z2Nat.id by nia. replace (zn * d) with (zn + (d * zn - zn)) by ring.
      apply tuple_vadd; auto. repeat split; auto. congruence. }
    rewrite (mapM_total _ (fun w => (pos n (Z.to_nat (zn * d)) (vadd r w), vadd r w))).
    2:{ intros w Hw. rewrite vec_add_ok by (destruct (Tlo w Hw); congruence). cbn [bind].
        pose proof (proj1 (pos_ok _ _ _ (Tm w Hw))) as Q. fold hi in Q. rewrite Q. reflexivity. }
    cbn [bind].
    assert (LZ : length (repeat 0 (S n)) = S n) by apply repeat_length.
    assert (NZ : nonneg (repeat 0 (S n))) by (apply nonneg_iff; intros i _; rewrite nth_repeat_any; destruct (Nat.ltb i (S n)); lia).
    destruct (spread_ok q n (length hi) 0 (length lo) (map (fun w => (pos n (Z.to_nat (zn * d)) (vadd r w), vadd r w)) lo)
       (repeat 0 (S n)) F []) as [Q1 Q2]; auto.
    { split; [apply vsorted_nil|]. intros ? ? []. }
    { rewrite zsum_repeat0. lia. }
    { intros j m Hin. apply in_map_iff in Hin. destruct Hin as (w & Eq & Hw). injection Eq as <- <-. apply (pos_ok _ _ _ (Tm w Hw)). }
    eexists. split; [reflexivity|]. split; [exact Q1|].
    intros u Phi Lu Du HL. rewrite (Q2 u _ Lu). clear Q2. unfold hval. rewrite sumf_nil, mono_zero.
    rewrite map_length.
    assert (Ls : length (vsub v r) = S n) by (apply vsub_length; congruence).
    assert (EX : vadd u (vadd v b) = vadd u (vadd r (vadd b (vsub v r)))).
    { f_equal. transitivity (vadd (vadd r (vsub v r)) b); [now rewrite vadd_tweak|].
      rewrite (vadd_comm b (vsub v r)) by congruence. rewrite vadd_assoc by congruence. reflexivity. }
    rewrite EX. rewrite <- P3 at 1.
    pose proof (S4 (fun m => Phi (vadd u (vadd r m))) cH P2) as S5. cbn beta in S5. rewrite S5.
    change (seq 0 (length (@nil nat))) with (@nil nat). rewrite sumf_nil.
    transitivity (sumf (fun i => sumf (fun c => mget U (i * length lo + c) cH *
          ((nth i u 0 + nth i (vadd r (nth c lo [])) 0) * Phi (vadd u (vadd r (nth c lo []))))) (seq 0 (length lo))) (seq 0 (S n))).
    - apply cong_of_eq. rewrite Z.mul_1_l, Z.add_0_l. apply sumf_ext. intros i Hi. apply in_seq in Hi.
      apply sumf_ext. intros c Hc. apply in_seq in Hc. cbv zeta.
      rewrite (nth_map_lt _ _ _ _ []) by lia. cbn [fst snd]. unfold wl.
      assert (Hin : In (nth c lo []) lo) by (apply nth_In; lia).
      destruct (pos_ok _ _ _ (Tm _ Hin)) as (_ & _ & Z3). rewrite Z3. rewrite HF by nia. ring.
    - rewrite Z.add_0_r. apply cong_sumf. intros i Hi. apply in_seq in Hi. apply cong_sumf. intros c Hc. apply in_seq in Hc.
      assert (Hin : In (nth c lo []) lo) by (apply nth_In; lia).
      pose proof (Tm _ Hin) as (T1 & T2 & T3). destruct (Tlo _ Hin) as (T4 & _).
      rewrite <- (lgd_at u Phi (vadd r (nth c lo [])) i HL Lu Du ltac:(lia) T1 T2).
      2:{ rewrite T3, Z2Nat.id by nia. apply Z.divide_factor_r. }
      apply cong_mul; [reflexivity|]. apply cong_of_eq. apply sumf_ext. intros [a c0] Ha. cbn [fst snd].
      destruct (base_h _ nbase _ _ Ha) as (La & _). rewrite !eplus_vadd. rewrite <- (vadd_assoc r) by congruence. reflexivity.
  Qed.

  Lemma nd_column_ok solves top b : nd_solves slv D = OK solves -> get_solve_ND slv D (top_ND D) = OK top -> In b bas ->
    exists ups, nd_column N solves top v b = OK ups /\
      (forall t, In t ups -> nup_ok (zn + 1) t) /\ nups_top ups /\
      forall u Phi, length u = S n -> (d | zsum u) -> LGD q n d (r_f D) u Phi ->
        cong q (nups u Phi ups) (Phi (vadd u (vadd v b))).
  Proof.
    intros Es Et Hb. pose proof nd_nd as ND. destruct (nbasis_elem b Hb) as (i & Hi & Tb).
    destruct Tb as (B1 & B2 & B3). unfold nd_column. cbv zeta.
    rewrite B3, Z.rem_mul, Z.quot_mul by lia. unfold check at 1. cbn [Z.eqb bind].
    destruct (Z.eqb_spec i zn) as [->|Hne].
    - destruct (nd_top_ok top b Et) as (H & H1 & H2 & H3). { repeat split; auto. }
      rewrite H1. cbn [bind]. replace (zn =? 0) with false by (symmetry; apply Z.eqb_neq; lia).
      destruct (nd_levels_ok solves Es (Z.to_nat zn) 1 H) as (ups & E1 & E2 & E3 & E4); try lia.
      { rewrite Z2Nat.id by lia. exact H2. }
      rewrite Z2Nat.id in * by lia.
      exists ups. split; auto. split; [|split; auto].
      + intros t Ht. replace (zn + 1) with (1 + zn) by lia. auto.
      + intros u Phi Lu Du HL. rewrite (E4 u Phi Lu Du HL). auto.
    - rewrite (base_tl _ nbase) by nia. cbn [bind]. rewrite (base_td _ nbase) by nia. cbn [bind].
      destruct Hv as (V1 & V2 & V3). rewrite vec_add_ok by congruence. cbn [bind].
      assert (Tbv : is_tuple (S n) (Z.of_nat (Z.to_nat ((i + 1) * d))) (vadd b v)).
      { rewrite Z2Nat.id by nia. replace ((i + 1) * d) with (i * d + d) by ring. apply tuple_vadd; repeat split; auto. }
      destruct (pos_ok _ _ _ Tbv) as (P1 & P2 & P3). rewrite P1. cbn [bind].
      unfold check. replace (Nat.ltb _ _) with true by (symmetry; now apply Nat.ltb_lt). cbn [bind].
      set (j := pos _ _ _) in *.
      destruct (nd_levels_ok solves Es (Z.to_nat (i + 1)) 0 [(repeat 0 (S n), unit_at (length (E ((i + 1) * d))) j)])
        as (ups & E1 & E2 & E3 & E4); try lia.
      { split.
        - replace [(repeat 0 (S n), unit_at (length (E ((i + 1) * d))) j)] with (vinsert (repeat 0 (S n)) (unit_at (length (E ((i + 1) * d))) j) []) by reflexivity.
          apply vinsert_sorted; [apply vsorted_nil|apply repeat_length].
        - intros key h [Hin|[]]. assert (Ek : key = repeat 0 (S n) /\ h = unit_at (length (E ((i + 1) * d))) j) by (split; congruence).
          destruct Ek as [-> ->]. rewrite (Z2Nat.id (i + 1)) by lia. split; [apply unit_at_length|].
          split; [|rewrite zsum_repeat0; lia].
          apply nonneg_iff; intros x _; rewrite nth_repeat_any; destruct (Nat.ltb x (S n)); lia. }
      rewrite Z2Nat.id in * by lia.
      exists ups. split; auto. split; [|split; auto].
      + intros t Ht. destruct (E2 t Ht) as (A1 & A2 & A3 & A4). repeat split; auto. lia.
      + intros u Phi Lu Du HL. rewrite (E4 u Phi Lu Du HL). apply cong_of_eq. unfold hval.
        rewrite sumf_cons, sumf_nil. cbn [fst snd]. rewrite mono_zero.
        rewrite (sumf_seq_single _ 0 (length (E ((i + 1) * d))) j); [|lia|].
        * unfold wl. rewrite P3, (unit_at_nth D) by lia. rewrite Nat.eqb_refl. rewrite (vadd_comm b) by congruence. ring.
        * intros c Hc Hcj. rewrite (unit_at_nth D) by lia. destruct (Nat.eqb_spec j c); [lia|]. ring.
  Qed.
End NDB.
