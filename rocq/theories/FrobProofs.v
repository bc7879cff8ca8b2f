(** Proofs about the Frobenius routines. *)
From Coq Require Import ZArith List Lia Bool.
From Verif Require Import Base VecModel VecSpec VecProofs ToolsModel ToolsSpec ToolsProofs PolyProofs
  MatModel MatProofs DRModel DRSpec DRProofs DRRed DRStep DRFinal DRPath FrobModel FrobSpec FrobPath.
Import ListNotations.
Open Scope Z_scope.

Section ENTRY.
  Variables (slv : solver) (D : dR).
  Hypothesis inv : dr_inv slv D.
  Hypothesis Hslv : solver_ok (r_q D) slv.
  Notation n := (r_n D).
  Notation d := (r_d D).
  Notation p := (r_p D).
  Notation q := (r_q D).
  Notation zn := (Z.of_nat (r_n D)).
  Notation E l := (enum (S n) (Z.to_nat l)).
  Notation bas := (r_basis D).
  Notation LG := (E (degG D)).
  Notation g := (length LG).
  Notation tau x := (tweak_closed x (degG D)).
  Hypothesis Hp : 2 <= p.

  Lemma degG_nonneg : 0 <= degG D.
  Proof. pose proof (inv_nd _ _ inv). unfold degG. nia. Qed.

  (** versions of the single step lemmas with all functionals at once *)
  Lemma reduce_vector_all r u v m G : (q | r) -> length v = S n -> zsum v = d ->
    (forall i, (i <= n)%nat -> nth i u 0 = 0 \/ 0 < nth i v 0) ->
    is_tuple (S n) (d * m - degG D) u -> length G = g ->
    exists R, reduce_vector_J slv D r u v G = OK R /\ length R = g /\
      forall phi, GD q n d (r_f D) phi -> cong q (ev phi m u LG R) (ev phi (m + 1) (eplus u v) LG G).
  Proof.
    intros Hr Hlv Hsv Huv Hu HG.
    destruct (reduce_vector_class slv D inv Hslv r Hr u v Hlv Hsv Huv _ (zero_GD D) m Hu G HG) as (R & R1 & R2 & _).
    exists R. split; auto. split; auto. intros phi Hphi.
    destruct (reduce_vector_class slv D inv Hslv r Hr u v Hlv Hsv Huv phi Hphi m Hu G HG) as (R' & R1' & _ & C).
    rewrite R1 in R1'. injection R1' as <-. exact C.
  Qed.

  Lemma reduction_matrix_all r u v m G : (q | r) -> length v = S n -> zsum v = d ->
    (forall i, (i <= n)%nat -> nth i u 0 = 0 \/ 0 < nth i v 0) ->
    is_tuple (S n) (d * m - degG D) u -> length G = g ->
    exists M R, get_reduction_matrix_J slv D r u v = OK M /\ mat_vec r M G = OK R /\ length R = g /\
      forall phi, GD q n d (r_f D) phi -> cong q (ev phi m u LG R) (ev phi (m + 1) (eplus u v) LG G).
  Proof.
    intros Hr Hlv Hsv Huv Hu HG.
    destruct (reduction_matrix_class slv D inv Hslv r Hr u v Hlv Hsv Huv _ (zero_GD D) m Hu) as (M & M1 & _ & M3).
    destruct (M3 G HG) as (R & R1 & R2 & _). exists M, R. split; auto. split; auto. split; auto. intros phi Hphi.
    destruct (reduction_matrix_class slv D inv Hslv r Hr u v Hlv Hsv Huv phi Hphi m Hu) as (M' & M1' & _ & M3').
    rewrite M1 in M1'. injection M1' as <-. destruct (M3' G HG) as (R' & R1' & _ & C).
    rewrite R1 in R1'. injection R1' as <-. exact C.
  Qed.

  Lemma reduce_poly_all r u v m k G : (q | r) -> length v = S n -> nonneg v -> zsum v = d ->
    (forall i, (i <= n)%nat -> nth i u 0 = 0 \/ 0 < nth i v 0) ->
    is_tuple (S n) (d * m - degG D) u -> length G = g -> 0 <= k ->
    exists R, reduce_vector_J_poly slv D r u v k G = OK R /\ length R = g /\
      forall phi, GD q n d (r_f D) phi -> cong q (ev phi m u LG R) (ev phi (m + k) (eplus u (vscale k v)) LG G).
  Proof.
    intros Hr Hlv Hnv Hsv Huv Hu HG Hk. pose proof (is_tuple_len _ _ _ Hu) as Hlu.
    destruct (poly_equals_steps slv D inv Hslv r Hr u v Hlu Hnv Hlv Hsv Huv (Z.to_nat k) G HG) as (R & R' & R1 & R2 & R3 & R4).
    rewrite Z2Nat.id in R1 by auto.
    exists R. split; auto. destruct R4 as [R4 R5]. split; [lia|]. intros phi Hphi.
    pose proof (steps_down_class slv D inv Hslv r Hr u v Hlu Hnv Hlv Hsv Huv phi Hphi m Hu (Z.to_nat k) G R' HG R2) as C.
    rewrite Z2Nat.id in C by auto. etransitivity; [|exact C]. apply vcong_ev; [split; auto|lia].
  Qed.

  Lemma lvec_red_vcong G : vcong q (lvec_red q G) G.
  Proof.
    split; [apply lvec_red_length|]. intros i Hi. rewrite lvec_red_length in Hi.
    rewrite lvec_red_nth by auto. apply cong_mod.
  Qed.

  Lemma ev_red phi m u G : length G = g -> cong q (ev phi m u LG (lvec_red q G)) (ev phi m u LG G).
  Proof. intros H. apply vcong_ev; [apply lvec_red_vcong|]. now rewrite lvec_red_length. Qed.

  Section HV.
  Variables (h v : vec) (e : Z).
  Hypothesis Hh : is_tuple (S n) (d * e) h.
  Hypothesis Hv : good_dir d h v.
  Notation a i := (vsub (vscale p h) (vscale i v)).

  Lemma lv : length v = S n.
  Proof. destruct Hv as (H & _). rewrite H. apply Hh. Qed.
  Lemma nv : nonneg v.
  Proof. destruct Hv as (H & _ & H2). apply nonneg_iff. intros i Hi. apply H2. lia. Qed.
  Lemma len_a i : length (a i) = S n.
  Proof. apply vsub_length; rewrite vscale_length; [apply Hh|apply lv]. Qed.
  Lemma nth_a i k : nth k (a i) 0 = p * nth k h 0 - i * nth k v 0.
  Proof. rewrite vsub_nth, !vscale_nth; auto. rewrite !vscale_length, lv. apply Hh. Qed.
  Lemma dir_at k : 0 <= nth k v 0 <= nth k h 0 /\ (0 < nth k h 0 -> 0 < nth k v 0).
  Proof.
    destruct Hv as (H1 & _ & H). destruct (Nat.lt_ge_cases k (length h)) as [L|L]; [auto|].
    rewrite !nth_overflow by lia. lia.
  Qed.
  Lemma nonneg_a i : 0 <= i <= p -> nonneg (a i).
  Proof.
    intros Hi. apply nonneg_iff. intros k _. rewrite nth_a. pose proof (dir_at k). nia.
  Qed.
  Lemma supp_a i k : 0 <= i -> 0 < nth k (a i) 0 -> 0 < nth k v 0.
  Proof. intros Hi. rewrite nth_a. pose proof (dir_at k). nia. Qed.
  Lemma sum_a i : zsum (a i) = d * (p * e - i).
  Proof.
    destruct Hh as (H1 & _ & H3). destruct Hv as (_ & H4 & _).
    rewrite zsum_vsub by (rewrite !vscale_length, lv; auto). rewrite !zsum_vscale, H3, H4. ring.
  Qed.
  Lemma a_next i : a i = vadd (a (i + 1)) v.
  Proof.
    apply vec_ext. { rewrite len_a. symmetry. apply vadd_length; [apply len_a|apply lv]. }
    intros k _. rewrite vadd_nth by (rewrite len_a, lv; auto). rewrite !nth_a. ring.
  Qed.

  (** the preconditions of a step from tau(a i) to tau(a (i+1)) *)
  Lemma tau_tuple i : 0 <= i <= p -> zn <= p * e - i -> is_tuple (S n) (d * (p * e - i) - degG D) (tau (a i)).
  Proof.
    intros Hi He. pose proof degG_nonneg as G. pose proof (inv_nd _ _ inv).
    split; [now rewrite tweak_closed_length, len_a|]. split; [apply tweak_closed_nonneg; auto; now apply nonneg_a|].
    rewrite tweak_closed_sum; auto. { rewrite sum_a. reflexivity. } { now apply nonneg_a. }
    rewrite sum_a. unfold degG. nia.
  Qed.

  Lemma tau_step i : 0 <= i < p -> zn <= p * e - (i + 1) ->
    let y := vsub (tau (a i)) (tau (a (i + 1))) in
    length y = S n /\ zsum y = d /\ nonneg y /\
    (forall k, (k <= n)%nat -> nth k (tau (a (i + 1))) 0 = 0 \/ 0 < nth k y 0) /\
    vadd (tau (a (i + 1))) y = tau (a i).
  Proof.
    intros Hi He y. pose proof degG_nonneg as G.
    assert (Ll : forall j, length (tau (a j)) = S n) by (intros; rewrite tweak_closed_length; apply len_a).
    assert (Ly : length y = S n) by (apply vsub_length; auto).
    assert (Ny : forall k, nth k y 0 = nth k (tau (a i)) 0 - nth k (tau (a (i + 1))) 0).
    { intros k. apply vsub_nth. now rewrite !Ll. }
    assert (M : forall k, 0 <= nth k y 0 /\ (0 < nth k (tau (a (i + 1))) 0 -> 0 < nth k y 0)).
    { intros k. rewrite Ny, (a_next i). apply tweak_move; auto.
      - rewrite len_a, lv; auto. - apply nonneg_a; lia. - apply nv. - intros k'. apply supp_a. lia. }
    split; auto. split.
    { unfold y. rewrite zsum_vsub by now rewrite !Ll.
      destruct (tau_tuple i) as (_ & _ & S1); [lia|lia|]. destruct (tau_tuple (i + 1)) as (_ & _ & S2); [lia|lia|].
      rewrite S1, S2. ring. }
    split. { apply nonneg_iff. intros k _. apply M. }
    split. { intros k _. destruct (M k). pose proof (nonneg_nth (tau (a (i + 1))) k).
      assert (nonneg (tau (a (i + 1)))) by (apply tweak_closed_nonneg; auto; apply nonneg_a; lia). specialize (H1 H2). lia. }
    apply vec_ext. { rewrite Ll. apply vadd_length; auto. }
    intros k _. rewrite vadd_nth by now rewrite Ll. rewrite Ny. lia.
  Qed.

  Lemma single_ok r mats i st : (q | r) -> 0 <= i < p -> zn <= p * e - (i + 1) -> length (snd st) = g ->
    exists G', frob_single slv D r mats h v st i = OK (tau (a (i + 1)), G') /\ length G' = g /\
      forall phi, GD q n d (r_f D) phi ->
        cong q (ev phi (p * e - (i + 1)) (tau (a (i + 1))) LG G') (ev phi (p * e - i) (tau (a i)) LG (snd st)).
  Proof.
    intros Hr Hi He HG. pose proof degG_nonneg as Gn. unfold frob_single.
    assert (Lp : forall i, length (vscale p h) = length (vscale i v)).
    { intros. rewrite !vscale_length, lv. apply Hh. }
    rewrite vec_sub_ok by auto. cbn [bind]. rewrite tweak_eq by (auto; apply nonneg_a; lia). cbn [bind].
    rewrite vec_sub_ok by auto. cbn [bind]. rewrite tweak_eq by (auto; apply nonneg_a; lia). cbn [bind].
    rewrite vec_sub_ok by (rewrite !tweak_closed_length, !len_a; auto). cbn [bind].
    destruct (tau_step i Hi He) as (Y1 & Y2 & _ & Y4 & Y5).
    set (y := vsub (tau (a i)) (tau (a (i + 1)))) in *.
    pose proof (tau_tuple (i + 1) ltac:(lia) ltac:(lia)) as T.
    assert (EQ : forall phi R, cong q (ev phi (p * e - (i + 1)) (tau (a (i + 1))) LG R)
        (ev phi (p * e - (i + 1) + 1) (eplus (tau (a (i + 1))) y) LG (snd st)) ->
      cong q (ev phi (p * e - (i + 1)) (tau (a (i + 1))) LG R) (ev phi (p * e - i) (tau (a i)) LG (snd st))).
    { intros phi R C. rewrite eplus_vadd, Y5 in C. replace (p * e - (i + 1) + 1) with (p * e - i) in C by ring. exact C. }
    destruct mats.
    - destruct (reduction_matrix_all r (tau (a (i + 1))) y (p * e - (i + 1)) (snd st) Hr Y1 Y2 Y4 T HG) as (M & R & M1 & R1 & R2 & R3).
      rewrite M1. cbn [bind]. rewrite R1. cbn [bind]. eexists. split; [reflexivity|].
      split; [now rewrite lvec_red_length|]. intros phi Hphi. rewrite ev_red by auto. apply EQ. auto.
    - destruct (reduce_vector_all r (tau (a (i + 1))) y (p * e - (i + 1)) (snd st) Hr Y1 Y2 Y4 T HG) as (R & R1 & R2 & R3).
      rewrite R1. cbn [bind]. eexists. split; [reflexivity|].
      split; [now rewrite lvec_red_length|]. intros phi Hphi. rewrite ev_red by auto. apply EQ. auto.
  Qed.

  (** k steps from tau(a i) *)
  Lemma steps_ok r mats k : forall i st, (q | r) -> 0 <= i -> i + Z.of_nat k <= p -> zn <= p * e - (i + Z.of_nat k) ->
    length (snd st) = g -> (k = 0%nat -> fst st = tau (a i)) ->
    exists G', foldM (frob_single slv D r mats h v) (zrange i k) st = OK (tau (a (i + Z.of_nat k)), G') /\ length G' = g /\
      forall phi, GD q n d (r_f D) phi ->
        cong q (ev phi (p * e - (i + Z.of_nat k)) (tau (a (i + Z.of_nat k))) LG G') (ev phi (p * e - i) (tau (a i)) LG (snd st)).
  Proof.
    induction k as [|k IH]; intros i st Hr Hi Hk He HG H0.
    - cbn [zrange foldM]. rewrite Z.add_0_r. exists (snd st). rewrite <- H0 by auto. destruct st. cbn. split; auto.
      split; auto. intros. reflexivity.
    - cbn [zrange foldM]. destruct (single_ok r mats i st Hr) as (G1 & E1 & L1 & C1); [lia|lia|auto|].
      rewrite E1. cbn [bind].
      destruct (IH (i + 1) (tau (a (i + 1)), G1) Hr) as (G2 & E2 & L2 & C2); cbn [snd fst]; auto; try lia.
      replace (i + Z.of_nat (S k)) with (i + 1 + Z.of_nat k) by lia.
      exists G2. split; auto. split; auto. intros phi Hphi. rewrite C2 by auto. apply C1. auto.
  Qed.

  Lemma zrange_steps r mats i j st : (q | r) -> 0 <= i < j -> j <= p -> zn <= p * e - j -> length (snd st) = g ->
    exists G', foldM (frob_single slv D r mats h v) (zseq i j) st = OK (tau (a j), G') /\ length G' = g /\
      forall phi, GD q n d (r_f D) phi ->
        cong q (ev phi (p * e - j) (tau (a j)) LG G') (ev phi (p * e - i) (tau (a i)) LG (snd st)).
  Proof.
    intros Hr Hi Hj He HG. unfold zseq.
    destruct (steps_ok r mats (Z.to_nat (j - i)) i st Hr) as (G' & H); try lia.
    replace (i + Z.of_nat (Z.to_nat (j - i))) with j in H by lia. eauto.
  Qed.

  Lemma a_zero : a 0 = vscale p h.
  Proof.
    apply vec_ext. { rewrite len_a, vscale_length. symmetry. apply Hh. }
    intros k _. rewrite nth_a, vscale_nth. lia.
  Qed.

  (** the destination of the big step of mode 0 *)
  Lemma poly_dest end_ : 0 < end_ <= p -> degG D < end_ -> zn <= p * e - end_ ->
    let A := vadd (vscale p (vsub h v)) (vscale (p - end_) v) in
    let dest := vadd A (tau (vscale (degG D) v)) in
    tau (vadd A (vscale (degG D) v)) = dest /\ dest = tau (a (end_ - degG D)) /\
    vadd dest (vscale (end_ - degG D) v) = tau (a 0).
  Proof.
    intros He Hg Hz A dest. pose proof degG_nonneg as Gn. pose proof lv as Lv. pose proof nv as Nv.
    assert (Lh : length h = S n) by apply Hh.
    assert (LA : length A = S n).
    { apply vadd_length; rewrite vscale_length; auto. apply vsub_length; auto. }
    assert (NA : forall k, nth k A 0 = p * (nth k h 0 - nth k v 0) + (p - end_) * nth k v 0).
    { intros k. unfold A. rewrite vadd_nth, !vscale_nth, vsub_nth; auto; [congruence|].
      rewrite !vscale_length, Lv. apply vsub_length; auto. }
    assert (A0 : nonneg A).
    { apply nonneg_iff. intros k _. rewrite NA. pose proof (dir_at k). nia. }
    assert (SA : forall k, 0 < nth k A 0 -> 0 < nth k v 0).
    { intros k. rewrite NA. pose proof (dir_at k). nia. }
    assert (T1 : tau (vadd A (vscale (degG D) v)) = dest) by (apply tweak_add_dir; auto; congruence).
    split; auto. split.
    - rewrite <- T1. f_equal. apply vec_ext.
      + rewrite len_a. apply vadd_length; auto. now rewrite vscale_length.
      + intros k _. rewrite vadd_nth, vscale_nth, nth_a, NA by (rewrite vscale_length; congruence). ring.
    - set (A' := vadd A (vscale (end_ - degG D) v)).
      assert (LA' : length A' = S n) by (apply vadd_length; rewrite ?vscale_length; auto).
      assert (NA' : forall k, nth k A' 0 = nth k A 0 + (end_ - degG D) * nth k v 0).
      { intros k. unfold A'. rewrite vadd_nth, vscale_nth; auto. rewrite vscale_length. congruence. }
      assert (T2 : tau (vadd A' (vscale (degG D) v)) = vadd A' (tau (vscale (degG D) v))).
      { apply tweak_add_dir; auto; [congruence| |].
        - apply nonneg_iff. intros k _. rewrite NA'. pose proof (nonneg_nth A k A0). pose proof (dir_at k). nia.
        - intros k. rewrite NA'. pose proof (SA k). pose proof (nonneg_nth A k A0). pose proof (dir_at k). nia. }
      assert (Ltw : length (tau (vscale (degG D) v)) = S n) by (rewrite tweak_closed_length, vscale_length; auto).
      transitivity (vadd A' (tau (vscale (degG D) v))).
      + apply vec_ext.
        * rewrite !(vadd_length _ _ (S n)); auto; try (now rewrite vscale_length). apply vadd_length; auto.
        * intros k _. unfold dest, A'. rewrite !vadd_nth; rewrite ?(vadd_length _ _ (S n)), ?vscale_length; auto; try congruence; try (now rewrite vscale_length). lia.
      + rewrite <- T2. f_equal. apply vec_ext.
        * rewrite len_a. apply vadd_length; auto. now rewrite vscale_length.
        * intros k _. rewrite vadd_nth, vscale_nth, NA', NA, nth_a by (rewrite vscale_length; congruence). ring.
  Qed.
  End HV.

  (** one entry of H is reduced without changing its class *)
  Lemma entry_ok r loop end_ e h G : (q | r) -> (loop <= 2)%nat -> is_tuple (S n) (d * e) h -> 1 <= e ->
    0 < end_ <= p -> zn <= p * e - end_ -> length G = g ->
    exists v G', let dest := tau (vsub (vscale p h) (vscale end_ v)) in
      frob_entry slv D r loop end_ h G = OK (v, dest, G') /\ good_dir d h v /\
      is_tuple (S n) (d * (p * e - end_) - degG D) dest /\ length G' = g /\
      forall phi, GD q n d (r_f D) phi ->
        cong q (ev phi (p * e - end_) dest LG G') (ev phi (p * e) (tau (vscale p h)) LG G).
  Proof.
    intros Hr Hloop Hh He Hend Hz HG. pose proof (inv_nd _ _ inv) as ND. pose proof degG_nonneg as Gn.
    pose proof Hh as (Lh & Nh & Sh).
    destruct (choose_dir_good d h Nh) as (v & C1 & C2). { lia. } { rewrite Sh. nia. }
    exists v. pose proof (lv h v e Hh C2) as Lv. pose proof (nv h v C2) as Nv.
    assert (STEP : forall mats st, length (snd st) = g ->
      exists G', foldM (frob_single slv D r mats h v) (zseq 0 end_) st = OK (tau (vsub (vscale p h) (vscale end_ v)), G') /\ length G' = g /\
      forall phi, GD q n d (r_f D) phi ->
        cong q (ev phi (p * e - end_) (tau (vsub (vscale p h) (vscale end_ v))) LG G') (ev phi (p * e) (tau (vscale p h)) LG (snd st))).
    { intros mats st Hst. destruct (zrange_steps h v e Hh C2 r mats 0 end_ st Hr) as (G' & F1 & F2 & F3); auto; try lia.
      exists G'. split; auto. split; auto. intros phi Hphi. specialize (F3 phi Hphi). rewrite (a_zero h v e Hh C2) in F3.
      rewrite Z.sub_0_r in F3. exact F3. }
    assert (TT := tau_tuple h v e Hh C2 end_ ltac:(lia) Hz).
    unfold frob_entry. rewrite C1. cbn [bind].
    destruct loop as [|[|[|loop]]]; [| | |lia].
    - destruct (Z.ltb_spec (degG D) end_) as [B|B].
      + rewrite vec_sub_ok by congruence. cbn [bind].
        assert (Lhv : length (vsub h v) = S n) by (apply vsub_length; auto).
        rewrite vec_add_ok by (rewrite !vscale_length; congruence). cbn [bind].
        assert (Ngv : nonneg (vscale (degG D) v)).
        { apply nonneg_iff. intros k _. rewrite vscale_nth. pose proof (nonneg_nth v k Nv). nia. }
        rewrite (tweak_eq (vscale (degG D) v)) by auto. cbn [bind].
        assert (LA : length (vadd (vscale p (vsub h v)) (vscale (p - end_) v)) = S n).
        { apply vadd_length; now rewrite vscale_length. }
        rewrite vec_add_ok by (rewrite LA, tweak_closed_length, vscale_length; auto). cbn [bind].
        rewrite vec_add_ok by (rewrite LA, vscale_length; auto). cbn [bind].
        destruct (poly_dest h v e Hh C2 end_ Hend B Hz) as (P1 & P2 & P3).
        assert (NAA : nonneg (vadd (vadd (vscale p (vsub h v)) (vscale (p - end_) v)) (vscale (degG D) v))).
        { apply nonneg_vadd; auto. apply nonneg_vadd; apply nonneg_iff; intros k _; rewrite vscale_nth;
            pose proof (dir_at h v C2 k); rewrite ?vsub_nth by congruence; nia. }
        rewrite tweak_eq by auto. cbn [bind]. rewrite P1.
        destruct (list_eq_dec Z.eq_dec _ _) as [_|NE]; [|congruence]. cbn [check bind].
        set (dest := vadd (vadd (vscale p (vsub h v)) (vscale (p - end_) v)) (tau (vscale (degG D) v))) in *.
        destruct (reduce_poly_all r dest v (p * e - (end_ - degG D)) (end_ - degG D) G Hr Lv Nv) as (R & R1 & R2 & R3); auto; try lia.
        { apply C2. }
        { intros k Hk. rewrite P2. pose proof (tweak_closed_le (vsub (vscale p h) (vscale (end_ - degG D) v)) (degG D) k) as T.
          assert (NN : nonneg (vsub (vscale p h) (vscale (end_ - degG D) v))) by (apply (nonneg_a h v e Hh C2); lia).
          specialize (T NN Gn). pose proof (supp_a h v e Hh C2 (end_ - degG D) k ltac:(lia)).
          pose proof (nonneg_nth _ k (tweak_closed_nonneg _ _ NN Gn)). lia. }
        { rewrite P2. apply (tau_tuple h v e Hh C2); lia. }
        rewrite R1. cbn [bind].
        destruct (Z.eq_dec (degG D) 0) as [G0|G0].
        { (* degG = 0 : no single steps are left *)
          rewrite G0 in *. rewrite Z.sub_0_r in *. rewrite zseq_nil by lia. cbn [foldM bind fst snd].
          exists R. rewrite P2. split; auto. split; auto. split; [rewrite ?Z.sub_0_r; exact TT|]. split; auto.
          intros phi Hphi. specialize (R3 phi Hphi). rewrite eplus_vadd, P3 in R3. rewrite P2 in R3.
          replace (p * e - end_ + end_) with (p * e) in R3 by ring.
          rewrite (a_zero h v e Hh C2) in R3. exact R3. }
        destruct (zrange_steps h v e Hh C2 r false (end_ - degG D) end_ (dest, R) Hr) as (G' & F1 & F2 & F3); cbn [fst snd]; auto; try lia.
        exists G'. rewrite F1. cbn [bind fst snd]. split; auto. split; auto. split; auto. split; auto.
        intros phi Hphi. rewrite (F3 phi Hphi). cbn [snd]. specialize (R3 phi Hphi).
        rewrite eplus_vadd, P3, P2 in R3. rewrite R3. rewrite (a_zero h v e Hh C2).
        apply cong_of_eq. f_equal. ring.
      + destruct (STEP false ([], G) HG) as (G' & F1 & F2 & F3). exists G'. rewrite F1. cbn [bind fst snd]. auto.
    - destruct (STEP false ([], G) HG) as (G' & F1 & F2 & F3). exists G'. rewrite F1. cbn [bind fst snd]. auto.
    - destruct (STEP true ([], G) HG) as (G' & F1 & F2 & F3). exists G'. rewrite F1. cbn [bind fst snd]. auto.
  Qed.
End ENTRY.
