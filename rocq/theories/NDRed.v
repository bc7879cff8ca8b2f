(** Proofs: one column of the non-degenerate reduction matrices. *)
From Coq Require Import ZArith List Lia Bool.
From Verif Require Import Base VecModel VecSpec VecProofs ToolsModel ToolsSpec ToolsProofs PolyProofs
  MatModel MatProofs DRModel DRSpec DRProofs DRRed NDModel NDSpec NDMat.
Import ListNotations.
Open Scope Z_scope.

Lemma sumf_vinsert {V} N (F : vec * V -> Z) (m : vmap V) k v :
  (forall k' v', In (k', v') m -> length k' = N) -> length k = N ->
  sumf F (vinsert k v m) = sumf F m + F (k, v) - match vfind k m with Some w => F (k, w) | None => 0 end.
Proof.
  intros Hf Hk. induction m as [|[k' v'] m IH].
  - cbn. lia.
  - unfold vinsert, vfind in *. cbn [minsert mfind].
    destruct (vltb k k') eqn:E1; [|destruct (vltb k' k) eqn:E2]; rewrite ?sumf_cons.
    + lia.
    + rewrite IH by (intros; eapply Hf; simpl; eauto). lia.
    + assert (k = k'). { eapply (vltb_total N); eauto. eapply Hf. left; reflexivity. }
      subst. lia.
Qed.

Lemma mono_incr u : forall key i, length key = length u -> nonneg key -> (i < length u)%nat ->
  mono u (upd key i (nth i key 0 + 1)) = mono u key * nth i u 0.
Proof.
  induction u as [|x u IH]; intros [|k key] i Hl Hn Hi; simpl in Hl, Hi; try lia.
  inversion Hn; subst. destruct i as [|i]; cbn [upd nth mono].
  - rewrite Z.pow_add_r by lia. ring.
  - rewrite IH by (auto; lia). ring.
Qed.

Lemma mono_ev_ok n u key : length u = S n -> (S n <= length key)%nat -> mono_ev n u key = mono u key.
Proof.
  intros Hu Hk. unfold mono_ev. rewrite <- Hu in *. clear Hu.
  assert (G : forall u key a0 (o : nat), (length u <= length key)%nat ->
     fold_left (fun a i => a * nth i u 0 ^ nth i key 0) (seq 0 (length u)) a0 = a0 * mono u key).
  2:{ rewrite (G u key 1 0%nat) by auto. ring. }
  clear. induction u as [|x u IH]; intros key a0 o H; cbn [length seq fold_left].
  - cbn [mono]. ring.
  - destruct key as [|k key]; simpl in H; [lia|]. cbn [mono].
    transitivity (fold_left (fun a i => a * nth i u 0 ^ nth i key 0) (seq 0 (length u)) (a0 * x ^ k)).
    + cbn [nth]. rewrite <- seq_shift.
      generalize (a0 * x ^ k) as a1. generalize (seq 0 (length u)) as is.
      induction is as [|i is IHi]; intros a1; cbn [map fold_left]; auto.
    + rewrite IH by (auto; lia). ring.
Qed.

Lemma nonneg_upd l i x : nonneg l -> 0 <= x -> nonneg (upd l i x).
Proof. intros H Hx. apply Forall_upd; auto. Qed.

(** * the maps H *)
Section HMAP.
  Variables (q : Z) (n : nat).

  (** keys are exponents of degree at most deg, values have dim entries *)
  Definition Hok (dim : nat) (deg : Z) (H : vmap (list Z)) : Prop :=
    vsorted (S n) H /\ forall key h, In (key, h) H -> length h = dim /\ nonneg key /\ zsum key <= deg.

  Definition hval (mu : vec -> Z) (W : nat -> Z) (dim : nat) (H : vmap (list Z)) : Z :=
    sumf (fun kh => mu (fst kh) * sumf (fun c => W c * nth c (snd kh) 0) (seq 0 dim)) H.

  Lemma hadd_ok dim deg key ups H : Hok dim deg H -> length key = S n -> nonneg key -> zsum key <= deg ->
    (forall i x, In (i, x) ups -> (i < dim)%nat) ->
    Hok dim deg (hadd q dim key ups H) /\
    forall mu W, cong q (hval mu W dim (hadd q dim key ups H))
      (hval mu W dim H + mu key * sumf (fun ux => W (fst ux) * snd ux) ups).
  Proof.
    intros [Hs Hv] Hk Hn Hd Hu. unfold hadd.
    set (h := match vfind key H with Some h => h | None => repeat 0 dim end).
    assert (Lh : length h = dim).
    { unfold h. destruct (vfind key H) as [h0|] eqn:E; [|apply repeat_length].
      apply (vfind_In (S n)) in E; auto. apply (Hv _ _ E). }
    assert (Lv : length (vadd_all q ups h) = dim) by (rewrite vadd_all_length; auto).
    split.
    - split; [now apply vinsert_sorted|]. intros k0 h0 Hin. apply (vinsert_In (S n)) in Hin; auto.
      destruct Hin as [[-> ->]|[_ Hin]]; auto.
    - intros mu W. unfold hval at 1. rewrite (sumf_vinsert (S n)); auto.
      2:{ intros k' v' Hin. eapply vsorted_len; eauto. }
      cbn [fst snd]. fold (hval mu W dim H).
      pose proof (vadd_all_wsum q ups h W) as VW. rewrite Lh in VW. specialize (VW Hu).
      assert (E0 : match vfind key H with
                   | Some w => mu key * sumf (fun c => W c * nth c w 0) (seq 0 dim)
                   | None => 0 end = mu key * sumf (fun c => W c * nth c h 0) (seq 0 dim)).
      { unfold h. destruct (vfind key H); auto. rewrite (sumf_zero _ (seq 0 dim)); [ring|].
        intros c _. rewrite nth_repeat_any. destruct (Nat.ltb c dim); ring. }
      rewrite E0, VW. apply cong_of_eq. ring.
  Qed.

  Lemma spread_gen dim deg dimF cells key F H : Hok dim (deg + 1) H -> length key = S n -> nonneg key -> zsum key <= deg ->
    (forall j m, In (j, m) cells -> (j < dim)%nat) ->
    Hok dim (deg + 1) (nd_spread q n dimF dim cells key F H) /\
    forall mu W, cong q (hval mu W dim (nd_spread q n dimF dim cells key F H))
      (hval mu W dim H + sumf (fun i => sumf (fun c =>
          let cell := nth c cells (0%nat, []) in
          (mu (upd key i (nth i key 0 + 1)) + mu key * nth i (snd cell) 0) * nth (i * dimF + c) F 0 * W (fst cell)) (seq 0 (length cells))) (seq 0 (S n))).
  Proof.
    intros HH Hk Hn Hd Hc. unfold nd_spread.
    destruct (hadd_ok dim (deg + 1) key [] H HH Hk Hn ltac:(lia) ltac:(intros ? ? [])) as [A1 A2].
    set (H0 := hadd q dim key [] H) in *.
    assert (A2' : forall mu W, cong q (hval mu W dim H0) (hval mu W dim H)).
    { intros mu W. rewrite A2, sumf_nil. apply cong_of_eq. ring. }
    set (ent := combine (seq 0 (length cells)) cells).
    assert (G : forall is H1, (forall i, In i is -> (i <= n)%nat) -> Hok dim (deg + 1) H1 ->
      let H2 := fold_left (fun H i =>
        hadd q dim key (map (fun cc => (fst (snd cc), (nth i (snd (snd cc)) 0 * nth (i * dimF + fst cc) F 0) mod q)) ent)
        (hadd q dim (upd key i (nth i key 0 + 1)) (map (fun cc => (fst (snd cc), nth (i * dimF + fst cc) F 0)) ent) H)) is H1 in
      Hok dim (deg + 1) H2 /\ forall mu W, cong q (hval mu W dim H2)
       (hval mu W dim H1 + sumf (fun i => sumf (fun c =>
          let cell := nth c cells (0%nat, []) in
          (mu (upd key i (nth i key 0 + 1)) + mu key * nth i (snd cell) 0) * nth (i * dimF + c) F 0 * W (fst cell)) (seq 0 (length cells))) is)).
    { induction is as [|i is IH]; intros H1 Hi H1ok; cbv zeta; cbn [fold_left].
      - split; auto. intros. rewrite sumf_nil. apply cong_of_eq. ring.
      - assert (Hii : (i <= n)%nat) by (apply Hi; now left).
        assert (Hent : forall cc, In cc ent -> (fst (snd cc) < dim)%nat).
        { intros [c [j m]] Hin. apply in_combine_r in Hin. cbn. eapply Hc; eauto. }
        destruct (hadd_ok dim (deg + 1) (upd key i (nth i key 0 + 1))
            (map (fun cc => (fst (snd cc), nth (i * dimF + fst cc) F 0)) ent) H1) as [B1 B2]; auto.
        { now rewrite upd_length. }
        { apply nonneg_upd; auto. pose proof (nonneg_nth key i Hn). lia. }
        { rewrite zsum_upd by lia. lia. }
        { intros i0 x Hin. apply in_map_iff in Hin. destruct Hin as (cc & E & Hin). injection E as <- <-. auto. }
        set (H3 := hadd q dim (upd key i (nth i key 0 + 1)) _ H1) in *.
        destruct (hadd_ok dim (deg + 1) key
            (map (fun cc => (fst (snd cc), (nth i (snd (snd cc)) 0 * nth (i * dimF + fst cc) F 0) mod q)) ent) H3) as [C1 C2]; auto; [lia| |].
        { intros i0 x Hin. apply in_map_iff in Hin. destruct Hin as (cc & E & Hin). injection E as <- <-. auto. }
        set (H4 := hadd q dim key _ H3) in *.
        destruct (IH H4) as [D1 D2]; auto. { intros; apply Hi; now right. }
        split; auto. intros mu W. rewrite (D2 mu W), (C2 mu W), (B2 mu W), sumf_cons. rewrite !sumf_map. cbn [fst snd].
        unfold ent. rewrite !(sumf_combine_seq _ cells (0%nat, [])). cbn [fst snd].
        set (tail := sumf _ is).
        assert (E : cong q (sumf (fun c => W (fst (nth c cells (0%nat, []))) * ((nth i (snd (nth c cells (0%nat, []))) 0 * nth (i * dimF + c) F 0) mod q)) (seq 0 (length cells)))
                      (sumf (fun c => W (fst (nth c cells (0%nat, []))) * (nth i (snd (nth c cells (0%nat, []))) 0 * nth (i * dimF + c) F 0)) (seq 0 (length cells)))).
        { apply cong_sumf. intros c _. rewrite cong_mod. reflexivity. }
        rewrite E. apply cong_of_eq.
        transitivity (hval mu W dim H1 + (mu (upd key i (nth i key 0 + 1)) * sumf (fun c => W (fst (nth c cells (0%nat, []))) * nth (i * dimF + c) F 0) (seq 0 (length cells))
          + mu key * sumf (fun c => W (fst (nth c cells (0%nat, []))) * (nth i (snd (nth c cells (0%nat, []))) 0 * nth (i * dimF + c) F 0)) (seq 0 (length cells)) + tail)); [ring|].
        f_equal. f_equal. rewrite <- !sumf_scal, <- sumf_plus. apply sumf_ext. intros c _. cbv zeta. ring. }
    destruct (G (seq 0 (S n)) H0) as [G1 G2]; auto.
    { intros i Hi. apply in_seq in Hi. lia. }
    split; [exact G1|]. intros mu W. cbv zeta in G2 |- *. rewrite (G2 mu W), A2'. reflexivity.
  Qed.

  Lemma spread_ok dim deg dimF cells key F H : Hok dim (deg + 1) H -> length key = S n -> nonneg key -> zsum key <= deg ->
    (forall j m, In (j, m) cells -> (j < dim)%nat) ->
    Hok dim (deg + 1) (nd_spread q n dimF dim cells key F H) /\
    forall u W, length u = S n -> cong q (hval (mono u) W dim (nd_spread q n dimF dim cells key F H))
      (hval (mono u) W dim H + mono u key * sumf (fun i => sumf (fun c =>
          let cell := nth c cells (0%nat, []) in
          (nth i u 0 + nth i (snd cell) 0) * nth (i * dimF + c) F 0 * W (fst cell)) (seq 0 (length cells))) (seq 0 (S n))).
  Proof.
    intros HH Hk Hn Hd Hc. destruct (spread_gen dim deg dimF cells key F H HH Hk Hn Hd Hc) as [A B].
    split; auto. intros u W Lu. rewrite (B (mono u) W). apply cong_of_eq. f_equal.
    rewrite <- sumf_scal. apply sumf_ext. intros i Hi. apply in_seq in Hi. rewrite <- sumf_scal. apply sumf_ext. intros c _. cbv zeta.
    rewrite mono_incr by (auto; lia). ring.
  Qed.
End HMAP.

(** * what is known about the object after init_ND *)
Record nd_inv (slv : solver) (N : dND) : Prop := {
  ni_dr : dr_inv slv (nd_dr N);
  ni_top : exists U, get_solve_ND slv (nd_dr N) (top_ND (nd_dr N)) = OK ([], U);
  ni_basis : exists bs,
    mapM (init_ND_level slv (nd_dr N) (hilbert_ND (r_n (nd_dr N)) (r_d (nd_dr N)))) (zseq 0 (Z.of_nat (r_n (nd_dr N)) + 1)) = OK bs
    /\ nd_basis N = concat bs;
  ni_bdict : nd_bdict N = tuple_index (nd_basis N);
  ni_len : zlen (nd_basis N) = r_d (nd_dr N) ^ Z.of_nat (r_n (nd_dr N))
}.

Lemma init_ND_inv slv q p prec f N : init_ND slv q p prec f = OK N ->
  wf_poly (r_n (nd_dr N)) (r_d (nd_dr N)) f ->
  nd_inv slv N /\ r_q (nd_dr N) = q /\ r_f (nd_dr N) = f.
Proof.
  unfold init_ND. intros H. apply bind_ok in H. destruct H as (D & H1 & H).
  apply bind_ok in H. destruct H as (top & H2 & H).
  apply bind_ok in H. destruct H as (? & H3 & H).
  apply bind_ok in H. destruct H as (bs & H4 & H).
  apply bind_ok in H. destruct H as (? & H5 & H). injection H as <-. cbn [nd_dr].
  intros Hwf. destruct (init_inv _ _ _ _ _ _ H1 Hwf) as (I1 & I2 & I3). split; auto.
  unfold check in *. destruct (Nat.eqb_spec (length (fst top)) 0) as [E3|]; [|discriminate].
  destruct (Z.eqb_spec (zlen (concat bs)) (r_d D ^ Z.of_nat (r_n D))) as [E5|]; [|discriminate].
  constructor; cbn [nd_dr nd_basis nd_bdict]; auto.
  - destruct top as [B U]. exists U. cbn [fst] in E3. apply length_zero_iff_nil in E3. now subst B.
  - exists bs. auto.
Qed.
