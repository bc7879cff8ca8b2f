(** Every request made by the iterations of the parallel loop of frob_matrix_J is
    of a kind computed by the preparation. *)
From Coq Require Import ZArith List Bool Lia.
From Verif Require Import Base VecModel VecSpec VecProofs ToolsModel ToolsSpec ToolsProofs PolyProofs MatModel MatProofs
  DRModel DRSpec DRProofs DRRed DRStep DRPath DRFinal FrobModel FrobSpec FrobPath FrobProofs FrobSum FrobTop
  ProgModel ProgProofs CacheModel CacheProofs CacheFrob.
Import ListNotations.
Open Scope Z_scope.

(** * directions *)
Lemma dir_bump_inv w : forall v v', dir_inv w v -> dir_bump w v = Some v' -> dir_inv w v'.
Proof.
  induction w as [|x w IH]; intros v v' H E.
  - apply dir_inv_nil_l in H. subst. discriminate.
  - destruct v as [|y v]; [destruct H as [H _]; discriminate|].
    apply dir_inv_cons in H. destruct H as [H0 H]. cbn [dir_bump] in E.
    destruct ((0 <? x) && (y <? x)) eqn:B.
    + apply andb_true_iff in B. destruct B as [B1 B2]. apply Z.ltb_lt in B1, B2. injection E as <-.
      apply dir_inv_cons. split; auto. lia.
    + destruct (dir_bump w v) as [v1|] eqn:E1; [|discriminate]. injection E as <-.
      apply dir_inv_cons. split; auto. eapply IH; eauto.
Qed.
Lemma dir_loop_inv d w fuel : forall v s v', dir_inv w v -> dir_loop fuel d w v s = OK v' -> dir_inv w v'.
Proof.
  induction fuel as [|fuel IH]; intros v s v' H E; cbn [dir_loop] in E; destruct (s <? d); try congruence.
  destruct (dir_bump w v) as [v1|] eqn:E1; [|discriminate]. eapply IH; [|exact E]. eapply dir_bump_inv; eauto.
Qed.
Lemma choose_dir_inv d w v : nonneg w -> choose_dir d w = OK v -> dir_inv w v.
Proof.
  intros Hw E. unfold choose_dir in E. eapply dir_loop_inv; [|exact E].
  split; [now rewrite map_length|]. intros i Hi. rewrite (nth_map_lt _ _ _ _ 0) by auto.
  pose proof (nonneg_nth w i Hw). destruct (Z.ltb_spec 0 (nth i w 0)); lia.
Qed.
Lemma dir_inv_nonneg w v : dir_inv w v -> nonneg v.
Proof. intros [L H]. apply nonneg_iff. intros i Hi. apply H. lia. Qed.

Lemma minsert_keys {V} (k : vec) (x : V) m k' x' : In (k', x') (vinsert k x m) -> k' = k \/ exists y, In (k', y) m.
Proof.
  unfold vinsert. induction m as [|[k0 y0] m IH]; cbn [minsert].
  - intros [E|[]]. injection E as <- _. auto.
  - destruct (vltb k k0); [|destruct (vltb k0 k)].
    + intros [E|I]; [injection E as <- _; auto|]. right. eauto.
    + intros [E|I]; [injection E as <- _; right; exists y0; now left|].
      destruct (IH I) as [|[y Iy]]; auto. right. exists y. now right.
    + intros [E|I]; [injection E as <- _; right; exists y0; now left|]. right. exists x'. now right.
Qed.

Section COVER.
  Variables (slv : solver) (D : dR) (T : list poly).
  Notation h := (value slv D T).
  Notation N := (S (r_n D)).
  Hypothesis Hn : (1 <= r_n D)%nat.
  Hypothesis Hp : 2 <= r_p D.
  Hypothesis Hd : 1 <= r_d D.

  (** requests answered by the tables after the preparation *)
  Definition cov (r : req) : Prop :=
    match r with
    | QRed true v => is_tuple N (r_d D) v
    | QIncl u => is_tuple N (Z.of_nat (r_n D)) u
    | QFinal k => k <= Z.of_nat (r_n D)
    | QFpow power => power < zlen T
    | _ => False
    end.
  Notation hr := (hoare h cov).

  Lemma degG_nonneg : 0 <= degG D. Proof. unfold degG. nia. Qed.

  Lemma step_pre_tuple u v : length v = N -> nonneg v -> step_pre D u v = OK tt -> is_tuple N (r_d D) v.
  Proof.
    intros L V E. apply step_pre_ok in E. destruct E as [_ E]. rewrite sumf_nth_zsum in E by auto. now repeat split.
  Qed.

  Lemma reduce_vector_cov u v G : length v = N -> nonneg v -> hr (reduce_vector_p D 0 u v G) (fun _ => True).
  Proof.
    intros L V. unfold reduce_vector_p. apply hoare_lift_bind. intros [] E. apply hoare_ask_bind. intros Ms _. split.
    - cbn. eapply step_pre_tuple; eauto.
    - apply hoare_lift. auto.
  Qed.
  Lemma reduction_matrix_cov u v : length v = N -> nonneg v -> hr (get_reduction_matrix_p D 0 u v) (fun _ => True).
  Proof.
    intros L V. unfold get_reduction_matrix_p. apply hoare_lift_bind. intros [] E. apply hoare_ask_bind. intros Ms _. split.
    - cbn. eapply step_pre_tuple; eauto.
    - apply hoare_lift. auto.
  Qed.
  Lemma reduce_poly_cov u v k G : length v = N -> nonneg v -> hr (reduce_vector_poly_p D 0 u v k G) (fun _ => True).
  Proof.
    intros L V. unfold reduce_vector_poly_p. apply hoare_lift_bind. intros [] E. apply hoare_ask_bind. intros Ms _. split.
    - cbn. eapply step_pre_tuple; eauto.
    - apply hoare_lift. auto.
  Qed.

  Definition pos_vec (u : vec) : Prop := length u = N /\ nonneg u.
  Definition last_dest (u : vec) : Prop := u = [] \/ pos_vec u.

  Lemma frob_single_cov mt hh v st i : pos_vec hh -> dir_inv hh v -> 0 <= i < r_p D ->
    hr (frob_single_p D 0 mt hh v st i) (fun st' => last_dest (fst st')).
  Proof.
    intros [L1 N1] V Hi. pose proof (dir_inv_nonneg _ _ V) as NV. destruct V as [L2 V]. pose proof degG_nonneg as HG.
    unfold frob_single_p.
    assert (Ea : vec_sub (vscale (r_p D) hh) (vscale i v) = OK (vsub (vscale (r_p D) hh) (vscale i v))).
    { apply vec_sub_ok. rewrite !vscale_length. lia. }
    assert (Eb : vec_sub (vscale (r_p D) hh) (vscale (i + 1) v) = OK (vsub (vscale (r_p D) hh) (vscale (i + 1) v))).
    { apply vec_sub_ok. rewrite !vscale_length. lia. }
    rewrite Ea, Eb. set (b := vsub (vscale (r_p D) hh) (vscale (i + 1) v)).
    assert (Lb : length b = N).
    { unfold b. rewrite (vsub_length _ _ N); auto; rewrite vscale_length; congruence. }
    assert (nb : forall j, nth j b 0 = r_p D * nth j hh 0 - (i + 1) * nth j v 0).
    { intros j. unfold b. rewrite vsub_nth by (rewrite !vscale_length; lia). now rewrite !vscale_nth. }
    assert (Nb : nonneg b).
    { apply nonneg_iff. intros j Hj. rewrite nb. specialize (V j ltac:(lia)). nia. }
    assert (Ab : vsub (vscale (r_p D) hh) (vscale i v) = vadd b v).
    { apply vec_ext.
      - rewrite (vsub_length _ _ N), (vadd_length _ _ N); rewrite ?vscale_length; lia.
      - intros j _. rewrite vadd_nth by lia. rewrite vsub_nth by (rewrite !vscale_length; lia). rewrite nb, !vscale_nth. lia. }
    rewrite Ab. cbn [lift pbind].
    rewrite (tweak_eq (vadd b v)) by (auto using nonneg_vadd). rewrite (tweak_eq b) by auto. cbn [lift pbind].
    rewrite vec_sub_ok by (rewrite !tweak_closed_length, (vadd_length b v N); lia). cbn [lift pbind].
    set (y := vsub _ _).
    assert (Ly : length y = N). { unfold y. rewrite (vsub_length _ _ N); rewrite ?tweak_closed_length, ?(vadd_length b v N); lia. }
    assert (Ny : nonneg y).
    { apply nonneg_iff. intros j Hj. unfold y. rewrite vsub_nth by (rewrite !tweak_closed_length, (vadd_length b v N); lia).
      apply tweak_move; auto; [lia|]. intros k Hk. rewrite nb in Hk.
      destruct (Nat.lt_ge_cases k (length hh)) as [Kl|Kl].
      - specialize (V k Kl). destruct (Z.eq_dec (nth k v 0) 0); [|lia]. exfalso.
        assert (nth k hh 0 = 0) by lia. nia.
      - rewrite !nth_overflow in Hk by lia. lia. }
    assert (PD : last_dest (tweak_closed b (degG D))).
    { right. split; [rewrite tweak_closed_length; auto|]. now apply tweak_closed_nonneg. }
    eapply (hoare_bind _ _ _ _ (fun _ => True)).
    - destruct mt.
      + eapply hoare_bind; [now apply reduction_matrix_cov|]. intros M _. apply hoare_lift. auto.
      + now apply reduce_vector_cov.
    - intros G _. now apply hoare_ret.
  Qed.
  Lemma frob_singles_cov mt hh v lo hi st : pos_vec hh -> dir_inv hh v -> 0 <= lo -> hi <= r_p D -> last_dest (fst st) ->
    hr (foldP (frob_single_p D 0 mt hh v) (zseq lo hi) st) (fun st' => last_dest (fst st')).
  Proof.
    intros. apply (hoare_foldP h cov _ (fun st => last_dest (fst st))); auto. intros s a Ia Is.
    apply frob_single_cov; auto. apply zseq_In in Ia. lia.
  Qed.

  Lemma frob_entry_cov loop e hh G : pos_vec hh -> 0 <= e <= r_p D ->
    hr (frob_entry_p D 0 loop e hh G) (fun vdG => dir_inv hh (fst (fst vdG)) /\ last_dest (snd (fst vdG))).
  Proof.
    intros Ph He. unfold frob_entry_p. pose proof degG_nonneg as HG. apply hoare_lift_bind. intros v Ev.
    assert (V : dir_inv hh v) by (eapply choose_dir_inv; [apply Ph|exact Ev]).
    assert (Fin : forall mt lo st, 0 <= lo -> last_dest (fst st) ->
      hr (st <~ foldP (frob_single_p D 0 mt hh v) (zseq lo e) st ;; Ret (v, fst st, snd st))
         (fun vdG => dir_inv hh (fst (fst vdG)) /\ last_dest (snd (fst vdG)))).
    { intros mt lo st Hlo Hst. eapply hoare_bind; [now apply frob_singles_cov|]. intros st' Hs. apply hoare_ret. cbn [fst snd]. auto. }
    destruct loop as [|[|[|loop]]]; try (apply Fin; [lia|now left]); [|apply hoare_fail].
    destruct (Z.ltb_spec (degG D) e); [|apply Fin; [lia|now left]].
    do 7 (apply hoare_lift_bind; intros ? ?).
    eapply hoare_bind; [apply reduce_poly_cov|].
    { destruct V as [L _]. destruct Ph as [L' _]. congruence. }
    { eapply dir_inv_nonneg; eauto. }
    intros G1 _. apply Fin; [lia|]. cbn [fst].
    (* the bulk destination equals a tweak *)
    destruct Ph as [L1 N1]. destruct V as [L2 V].
    match goal with X : vec_sub hh v = OK ?w |- _ => rewrite vec_sub_ok in X by lia; injection X as <- end.
    match goal with X : vec_add (vscale _ (vsub hh v)) _ = OK ?w |- _ =>
      rewrite vec_add_ok in X by (rewrite !vscale_length, (vsub_length _ _ N); lia); injection X as <- end.
    set (aa := vadd _ _) in *.
    assert (La : length aa = N) by (unfold aa; rewrite (vadd_length _ _ N); rewrite ?vscale_length, ?(vsub_length _ _ N); lia).
    assert (Na : nonneg aa).
    { apply nonneg_iff. intros j Hj. unfold aa. rewrite vadd_nth by (rewrite !vscale_length, (vsub_length _ _ N); lia).
      rewrite !vscale_nth, vsub_nth by lia. specialize (V j ltac:(lia)). nia. }
    match goal with X : vec_add aa (vscale (degG D) v) = OK ?w |- _ =>
      rewrite vec_add_ok in X by (rewrite vscale_length; lia); injection X as <- end.
    match goal with X : check (if list_eq_dec _ _ _ then _ else _) _ = OK _ |- _ =>
      destruct (list_eq_dec _ _ _) as [->|]; [|discriminate] end.
    match goal with X : tweak (vadd aa (vscale (degG D) v)) _ = OK ?w |- _ => rewrite tweak_eq in X; auto; [injection X as <-|] end.
    - right. split.
      + rewrite tweak_closed_length, (vadd_length _ _ N); rewrite ?vscale_length; lia.
      + apply tweak_closed_nonneg; auto. apply nonneg_vadd; auto. apply nonneg_iff. intros j Hj. rewrite vscale_nth.
        rewrite vscale_length in Hj. specialize (V j ltac:(lia)). nia.
    - apply nonneg_vadd; auto. apply nonneg_iff. intros j Hj. rewrite vscale_nth.
      rewrite vscale_length in Hj. specialize (V j ltac:(lia)). nia.
  Qed.

  Definition good_keys (H : vmap (list Z)) : Prop := forall u G, In (u, G) H -> pos_vec u.
  Lemma good_vinsert u G H : pos_vec u -> good_keys H -> good_keys (vinsert u G H).
  Proof. intros Hu HH k x I. apply minsert_keys in I. destruct I as [->|[y I]]; auto. eapply HH; eauto. Qed.

  Lemma incl_cov u x : last_dest u -> get_inclusion_matrix_J D u = OK x -> is_tuple N (Z.of_nat (r_n D)) u.
  Proof.
    intros L E. unfold get_inclusion_matrix_J in E. apply bind_ok in E. destruct E as (? & E & _).
    unfold check in E. destruct (Z.eqb_spec (sumf (fun i => nth i u 0) (seq 0 N)) (Z.of_nat (r_n D))) as [E1|]; [|discriminate].
    destruct L as [->|[L1 L2]].
    - exfalso. rewrite (sumf_zero _ (seq 0 N)) in E1; [lia|]. intros i _. now destruct i.
    - rewrite sumf_nth_zsum in E1 by auto. now repeat split.
  Qed.

  Lemma frob_pass_cov loop e H L : good_keys H ->
    hr (frob_pass_p D 0 loop e H L) (fun st => good_keys (fst st)).
  Proof.
    intros HH. unfold frob_pass_p. apply (hoare_foldP h cov _ (fun st => good_keys (fst st))); [|intros ? ? []].
    intros st [u G] Iu Hs. cbn [fst snd]. pose proof (HH u G Iu) as Pu.
    eapply hoare_bind.
    - apply frob_entry_cov; auto. pose proof (Z.mod_pos_bound (Z.of_nat (r_n D)) (r_p D) ltac:(lia)). destruct (_ <? e); lia.
    - intros [[v dest] G1] [V L1]. cbn [fst snd] in *. destruct ((0 =? 0) && _); [now apply hoare_ret|].
      destruct (_ <? e).
      + apply hoare_lift_bind. intros y Ey. assert (Py : pos_vec y).
        { destruct Pu as [P1 P2]. destruct V as [V1 V2]. rewrite vec_sub_ok in Ey by lia. injection Ey as <-. split.
          - rewrite (vsub_length _ _ N); lia.
          - apply nonneg_iff. intros j Hj. rewrite vsub_nth by lia. rewrite (vsub_length _ _ N) in Hj by lia. specialize (V2 j ltac:(lia)). lia. }
        destruct (vfind y (fst st)).
        * apply hoare_lift_bind. intros S _. apply hoare_ret. now apply good_vinsert.
        * apply hoare_ret. now apply good_vinsert.
      + apply hoare_ask_bind. intros M EM. split; [cbn in *; eapply incl_cov; eauto|].
        do 2 (apply hoare_lift_bind; intros ? ?). now apply hoare_ret.
  Qed.

  Definition good_poly (P : poly) : Prop := forall u c, In (u, c) P -> pos_vec u.
  Lemma frob_add_keys dictV ei c fact P : good_poly P -> pos_vec ei ->
    forall H H', good_keys H -> frob_add D dictV ei c fact P H = OK H' -> good_keys H'.
  Proof.
    intros GP [L1 L2]. unfold frob_add. induction P as [|[u x] P IH]; intros H H' GH E; cbn [foldM] in E; [now injection E as <-|].
    apply bind_ok in E. destruct E as (H1 & E1 & E). eapply (IH (fun u c I => GP u c (or_intror I))); [|exact E].
    cbn [fst snd] in E1. destruct (GP u x (or_introl eq_refl)) as [U1 U2].
    rewrite vec_add_ok in E1 by lia. cbn [bind] in E1.
    rewrite vec_add_ok in E1 by (rewrite (vadd_length u ei N) by lia; unfold ones_vec; now rewrite repeat_length).
    cbn [bind] in E1. do 4 (apply bind_ok in E1; destruct E1 as (? & _ & E1)). injection E1 as <-.
    apply good_vinsert; auto. unfold ones_vec. split.
    - rewrite (vadd_length _ _ N); auto; [apply vadd_length; lia|]. now rewrite repeat_length.
    - apply nonneg_vadd; [now apply nonneg_vadd|]. apply nonneg_iff. intros i Hi. rewrite nth_repeat_any. destruct (Nat.ltb _ _); lia.
  Qed.

  Hypothesis HT : forall P, In P T -> good_poly P.

  Lemma frob_loop_cov loop dj dictV ei m k : pos_vec ei -> forall st, good_keys (fst (fst st)) ->
    hr (frob_loop_p D 0 loop dj dictV ei m T k st) (fun _ => True).
  Proof.
    intros He. induction k as [|k IH]; intros [[H L] fact] GH; [now apply hoare_ret|]. cbn [frob_loop_p]. cbn [fst] in GH.
    apply hoare_lift_bind. intros H1 E1.
    assert (G1 : good_keys H1).
    { destruct (m <=? _); [|now injection E1 as <-]. apply bind_ok in E1. destruct E1 as (c & _ & E1).
      apply bind_ok in E1. destruct E1 as (P & EP & E1). eapply frob_add_keys; [| |exact GH|exact E1]; auto.
      apply HT. unfold get_at in EP. destruct (_ <? 0); [discriminate|]. destruct (nth_error T _) eqn:X; [|discriminate].
      injection EP as <-. eapply nth_error_In; eauto. }
    eapply hoare_bind; [now apply frob_pass_cov|]. intros HL GHL. now apply IH.
  Qed.

  Lemma frob_low_cov dj ei m M e : r_p D * Z.of_nat e <= Z.of_nat (r_n D) -> forall st,
    hr (frob_low_prog D dj ei m M T e st) (fun _ => True).
  Proof.
    induction e as [|e IH]; intros He [F fact]; [now apply hoare_ret|]. cbn [frob_low_prog].
    apply hoare_lift_bind. intros ? _. eapply (hoare_bind _ _ _ _ (fun _ => True)).
    - destruct (m <=? _); [|now apply hoare_ret]. do 2 (apply hoare_lift_bind; intros ? _). unfold frob_low_terms_p.
      do 3 (apply hoare_lift_bind; intros ? _). apply hoare_ask_bind. intros M' _. split; [cbn; lia|].
      apply hoare_lift_bind. intros ? _. now apply hoare_lift.
    - intros F1 _. apply IH. nia.
  Qed.

  Hypothesis Hb : forall b, In b (r_basis D) -> pos_vec b.

  Lemma frob_J_ZZ_cov i M loop : M <= zlen T -> hr (frob_J_ZZ_prog D i M loop) (fun _ => True).
  Proof.
    intros HM. unfold frob_J_ZZ_prog. apply hoare_lift_bind. intros ei Ee.
    assert (Pe : pos_vec ei).
    { apply Hb. unfold get_at in Ee. destruct (_ <? 0); [discriminate|]. destruct (nth_error (r_basis D) _) eqn:X; [|discriminate].
      injection Ee as <-. eapply nth_error_In; eauto. }
    apply hoare_lift_bind. intros ? _. apply hoare_ask_bind. intros fp Ef. split; [cbn; lia|].
    cbn [value] in Ef. unfold compute_fpow in Ef. destruct (Z.leb_spec (zlen T) (M - 1)); [lia|]. injection Ef as <-.
    eapply (hoare_bind _ _ _ _ (fun _ => True)).
    - unfold frob_high_p. do 3 (apply hoare_lift_bind; intros ? _).
      eapply hoare_bind; [apply frob_loop_cov; auto; intros ? ? []|]. intros st _.
      apply hoare_ask_bind. intros M' _. split; [cbn; lia|]. apply hoare_lift_bind. intros ? _. now apply hoare_ret.
    - intros Ff _. eapply hoare_bind; [|intros Ff' _; now apply hoare_lift].
      apply frob_low_cov. rewrite Z2Nat.id by (apply Z.div_pos; lia). apply Z.mul_div_le. lia.
  Qed.

  Lemma frob_row_cov NN i : (forall x, In x NN -> x <= zlen T) -> ok_req h cov (frob_row_p D NN i).
  Proof.
    intros HN. apply (proj1 (A := ok_req h cov (frob_row_p D NN i)) (B := forall a, run h (frob_row_p D NN i) = OK a -> True)).
    unfold frob_row_p. apply hoare_lift_bind. intros Nm EN.
    destruct (0 <? Nm); [|now apply hoare_ret]. apply frob_J_ZZ_cov. apply HN.
    unfold get_at in EN. destruct (_ <? 0); [discriminate|]. destruct (nth_error NN _) eqn:X; [|discriminate].
    injection EN as <-. eapply nth_error_In; eauto.
  Qed.
End COVER.
