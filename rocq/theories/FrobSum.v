(** Proofs about the Frobenius routines: the accumulated sum of all terms. *)
From Coq Require Import ZArith List Lia Bool.
From Verif Require Import Base VecModel VecSpec VecProofs ToolsModel ToolsSpec ToolsProofs PolyProofs
  MatModel MatProofs DRModel DRSpec DRProofs DRRed DRStep DRFinal DRPath FrobModel FrobSpec FrobPath FrobProofs.
Import ListNotations.
Open Scope Z_scope.

Lemma sumf_vinsert {V} N (F : vec * V -> Z) (m : vmap V) k x : vsorted N m -> length k = N ->
  sumf F (vinsert k x m) = sumf F m - (match vfind k m with Some o => F (k, o) | None => 0 end) + F (k, x).
Proof.
  intros Hs Hk. induction Hs as [|k' v' m D M IH L].
  - unfold vinsert, vfind. cbn [minsert mfind]. rewrite sumf_cons, sumf_nil. lia.
  - unfold vinsert, vfind in *. cbn [minsert mfind].
    destruct (vltb k k') eqn:E1; [rewrite !sumf_cons; lia|].
    destruct (vltb k' k) eqn:E2.
    + rewrite !sumf_cons, IH. lia.
    + assert (k = k') by (eapply vltb_total; eauto). subst k'. rewrite !sumf_cons. lia.
Qed.

Lemma vfind_none_In {V} N (m : vmap V) k : vsorted N m -> length k = N -> vfind k m = None -> forall v, ~ In (k, v) m.
Proof. intros H1 H2 H3 v H4. apply (vfind_In N) in H4; auto. congruence. Qed.

Lemma ev_zero phi m u ms k : ev phi m u ms (repeat 0 k) = 0.
Proof.
  unfold ev. apply sumf_zero. intros c _. rewrite nth_repeat_any. destruct (Nat.ltb c k); ring.
Qed.
Lemma ev_poly_zero phi m ms k : ev_poly phi m ms (repeat 0 k) = 0.
Proof.
  unfold ev_poly. apply sumf_zero. intros c _. rewrite nth_repeat_any. destruct (Nat.ltb c k); ring.
Qed.

Lemma ev_add q phi m u ms v w x : lvec_add q v w = OK x -> length v = length ms -> length w = length ms ->
  cong q (ev phi m u ms x) (ev phi m u ms v + ev phi m u ms w) /\ length x = length ms.
Proof.
  intros H H1 H2. destruct (lvec_add_ok q v w) as (y & E1 & E2 & E3); [congruence|].
  rewrite H in E1. injection E1 as <-. split; [|lia]. unfold ev. rewrite <- sumf_plus.
  apply cong_sumf. intros c Hc. apply in_seq in Hc. rewrite E3 by lia. rewrite cong_mod.
  apply cong_of_eq. ring.
Qed.
Lemma ev_poly_add q phi m ms v w x : lvec_add q v w = OK x -> length v = length ms -> length w = length ms ->
  cong q (ev_poly phi m ms x) (ev_poly phi m ms v + ev_poly phi m ms w) /\ length x = length ms.
Proof.
  intros H H1 H2. destruct (lvec_add_ok q v w) as (y & E1 & E2 & E3); [congruence|].
  rewrite H in E1. injection E1 as <-. split; [|lia]. unfold ev_poly. rewrite <- sumf_plus.
  apply cong_sumf. intros c Hc. apply in_seq in Hc. rewrite E3 by lia. rewrite cong_mod.
  apply cong_of_eq. ring.
Qed.
Lemma ev_basis_add q psi bs v w x : lvec_add q v w = OK x -> length v = length bs -> length w = length bs ->
  cong q (ev_basis psi bs x) (ev_basis psi bs v + ev_basis psi bs w) /\ length x = length bs.
Proof.
  intros H H1 H2. destruct (lvec_add_ok q v w) as (y & E1 & E2 & E3); [congruence|].
  rewrite H in E1. injection E1 as <-. split; [|lia]. unfold ev_basis. rewrite <- sumf_plus.
  apply cong_sumf. intros c Hc. apply in_seq in Hc. rewrite E3 by lia. rewrite cong_mod.
  apply cong_of_eq. ring.
Qed.
Lemma lvec_add_total q v w : length v = length w -> exists x, lvec_add q v w = OK x.
Proof. intros H. destruct (lvec_add_ok q v w H) as (x & E & _). eauto. Qed.

Lemma all_zero_ev q phi m u ms G : all_zero q G = true -> cong q (ev phi m u ms G) 0.
Proof.
  intros H. unfold all_zero in H. rewrite forallb_forall in H. unfold ev.
  transitivity (sumf (fun _ : nat => 0) (seq 0 (length ms))); [|rewrite sumf_zero by auto; reflexivity].
  apply cong_sumf. intros c _. destruct (Nat.lt_ge_cases c (length G)) as [L|L].
  - specialize (H (nth c G 0) (nth_In _ _ L)). apply Z.eqb_eq in H. rewrite <- (cong_mod q (nth c G 0)), H.
    apply cong_of_eq. ring.
  - rewrite nth_overflow by lia. apply cong_of_eq. ring.
Qed.

Lemma factorial_range q n start : 2 <= q -> 0 <= factorial q n start < q.
Proof.
  intros Hq. unfold factorial. assert (G : forall l a, 0 <= a < q -> 0 <= fold_left (fun r i => (r * i) mod q) l a < q).
  { induction l as [|x l IH]; intros a Ha; cbn [fold_left]; auto. apply IH. apply Z.mod_pos_bound. lia. }
  apply G. apply Z.mod_pos_bound. lia.
Qed.

(** one term of the series, and the series, for a given table of powers *)
Definition frob_term (phi : Z -> list Z -> Z) (p m N : Z) (b : list Z) (g : list (list Z * Z)) (j : Z) : Z :=
  D_coef m N j * zprod (zseq (p * (m + j)) (p * (m + N - 1))) *
  sumf (fun t => snd t * phi (p * (m + j)) (frob_mono p b (fst t))) g.
Definition tab_series (phi : Z -> list Z -> Z) (p m N : Z) (b : list Z) (gs : list (list (list Z * Z))) : Z :=
  sumf (fun j => frob_term phi p m N b (nth (Z.to_nat j) gs []) j) (zseq 0 N).

Section SUM.
  Variables (slv : solver) (D : dR).
  Hypothesis inv : dr_inv slv D.
  Hypothesis Hslv : solver_ok (r_q D) slv.
  Notation n := (r_n D).
  Notation d := (r_d D).
  Notation p := (r_p D).
  Notation q := (r_q D).
  Notation zn := (Z.of_nat (r_n D)).
  Notation E l := (enum (S n) (Z.to_nat l)).
  Notation bas := (r_basis D).
  Notation LG := (E (degG D)).
  Notation LH := (E (degG D - 1)).
  Notation g := (length LG).
  Notation tau x := (tweak_closed x (degG D)).
  Hypothesis Hp : 2 <= p.
  Hypothesis Hq : 2 <= q.
  Hypothesis Hn : (1 <= n)%nat.
  Variables (ei : vec) (m N : Z).
  Hypothesis Hei : is_tuple (S n) (d * m - (zn + 1)) ei.
  Hypothesis Hm : 1 <= m.
  Hypothesis HN : 1 <= N.
  (** the powers of f *)
  Variable fpow : list poly.
  Hypothesis Hfl : N <= zlen fpow.
  Hypothesis Hfk : forall j P, nth_error fpow j = Some P ->
    forall u c, In (u, c) P -> is_tuple (S n) (d * Z.of_nat j) u.

  Definition Hval (phi : Z -> list Z -> Z) (e : Z) (H : vmap (list Z)) : Z :=
    sumf (fun uG => ev phi (p * e) (tau (vscale p (fst uG))) LG (snd uG)) H.
  Definition Hok (e : Z) (H : vmap (list Z)) : Prop :=
    vsorted (S n) H /\ forall u G, In (u, G) H -> is_tuple (S n) (d * e) u /\ length G = g.

  Lemma Hok_nil e : Hok e [].
  Proof. split; [apply vsorted_nil|]. intros u G []. Qed.

  Lemma dictG_at : get_at (r_td D) (degG D) = OK (tuple_index LG).
  Proof. apply (inv_td _ _ inv). pose proof (inv_nd _ _ inv). unfold degG. nia. Qed.
  Lemma dictG_len : length (tuple_index LG) = g.
  Proof. apply (tuple_index_length (S n)); [intros t; apply enum_len|apply enum_NoDup]. Qed.

  Notation ones := (ones_vec n).
  Lemma ones_len : length ones = S n. Proof. apply repeat_length. Qed.
  Lemma ones_nth k : (k <= n)%nat -> nth k ones 0 = 1.
  Proof. intros H. unfold ones_vec. rewrite nth_repeat_any. destruct (Nat.ltb_spec k (S n)); [auto|lia]. Qed.
  Lemma ones_tuple : is_tuple (S n) (zn + 1) ones.
  Proof.
    split; [apply ones_len|]. split.
    - apply nonneg_iff. rewrite ones_len. intros i Hi. rewrite ones_nth by lia. lia.
    - unfold ones_vec. rewrite zsum_repeat1. lia.
  Qed.

  (** u + ei + ones *)
  Lemma mono_tuple j u : is_tuple (S n) (d * j) u -> is_tuple (S n) (d * (m + j)) (vadd (vadd u ei) ones).
  Proof.
    intros Hu. replace (d * (m + j)) with (d * j + (d * m - (zn + 1)) + (zn + 1)) by ring.
    apply tuple_vadd; [|apply ones_tuple]. now apply tuple_vadd.
  Qed.
  Lemma mono_pos j u k : is_tuple (S n) (d * j) u -> (k <= n)%nat -> 0 < nth k (vadd (vadd u ei) ones) 0.
  Proof.
    intros (Lu & Nu & _) Hk. destruct Hei as (Le & Ne & _).
    rewrite vadd_nth by (rewrite ones_len; apply vadd_length; auto). rewrite vadd_nth by congruence.
    rewrite ones_nth by auto. pose proof (nonneg_nth u k Nu). pose proof (nonneg_nth ei k Ne). lia.
  Qed.
  Lemma mono_frob j u : is_tuple (S n) (d * j) u -> epred (vscale p (vadd (vadd u ei) ones)) = frob_mono p ei u.
  Proof.
    intros (Lu & _). destruct Hei as (Le & _). unfold frob_mono. rewrite eplus_vadd.
    assert (L : length (vadd u ei) = S n) by (apply vadd_length; auto).
    assert (L2 : length (vadd (vadd u ei) ones) = S n) by (apply vadd_length; auto; apply ones_len).
    apply vec_ext. { now rewrite epred_length, vscale_length, map_length, L, L2. }
    intros i Hi. rewrite epred_length, vscale_length, L2 in Hi. rewrite epred_nth by (rewrite vscale_length; lia).
    rewrite vscale_nth. rewrite (nth_map_lt (fun x => p * (x + 1) - 1) _ _ _ 0) by lia.
    rewrite (vadd_nth _ ones) by (rewrite ones_len; auto). rewrite ones_nth by lia. ring.
  Qed.

  Lemma pe_gt_n e : zn / p < e -> zn < p * e.
  Proof. intros H. pose proof (Z.div_mod zn p ltac:(lia)). pose proof (Z.mod_pos_bound zn p ltac:(lia)). nia. Qed.

  (** adding the terms of f^j *)
  Lemma frob_add_ok e c fact P : zn / p < e ->
    (forall u x, In (u, x) P -> is_tuple (S n) (d * (e - m)) u) ->
    forall H, Hok e H -> exists H', frob_add D (tuple_index LG) ei c fact P H = OK H' /\ Hok e H' /\
      forall phi, cong q (Hval phi e H')
        (Hval phi e H + c * fact * sumf (fun t => snd t * phi (p * e) (frob_mono p ei (fst t))) P).
  Proof.
    intros He. pose proof (pe_gt_n e He) as Hpe. pose proof (inv_nd _ _ inv) as ND.
    pose proof (degG_nonneg slv D inv) as Gn.
    induction P as [|[u x] P IH]; intros HP H HH.
    - exists H. split; [reflexivity|]. split; auto. intros phi. rewrite sumf_nil. apply cong_of_eq. ring.
    - assert (Hu : is_tuple (S n) (d * (e - m)) u) by (apply (HP u x); now left).
      pose proof Hu as (Lu & _). pose proof Hei as (Le & _). pose proof ones_len as Lo.
      pose proof (mono_tuple _ _ Hu) as Hmono. pose proof (mono_pos (e - m) u) as Hpos.
      pose proof (mono_frob _ _ Hu) as Hfr.
      unfold frob_add. cbn [foldM fst snd]. rewrite vec_add_ok by congruence. cbn [bind].
      rewrite vec_add_ok by (rewrite Lo; apply vadd_length; auto). cbn [bind].
      set (mono := vadd (vadd u ei) ones) in *. replace (m + (e - m)) with e in Hmono by ring.
      pose proof Hmono as (Lm & Nm & Sm).
      assert (Npm : nonneg (vscale p mono)).
      { apply nonneg_iff. intros k _. rewrite vscale_nth. pose proof (nonneg_nth mono k Nm). nia. }
      rewrite tweak_eq by auto. cbn [bind].
      assert (Lt : length (tau (vscale p mono)) = S n) by (rewrite tweak_closed_length, vscale_length; auto).
      rewrite vec_sub_ok by (rewrite Lt, vscale_length; auto). cbn [bind].
      set (s := vsub (vscale p mono) (tau (vscale p mono))).
      assert (Hs : is_tuple (S n) (degG D) s).
      { split; [apply vsub_length; auto; now rewrite vscale_length|]. split.
        - apply nonneg_iff. intros k _. unfold s. rewrite vsub_nth by (rewrite Lt, vscale_length; auto).
          pose proof (tweak_closed_le (vscale p mono) (degG D) k Npm Gn). lia.
        - unfold s. rewrite zsum_vsub by (rewrite Lt, vscale_length; auto).
          rewrite tweak_closed_sum; auto; rewrite zsum_vscale, Sm; [ring|]. unfold degG. nia. }
      rewrite <- (Z2Nat.id (degG D)) in Hs by auto.
      destruct (pos_ok _ _ _ Hs) as (J1 & J2 & J3). rewrite J1. cbn [bind].
      set (j := pos n (Z.to_nat (degG D)) s) in *.
      set (G := match vfind mono H with Some G => G | None => repeat 0 (length (tuple_index LG)) end).
      destruct HH as [HH1 HH2].
      assert (LG0 : length G = g).
      { unfold G. destruct (vfind mono H) as [G0|] eqn:F.
        - apply (vfind_In (S n)) in F; auto. apply HH2 in F. apply F.
        - rewrite repeat_length. apply dictG_len. }
      rewrite LG0. destruct (Nat.ltb_spec j g); [|lia]. cbn [check bind].
      set (xx := (c * x * fact) mod q).
      set (G' := vadd_all q [(j, xx)] G).
      assert (LG' : length G' = g) by (unfold G'; now rewrite vadd_all_length).
      assert (HH' : Hok e (vinsert mono G' H)).
      { split; [apply vinsert_sorted; auto|]. intros u' G'' I. apply (vinsert_In (S n)) in I; auto.
        destruct I as [[-> ->]|[_ I]]; auto. }
      destruct (IH (fun u' x' I => HP u' x' (or_intror I)) _ HH') as (H' & F1 & F2 & F3).
      exists H'. split; [exact F1|]. split; auto. intros phi. rewrite F3, sumf_cons. cbn [fst snd].
      assert (V : cong q (Hval phi e (vinsert mono G' H)) (Hval phi e H + c * fact * (x * phi (p * e) (frob_mono p ei u)))).
      { unfold Hval. rewrite (sumf_vinsert (S n)) by auto. cbn [fst snd].
        assert (W : cong q (ev phi (p * e) (tau (vscale p mono)) LG G')
           (ev phi (p * e) (tau (vscale p mono)) LG G + c * fact * (x * phi (p * e) (frob_mono p ei u)))).
        { unfold ev, G'. pose proof (vadd_all_wsum q [(j, xx)] G (fun c => phi_div phi (p * e) (eplus (tau (vscale p mono)) (nth c LG [])))) as W.
          rewrite LG0 in W.
          rewrite (sumf_ext _ (fun i => phi_div phi (p * e) (eplus (tau (vscale p mono)) (nth i LG [])) * nth i (vadd_all q [(j, xx)] G) 0)) by (intros; ring).
          rewrite W. { rewrite sumf_cons, sumf_nil. cbn [fst snd]. rewrite J3.
            replace (eplus (tau (vscale p mono)) s) with (vscale p mono).
            - unfold phi_div. replace (positive (vscale p mono)) with true.
              + rewrite Hfr. unfold xx. rewrite cong_mod. apply cong_of_eq.
                rewrite (sumf_ext (fun i => phi_div phi (p * e) (eplus (tau (vscale p mono)) (nth i LG [])) * nth i G 0)
                  (fun c0 => nth c0 G 0 * phi_div phi (p * e) (eplus (tau (vscale p mono)) (nth c0 LG [])))) by (intros; ring).
                unfold phi_div. ring.
              + symmetry. apply positive_iff. rewrite vscale_length, Lm. intros k Hk. rewrite vscale_nth.
                specialize (Hpos k Hu ltac:(lia)). fold mono in Hpos. nia.
            - rewrite eplus_vadd. apply vec_ext.
              + rewrite vscale_length. symmetry. rewrite Lm. apply vadd_length; auto. apply Hs.
              + intros k _. unfold s. rewrite vadd_nth, vsub_nth; [lia| |]; rewrite Lt; [rewrite vscale_length; auto|]. symmetry. apply Hs. }
          intros i y [I|[]]. injection I as <- <-. lia. }
        rewrite W. unfold G. destruct (vfind mono H) as [G0|]; [apply cong_of_eq; ring|].
        rewrite ev_zero. apply cong_of_eq; ring. }
      rewrite V. apply cong_of_eq. ring.
  Qed.

  Lemma vsub_scale h v : length h = length v -> vsub (vscale p h) (vscale p v) = vscale p (vsub h v).
  Proof.
    intros H. apply vec_ext.
    - rewrite vscale_length, !(vsub_length _ _ (length h)); auto; now rewrite ?vscale_length.
    - intros k _. rewrite vsub_nth, !vscale_nth, vsub_nth by (rewrite ?vscale_length; auto). ring.
  Qed.

  (** a pass that stays above pole order n *)
  Lemma pass_high r loop e H Hlast : (q | r) -> (loop <= 2)%nat -> zn / p + 1 < e -> Hok e H ->
    exists H', frob_pass slv D r loop e H Hlast = OK (H', Hlast) /\ Hok (e - 1) H' /\
      forall phi, GD q n d (r_f D) phi -> cong q (Hval phi (e - 1) H') (Hval phi e H).
  Proof.
    intros Hr Hloop He [_ HH]. pose proof (pe_gt_n (e - 1) ltac:(lia)) as Hpe.
    pose proof (Z.div_pos zn p ltac:(lia) ltac:(lia)) as Hnp.
    unfold frob_pass. replace (zn / p + 1 <? e) with true by (symmetry; apply Z.ltb_lt; lia).
    assert (G : forall L H0, (forall u G, In (u, G) L -> is_tuple (S n) (d * e) u /\ length G = g) -> Hok (e - 1) H0 ->
      exists H', foldM (fun (st : vmap vec * list Z) (uG : vec * list Z) =>
        vdG <- frob_entry slv D r loop p (fst uG) (snd uG) ;;
        (if (r =? 0) && all_zero q (snd vdG) then OK st
         else y <- vec_sub (fst uG) (fst (fst vdG)) ;;
          match vfind y (fst st) with
          | None => OK (vinsert y (snd vdG) (fst st), snd st)
          | Some G0 => S <- lvec_add q G0 (snd vdG) ;; OK (vinsert y S (fst st), snd st)
          end)) L (H0, Hlast) = OK (H', Hlast) /\ Hok (e - 1) H' /\
      forall phi, GD q n d (r_f D) phi -> cong q (Hval phi (e - 1) H') (Hval phi (e - 1) H0 + Hval phi e L)).
    { induction L as [|[u G] L IH]; intros H0 HL [S0 K0].
      - exists H0. split; [reflexivity|]. split; [split; auto|]. intros phi _. unfold Hval at 3. rewrite sumf_nil. apply cong_of_eq. ring.
      - cbn [foldM fst snd]. destruct (HL u G (or_introl eq_refl)) as [Tu LGu].
        destruct (entry_ok slv D inv Hslv Hp r loop p e u G Hr Hloop Tu) as (v & G' & F1 & F2 & F3 & F4 & F5); try lia; auto.
        rewrite F1. cbn [bind fst snd].
        pose proof F2 as (Lv & Sv & _). assert (Lu : length u = S n) by apply Tu.
        rewrite vsub_scale in * by congruence. replace (p * e - p) with (p * (e - 1)) in * by ring.
        destruct ((r =? 0) && all_zero q G') eqn:Z0.
        + apply andb_true_iff in Z0. destruct Z0 as [_ Z0].
          destruct (IH H0 (fun u' G'' I => HL u' G'' (or_intror I)) (conj S0 K0)) as (H' & E1 & E2 & E3).
          exists H'. split; [exact E1|]. split; auto. intros phi Hphi. rewrite (E3 phi Hphi).
          unfold Hval at 4. rewrite sumf_cons. fold (Hval phi e L). cbn [fst snd]. rewrite <- (F5 phi Hphi).
          rewrite (all_zero_ev q phi _ _ _ G' Z0). apply cong_of_eq. ring.
        + rewrite vec_sub_ok by congruence. cbn [bind].
          assert (Ly : length (vsub u v) = S n) by (apply vsub_length; congruence).
          assert (Ty : is_tuple (S n) (d * (e - 1)) (vsub u v)).
          { split; auto. split.
            - apply nonneg_iff. intros k _. rewrite vsub_nth by congruence.
              pose proof (dir_at D u v F2 k). lia.
            - rewrite zsum_vsub by congruence. rewrite Sv. destruct Tu as (_ & _ & ->). ring. }
          assert (STEP : forall S, length S = g ->
            (forall phi, GD q n d (r_f D) phi -> cong q (ev phi (p * (e - 1)) (tau (vscale p (vsub u v))) LG S)
               (match vfind (vsub u v) H0 with Some G0 => ev phi (p * (e - 1)) (tau (vscale p (vsub u v))) LG G0 | None => 0 end
                + ev phi (p * (e - 1)) (tau (vscale p (vsub u v))) LG G')) ->
            Hok (e - 1) (vinsert (vsub u v) S H0) /\
            forall phi, GD q n d (r_f D) phi -> cong q (Hval phi (e - 1) (vinsert (vsub u v) S H0))
              (Hval phi (e - 1) H0 + ev phi (p * e) (tau (vscale p u)) LG G)).
          { intros S LS HS. split.
            - split; [apply vinsert_sorted; auto|]. intros u' G'' I. apply (vinsert_In (Datatypes.S n)) in I; auto.
              destruct I as [[-> ->]|[_ I]]; auto.
            - intros phi Hphi. unfold Hval. rewrite (sumf_vinsert (Datatypes.S n)) by auto. cbn [fst snd].
              rewrite (HS phi Hphi), (F5 phi Hphi). destruct (vfind (vsub u v) H0); apply cong_of_eq; ring. }
          assert (FIN : forall H1, (Hok (e - 1) H1 /\ forall phi, GD q n d (r_f D) phi -> cong q (Hval phi (e - 1) H1)
              (Hval phi (e - 1) H0 + ev phi (p * e) (tau (vscale p u)) LG G)) ->
            exists H', foldM (fun (st : vmap vec * list Z) (uG : vec * list Z) =>
        vdG <- frob_entry slv D r loop p (fst uG) (snd uG) ;;
        (if (r =? 0) && all_zero q (snd vdG) then OK st
         else y <- vec_sub (fst uG) (fst (fst vdG)) ;;
          match vfind y (fst st) with
          | None => OK (vinsert y (snd vdG) (fst st), snd st)
          | Some G0 => S <- lvec_add q G0 (snd vdG) ;; OK (vinsert y S (fst st), snd st)
          end)) L (H1, Hlast) = OK (H', Hlast) /\ Hok (e - 1) H' /\
            forall phi, GD q n d (r_f D) phi -> cong q (Hval phi (e - 1) H') (Hval phi (e - 1) H0 + Hval phi e ((u, G) :: L))).
          { intros H1 [K1 V1]. destruct (IH H1 (fun u' G'' I => HL u' G'' (or_intror I)) K1) as (H' & E1 & E2 & E3).
            exists H'. split; [exact E1|]. split; auto. intros phi Hphi. rewrite (E3 phi Hphi), (V1 phi Hphi).
            unfold Hval at 4. rewrite sumf_cons. fold (Hval phi e L). cbn [fst snd]. apply cong_of_eq. ring. }
          destruct (vfind (vsub u v) H0) as [G0|] eqn:FD.
          * assert (LG0 : length G0 = g).
            { apply (vfind_In (S n)) in FD; auto. apply K0 in FD. apply FD. }
            destruct (lvec_add_total q G0 G') as (X & EX); [congruence|]. rewrite EX. cbn [bind].
            apply FIN. apply STEP.
            { apply (ev_add q (fun _ _ => 0) 0 [] LG G0 G' X EX LG0 F4). }
            intros phi _. apply (ev_add q phi _ _ LG G0 G' X EX LG0 F4).
          * apply FIN. apply STEP; auto. intros phi _. apply cong_of_eq. ring. }
    destruct (G H [] HH (Hok_nil _)) as (H' & E1 & E2 & E3). exists H'. split; [exact E1|]. split; auto.
  Qed.

  (** the last pass, down to pole order n *)
  Lemma pass_last r loop H Hlast : let e := zn / p + 1 in
    (q | r) -> (loop <= 2)%nat -> Hok e H -> length Hlast = length LH ->
    exists L', frob_pass slv D r loop e H Hlast = OK ([], L') /\ length L' = length LH /\
      forall phi, GD q n d (r_f D) phi ->
        cong q (ev_poly phi zn LH L') (ev_poly phi zn LH Hlast + Hval phi e H).
  Proof.
    intros e Hr Hloop [_ HH] HL0. pose proof (pe_gt_n e ltac:(lia)) as Hpe.
    pose proof (Z.div_pos zn p ltac:(lia) ltac:(lia)) as Hnp. pose proof (inv_nd _ _ inv) as ND.
    pose proof (Z.div_mod zn p ltac:(lia)) as DM. pose proof (Z.mod_pos_bound zn p ltac:(lia)) as MB.
    assert (Pe : p * e - (p - zn mod p) = zn) by (unfold e; lia).
    unfold frob_pass. replace (zn / p + 1 <? e) with false by (symmetry; apply Z.ltb_ge; unfold e; lia).
    revert Hlast HL0.
    assert (G : forall L, (forall u G, In (u, G) L -> is_tuple (S n) (d * e) u /\ length G = g) ->
      forall Hlast, length Hlast = length LH ->
      exists L', foldM (fun (st : vmap vec * list Z) (uG : vec * list Z) =>
        vdG <- frob_entry slv D r loop (p - zn mod p) (fst uG) (snd uG) ;;
        (if (r =? 0) && all_zero q (snd vdG) then OK st
         else M <- get_inclusion_matrix_J D (snd (fst vdG)) ;;
          G1 <- mat_vec q M (snd vdG) ;;
          L <- lvec_add q (snd st) G1 ;; OK (fst st, L))) L ([], Hlast) = OK ([], L') /\ length L' = length LH /\
      forall phi, GD q n d (r_f D) phi -> cong q (ev_poly phi zn LH L') (ev_poly phi zn LH Hlast + Hval phi e L)).
    { induction L as [|[u G] L IH]; intros HL Hlast LL.
      - exists Hlast. split; [reflexivity|]. split; auto. intros phi _. unfold Hval. rewrite sumf_nil. apply cong_of_eq. ring.
      - cbn [foldM fst snd]. destruct (HL u G (or_introl eq_refl)) as [Tu LGu].
        destruct (entry_ok slv D inv Hslv Hp r loop (p - zn mod p) e u G Hr Hloop Tu) as (v & G' & F1 & F2 & F3 & F4 & F5);
          try lia; auto.
        rewrite F1. cbn [bind fst snd].
        set (dest := tau (vsub (vscale p u) (vscale (p - zn mod p) v))) in *. rewrite Pe in *.
        destruct ((r =? 0) && all_zero q G') eqn:Z0.
        + apply andb_true_iff in Z0. destruct Z0 as [_ Z0].
          destruct (IH (fun u' G'' I => HL u' G'' (or_intror I)) Hlast LL) as (L' & E1 & E2 & E3).
          exists L'. split; [exact E1|]. split; auto. intros phi Hphi. rewrite (E3 phi Hphi).
          unfold Hval at 2. rewrite sumf_cons. fold (Hval phi e L). cbn [fst snd]. rewrite <- (F5 phi Hphi).
          rewrite (all_zero_ev q phi _ _ _ G' Z0). apply cong_of_eq. ring.
        + assert (Sd : zsum dest = zn) by (destruct F3 as (_ & _ & ->); unfold degG; ring).
          destruct (inclusion_class slv D inv Hn dest (proj1 F3) Sd (fun _ _ => 0) G' F4) as (M & w & I1 & I2 & I3 & I4 & _).
          rewrite I1. cbn [bind]. rewrite I3. cbn [bind].
          destruct (lvec_add_total q Hlast w) as (X & EX); [congruence|]. rewrite EX. cbn [bind].
          destruct (IH (fun u' G'' I => HL u' G'' (or_intror I)) X) as (L' & E1 & E2 & E3).
          { apply (ev_poly_add q (fun _ _ => 0) 0 LH Hlast w X EX LL I4). }
          exists L'. split; [exact E1|]. split; auto. intros phi Hphi. rewrite (E3 phi Hphi).
          unfold Hval at 2. rewrite sumf_cons. fold (Hval phi e L). cbn [fst snd]. rewrite <- (F5 phi Hphi).
          rewrite (proj1 (ev_poly_add q phi zn LH Hlast w X EX LL I4)).
          destruct (inclusion_class slv D inv Hn dest (proj1 F3) Sd phi G' F4) as (M' & w' & I1' & _ & I3' & _ & I5').
          rewrite I1 in I1'. injection I1' as <-. rewrite I3 in I3'. injection I3' as <-.
          rewrite I5'. apply cong_of_eq. ring. }
    apply G. exact HH.
  Qed.

  (** * the running product of pole orders *)
  Notation PP := (p * (m + N - 1)).
  Definition fact_ok (e fact : Z) : Prop := 0 <= fact < q /\ cong q fact (zprod (zseq (Z.max 1 (p * e)) PP)).

  Lemma frob_fact_ok e fact : 1 <= e <= m + N - 1 -> fact_ok e fact -> fact_ok (e - 1) (frob_fact q p e fact).
  Proof.
    intros He [H1 H2]. unfold frob_fact.
    assert (G : forall k : nat, Z.of_nat k < p * e -> forall a, 0 <= a < q -> cong q a (zprod (zseq (p * e) PP)) ->
      let r := fold_left (fun a i => (a * (p * e - i - 1)) mod q) (zseq 0 (Z.of_nat k)) a in
      0 <= r < q /\ cong q r (zprod (zseq (p * e - Z.of_nat k) PP))).
    { induction k as [|k IH]; intros Hk a Ha Hc.
      - cbn. split; auto. replace (p * e - 0) with (p * e) by ring. exact Hc.
      - destruct (IH ltac:(lia) a Ha Hc) as [I1 I2]. rewrite Nat2Z.inj_succ, <- Z.add_1_r, zseq_snoc by lia.
        rewrite fold_left_app. cbn [fold_left]. split; [apply Z.mod_pos_bound; lia|].
        rewrite cong_mod, I2. rewrite (zseq_cons (p * e - (Z.of_nat k + 1))) by nia. cbn [zprod].
        apply cong_of_eq. replace (p * e - (Z.of_nat k + 1) + 1) with (p * e - Z.of_nat k) by ring. ring. }
    rewrite Z.max_r in H2 by nia.
    destruct (Z.ltb_spec 1 e) as [L|L].
    - specialize (G (Z.to_nat p)). rewrite Z2Nat.id in G by lia. destruct (G ltac:(nia) fact H1 H2) as [G1 G2].
      split; auto. rewrite Z.max_r by nia. replace (p * (e - 1)) with (p * e - p) by ring. exact G2.
    - assert (e = 1) by lia. subst e. specialize (G (Z.to_nat (p - 1))). rewrite Z2Nat.id in G by lia.
      destruct (G ltac:(nia) fact H1 H2) as [G1 G2]. split; auto.
      rewrite Z.max_l by nia. replace (p * 1 - (p - 1)) with 1 in G2 by ring. exact G2.
  Qed.

  Lemma fact_init : fact_ok (m + N - 1) (1 mod q).
  Proof.
    split; [apply Z.mod_pos_bound; lia|]. rewrite cong_mod, zseq_nil by nia. reflexivity.
  Qed.

  (** the term of the series of pole order p e *)
  Definition Tm (phi : Z -> list Z -> Z) (e : Z) : Z :=
    if m <=? e then frob_term phi p m N ei (nth (Z.to_nat (e - m)) fpow []) (e - m) else 0.

  Lemma fpow_at e : m <= e <= m + N - 1 -> exists P, get_at fpow (e - m) = OK P /\
    nth (Z.to_nat (e - m)) fpow [] = P /\ forall u x, In (u, x) P -> is_tuple (S n) (d * (e - m)) u.
  Proof.
    intros He. unfold get_at, zlen in *. destruct (Z.ltb_spec (e - m) 0); [lia|].
    destruct (nth_error fpow (Z.to_nat (e - m))) as [P|] eqn:X.
    - exists P. split; auto. split; [now apply nth_error_nth|]. intros u x I. pose proof (Hfk _ _ X u x I) as T.
      rewrite Z2Nat.id in T by lia. exact T.
    - apply nth_error_None in X. lia.
  Qed.

  Section LOOP.
  Variables (r : Z) (loop : nat) (dj : Z -> res Z).
  Hypothesis Hr : (q | r).
  Hypothesis Hloop : (loop <= 2)%nat.

  Lemma loop_ok k : forall H Hlast fact, let e := zn / p + Z.of_nat k in
    e <= m + N - 1 -> Hok e H -> length Hlast = length LH -> fact_ok e fact ->
    (forall e', zn / p < e' <= e -> m <= e' -> dj (e' - m) = OK (D_coef m N (e' - m))) ->
    exists H' L' fact', frob_loop slv D r loop dj (tuple_index LG) ei m fpow k (H, Hlast, fact) = OK (H', L', fact') /\
      length L' = length LH /\ fact_ok (zn / p) fact' /\
      forall phi, GD q n d (r_f D) phi ->
        cong q (ev_poly phi zn LH L')
          ((if Nat.eqb k 0 then 0 else Hval phi e H) + ev_poly phi zn LH Hlast +
           sumf (Tm phi) (zseq (zn / p + 1) (e + 1))).
  Proof.
    pose proof (Z.div_pos zn p ltac:(lia) ltac:(lia)) as Hnp.
    induction k as [|k IH]; intros H Hlast fact e He HH HL Hf Hdj.
    - exists H, Hlast, fact. split; [reflexivity|]. split; auto. unfold e in *. cbn in *.
      replace (zn / p + 0) with (zn / p) in * by ring.
      split; auto. intros phi _. rewrite zseq_nil by lia. rewrite sumf_nil. apply cong_of_eq. ring.
    - cbn [frob_loop]. fold e.
      assert (X : exists H1, (if m <=? e
           then c <- dj (e - m) ;; P <- get_at fpow (e - m) ;; frob_add D (tuple_index LG) ei c fact P H
           else OK H) = OK H1 /\ Hok e H1 /\ forall phi, cong q (Hval phi e H1) (Hval phi e H + Tm phi e)).
      { unfold Tm. destruct (Z.leb_spec m e) as [L|L].
        - rewrite Hdj by lia. cbn [bind]. destruct (fpow_at e ltac:(lia)) as (P & P1 & P2 & P3).
          rewrite P1. cbn [bind]. destruct (frob_add_ok e (D_coef m N (e - m)) fact P ltac:(unfold e; lia) P3 H HH) as (H1 & F1 & F2 & F3).
          exists H1. split; auto. split; auto. intros phi. rewrite F3, P2. unfold frob_term.
          replace (m + (e - m)) with e by ring. destruct Hf as [_ Hf]. rewrite Hf. rewrite Z.max_r by nia. reflexivity.
        - exists H. split; auto. split; auto. intros phi. apply cong_of_eq. ring. }
      destruct X as (H1 & X1 & X2 & X3). rewrite X1. cbn [bind].
      replace (zseq (zn / p + 1) (e + 1)) with (zseq (zn / p + 1) e ++ [e]) by (symmetry; apply zseq_snoc; unfold e; lia).
      pose proof (frob_fact_ok e fact ltac:(unfold e; lia) Hf) as Hf'.
      assert (Ee : e - 1 = zn / p + Z.of_nat k) by (unfold e; lia).
      destruct k as [|k'].
      + assert (Ee1 : e = zn / p + 1) by (unfold e; lia).
        rewrite Ee1 in *. destruct (pass_last r loop H1 Hlast Hr Hloop X2 HL) as (L' & F1 & F2 & F3).
        rewrite F1. cbn [bind fst snd frob_loop]. eexists _, L', _. split; [reflexivity|]. split; auto.
        replace (zn / p + 1 - 1) with (zn / p) in Hf' by ring. split; auto.
        intros phi Hphi. rewrite (F3 phi Hphi), (X3 phi). cbn [Nat.eqb]. rewrite sumf_app, sumf_cons, sumf_nil, zseq_nil, sumf_nil by lia.
        apply cong_of_eq. ring.
      + destruct (pass_high r loop e H1 Hlast Hr Hloop ltac:(unfold e; lia) X2) as (H2 & F1 & F2 & F3).
        rewrite F1. cbn [bind fst snd]. rewrite Ee in *.
        destruct (IH H2 Hlast _ ltac:(lia) F2 HL Hf') as (H' & L' & fact' & E1 & E2 & E3 & E4).
        { intros e' He'. apply Hdj. lia. }
        exists H', L', fact'. split; [exact E1|]. split; auto. split; auto. intros phi Hphi.
        rewrite (E4 phi Hphi). cbn [Nat.eqb]. rewrite (F3 phi Hphi), (X3 phi), sumf_app, sumf_cons, sumf_nil.
        replace (zn / p + Z.of_nat (S k') + 1) with e by lia. apply cong_of_eq. ring.
  Qed.

  Lemma hl_ok : binomial (d * zn - 1) zn = OK (Z.of_nat (length LH)).
  Proof.
    pose proof (inv_nd _ _ inv) as ND. pose proof (inv_fit _ _ inv (degG D - 1)) as F.
    rewrite enum_length by lia. unfold degG in *.
    assert (A : 0 <= d * zn - zn - 1 <= (zn + 1) * d) by nia. specialize (F A).
    replace (Z.to_nat (d * zn - zn - 1) + S n - 1)%nat with (Z.to_nat (d * zn - 1)) by lia.
    replace (S n - 1)%nat with (Z.to_nat zn) by lia. apply binomial_ok; [nia|]. rewrite Nat2Z.id.
    replace (d * zn - 1) with (d * zn - zn - 1 + zn) by ring. exact F.
  Qed.

  Lemma high_ok : zn / p <= m + N - 1 ->
    (forall e', zn / p < e' <= m + N - 1 -> m <= e' -> dj (e' - m) = OK (D_coef m N (e' - m))) ->
    exists F fact, frob_high slv D r loop dj ei m N fpow = OK (F, fact) /\ length F = length bas /\
      fact_ok (zn / p) fact /\
      forall phi psi, GD q n d (r_f D) phi -> basis_val q n d bas phi psi ->
        cong q (ev_basis psi bas F) (sumf (Tm phi) (zseq (zn / p + 1) (m + N))).
  Proof.
    intros He Hdj. unfold frob_high. rewrite dictG_at. cbn [bind]. rewrite hl_ok. cbn [bind].
    unfold check. replace (0 <=? Z.of_nat (length LH)) with true by (symmetry; apply Z.leb_le; lia). cbn [bind].
    rewrite Nat2Z.id.
    destruct (loop_ok (Z.to_nat (m + N - 1 - zn / p)) [] (repeat 0 (length LH)) (1 mod q)) as (H' & L' & fact' & E1 & E2 & E3 & E4);
      rewrite ?Z2Nat.id by lia.
    - lia.
    - apply Hok_nil.
    - apply repeat_length.
    - replace (zn / p + (m + N - 1 - zn / p)) with (m + N - 1) by ring. apply fact_init.
    - intros e' He'. apply Hdj. lia.
    - match goal with |- context [frob_loop ?a1 ?a2 ?a3 ?a4 ?a5 ?a6 ?a7 ?a8 ?a9 ?b ?c] =>
        replace (frob_loop a1 a2 a3 a4 a5 a6 a7 a8 a9 b c) with (OK (H', L', fact')) by (symmetry; exact E1) end.
      cbn [bind fst snd]. pose proof (inv_nd _ _ inv) as ND.
      destruct (final_class_all slv D inv Hslv Hq zn ltac:(lia)) as (M & M1 & M2 & M3). rewrite M1. cbn [bind].
      assert (EL : E (zn * d - (zn + 1)) = LH) by (do 2 f_equal; unfold degG; ring).
      rewrite EL in *. destruct (M3 L' E2) as (w & W1 & W2 & W3). rewrite W1. cbn [bind].
      exists w, fact'. split; auto. split; auto. split; auto. intros phi psi Hphi Hpsi.
      rewrite (W3 phi psi Hphi Hpsi), (E4 phi Hphi), ev_poly_zero. unfold Hval. rewrite sumf_nil.
      replace (zn / p + Z.of_nat (Z.to_nat (m + N - 1 - zn / p)) + 1) with (m + N) by (rewrite Z2Nat.id by lia; ring).
      destruct (Nat.eqb _ 0); apply cong_of_eq; ring.
  Qed.

  (** * terms of pole order at most n *)
  Lemma low_terms_ok c e fact P F : 1 <= e -> p * e <= zn ->
    (forall u x, In (u, x) P -> is_tuple (S n) (d * (e - m)) u) -> length F = length bas ->
    exists F', frob_low_terms slv D c ei P e fact F = OK F' /\ length F' = length bas /\
      forall phi psi, GD q n d (r_f D) phi -> basis_val q n d bas phi psi ->
        cong q (ev_basis psi bas F')
          (ev_basis psi bas F + c * fact * sumf (fun t => snd t * phi (p * e) (frob_mono p ei (fst t))) P).
  Proof.
    intros He Hpe HP HF. pose proof (inv_nd _ _ inv) as ND. unfold frob_low_terms.
    set (l := d * p * e - (zn + 1)). assert (Hl : 0 <= l <= (zn + 1) * d) by (unfold l; nia).
    rewrite (inv_td _ _ inv l Hl). cbn [bind].
    assert (EL : E (p * e * d - (zn + 1)) = E l) by (do 2 f_equal; unfold l; ring).
    assert (LD : length (tuple_index (E l)) = length (E l)).
    { apply (tuple_index_length (S n)); [intros t; apply enum_len|apply enum_NoDup]. }
    set (ix := fun t : vec * Z => pos n (Z.to_nat l) (frob_mono p ei (fst t))).
    assert (HT : forall t, In t P -> is_tuple (S n) l (frob_mono p ei (fst t)) /\
        vsub (vscale p (vadd (vadd (fst t) ei) ones)) ones = frob_mono p ei (fst t)).
    { intros [u x] I. pose proof (HP u x I) as Tu. cbn [fst]. rewrite <- (mono_frob _ _ Tu).
      pose proof (mono_tuple _ _ Tu) as (L1 & L2 & L3). replace (m + (e - m)) with e in L3 by ring.
      pose proof (mono_pos (e - m) u) as Hpos. set (mo := vadd (vadd u ei) ones) in *.
      assert (V : vsub (vscale p mo) ones = epred (vscale p mo)).
      { apply vec_ext. { rewrite epred_length, vscale_length, L1. apply vsub_length; [now rewrite vscale_length|apply ones_len]. }
        intros i Hi. rewrite (vsub_length _ _ (S n)) in Hi; [|now rewrite vscale_length|apply ones_len].
        rewrite vsub_nth, epred_nth, ones_nth by (rewrite ?vscale_length, ?ones_len; lia). ring. }
      split; auto. rewrite <- V. split; [apply vsub_length; [now rewrite vscale_length|apply ones_len]|]. split.
      - apply nonneg_iff. intros i Hi. rewrite (vsub_length _ _ (S n)) in Hi; [|now rewrite vscale_length|apply ones_len].
        rewrite vsub_nth by (rewrite vscale_length, ones_len; auto). rewrite vscale_nth, ones_nth by lia.
        specialize (Hpos i Tu ltac:(lia)). nia.
      - rewrite zsum_vsub by (rewrite vscale_length, ones_len; auto). rewrite zsum_vscale, L3.
        destruct ones_tuple as (_ & _ & ->). unfold l. ring. }
    erewrite (mapM_total _ (fun t => (ix t, (c * snd t * fact) mod q))).
    2:{ intros [u x] I. destruct (HT _ I) as [T1 T2]. cbn [fst snd] in *. pose proof (HP u x I) as Tu.
      pose proof Tu as (Lu & _). pose proof Hei as (Le & _). pose proof ones_len as Lo.
      rewrite vec_add_ok by congruence. cbn [bind]. rewrite vec_add_ok by (rewrite Lo; apply vadd_length; auto). cbn [bind].
      pose proof (mono_tuple _ _ Tu) as (L1 & _).
      rewrite vec_sub_ok by (rewrite vscale_length, Lo; auto). cbn [bind]. rewrite T2.
      rewrite <- (Z2Nat.id l) in T1 by lia. destruct (pos_ok _ _ _ T1) as (J1 & _). rewrite J1. cbn [bind].
      reflexivity. }
    cbn [bind]. rewrite LD.
    assert (IX : forall t, In t P -> (ix t < length (E l))%nat /\ nth (ix t) (E l) [] = frob_mono p ei (fst t)).
    { intros t I. destruct (HT t I) as [T1 _]. rewrite <- (Z2Nat.id l) in T1 by lia.
      destruct (pos_ok _ _ _ T1) as (_ & J2 & J3). split; auto. }
    assert (FB : forallb (fun u : nat * Z => Nat.ltb (fst u) (length (E l))) (map (fun t => (ix t, (c * snd t * fact) mod q)) P) = true).
    { apply forallb_forall. intros y Hy. apply in_map_iff in Hy. destruct Hy as (t & <- & I). cbn [fst].
      apply Nat.ltb_lt. now apply IX. }
    rewrite FB. cbn [check bind].
    set (ups := map _ P). set (G0 := vadd_all q ups (repeat 0 (length (E l)))).
    assert (LG0 : length G0 = length (E l)) by (unfold G0; now rewrite vadd_all_length, repeat_length).
    destruct (final_class_all slv D inv Hslv Hq (p * e) ltac:(nia)) as (M & M1 & M2 & M3). rewrite M1. cbn [bind].
    rewrite EL in *. destruct (M3 G0 LG0) as (w & W1 & W2 & W3). rewrite W1. cbn [bind].
    destruct (lvec_add_total q F w) as (X & EX); [congruence|]. exists X. split; auto.
    split; [apply (ev_basis_add q (fun _ => 0) bas F w X EX HF W2)|]. intros phi psi Hphi Hpsi.
    rewrite (proj1 (ev_basis_add q psi bas F w X EX HF W2)), (W3 phi psi Hphi Hpsi).
    apply cong_add; [reflexivity|]. unfold ev_poly, G0.
    rewrite (sumf_ext _ (fun i => phi (p * e) (nth i (E l) []) * nth i (vadd_all q ups (repeat 0 (length (E l)))) 0)) by (intros; ring).
    pose proof (vadd_all_wsum q ups (repeat 0 (length (E l))) (fun i => phi (p * e) (nth i (E l) []))) as V.
    rewrite repeat_length in V. rewrite V.
    2:{ intros i x I. unfold ups in I. apply in_map_iff in I. destruct I as (t & Et & I). injection Et as <- _. now apply IX. }
    rewrite sumf_zero. 2:{ intros i _. rewrite nth_repeat_any. destruct (Nat.ltb i _); ring. }
    unfold ups. rewrite sumf_map, <- sumf_scal. cbn [Z.add]. apply cong_sumf. intros t I. cbn [fst snd].
    rewrite (proj2 (IX t I)), cong_mod. apply cong_of_eq. ring.
  Qed.

  Lemma low_ok k : forall F fact, let e := Z.of_nat k in
    p * e <= zn -> e <= m + N - 1 -> fact_ok e fact -> length F = length bas ->
    (forall e', 1 <= e' <= e -> m <= e' -> dj (e' - m) = OK (D_coef m N (e' - m))) ->
    exists F' fact', frob_low slv D dj ei m N fpow k (F, fact) = OK (F', fact') /\ length F' = length bas /\
      fact_ok 0 fact' /\
      forall phi psi, GD q n d (r_f D) phi -> basis_val q n d bas phi psi ->
        cong q (ev_basis psi bas F') (ev_basis psi bas F + sumf (Tm phi) (zseq 1 (e + 1))).
  Proof.
    induction k as [|k IH]; intros F fact e He1 He2 Hf HF Hdj.
    - exists F, fact. split; auto. split; auto. split; auto. intros phi psi _ _. apply cong_of_eq. rewrite zseq_nil by (unfold e; lia). rewrite sumf_nil. ring.
    - cbn [frob_low]. fold e.
      assert (CK : fact =? factorial q (PP - 1) (p * e) = true).
      { apply Z.eqb_eq. destruct Hf as [H1 H2]. rewrite Z.max_r in H2 by nia.
        pose proof (factorial_cong q (PP - 1) (p * e)) as H3. replace (PP - 1 + 1) with PP in H3 by ring.
        rewrite <- H3 in H2. apply cong_iff_mod in H2; [|lia].
        pose proof (factorial_range q (PP - 1) (p * e) Hq). rewrite !Z.mod_small in H2 by lia. exact H2. }
      rewrite CK. cbn [check bind].
      assert (X : exists F1, (if m <=? e
             then c <- dj (e - m) ;; P <- get_at fpow (e - m) ;; frob_low_terms slv D c ei P e fact F
             else OK F) = OK F1 /\ length F1 = length bas /\
             forall phi psi, GD q n d (r_f D) phi -> basis_val q n d bas phi psi ->
               cong q (ev_basis psi bas F1) (ev_basis psi bas F + Tm phi e)).
      { unfold Tm. destruct (Z.leb_spec m e) as [L|L].
        - rewrite Hdj by lia. cbn [bind]. destruct (fpow_at e ltac:(lia)) as (P & P1 & P2 & P3).
          rewrite P1. cbn [bind]. destruct (low_terms_ok (D_coef m N (e - m)) e fact P F ltac:(lia) He1 P3 HF) as (F1 & E1 & E2 & E3).
          exists F1. split; auto. split; auto. intros phi psi Hphi Hpsi. rewrite (E3 phi psi Hphi Hpsi), P2.
          unfold frob_term. replace (m + (e - m)) with e by ring. destruct Hf as [_ Hf]. rewrite Hf.
          rewrite Z.max_r by nia. reflexivity.
        - exists F. split; auto. split; auto. intros. apply cong_of_eq. ring. }
      destruct X as (F1 & X1 & X2 & X3). rewrite X1. cbn [bind].
      pose proof (frob_fact_ok e fact ltac:(lia) Hf) as Hf'. replace (e - 1) with (Z.of_nat k) in Hf' by lia.
      destruct (IH F1 (frob_fact q p e fact)) as (F' & fact' & E1 & E2 & E3 & E4); auto; try nia.
      { intros e' He'. apply Hdj. lia. }
      exists F', fact'. split; [exact E1|]. split; auto. split; auto. intros phi psi Hphi Hpsi.
      rewrite (E4 phi psi Hphi Hpsi), (X3 phi psi Hphi Hpsi).
      replace (zseq 1 (e + 1)) with (zseq 1 e ++ [e]) by (symmetry; apply zseq_snoc; lia).
      rewrite sumf_app, sumf_cons, sumf_nil. replace (Z.of_nat k + 1) with e by lia. apply cong_of_eq. ring.
  Qed.
  End LOOP.

  Lemma Tm_series phi : sumf (Tm phi) (zseq 1 (m + N)) = tab_series phi p m N ei fpow.
  Proof.
    rewrite (zseq_app 1 m (m + N)), sumf_app by lia. rewrite sumf_zero.
    2:{ intros e He. apply zseq_In in He. unfold Tm. destruct (Z.leb_spec m e); [lia|auto]. }
    assert (G : forall k : nat, sumf (Tm phi) (zseq m (m + Z.of_nat k)) =
      sumf (fun j => frob_term phi p m N ei (nth (Z.to_nat j) fpow []) j) (zseq 0 (Z.of_nat k))).
    { induction k as [|k IH].
      - rewrite !zseq_nil by lia. reflexivity.
      - rewrite Nat2Z.inj_succ, <- Z.add_1_r. rewrite Z.add_assoc. rewrite !zseq_snoc by lia.
        rewrite !sumf_app, !sumf_cons, !sumf_nil, IH. f_equal. f_equal.
        unfold Tm. destruct (Z.leb_spec m (m + Z.of_nat k)); [|lia].
        replace (m + Z.of_nat k - m) with (Z.of_nat k) by ring. reflexivity. }
    specialize (G (Z.to_nat N)). rewrite Z2Nat.id in G by lia. unfold tab_series. rewrite G. apply Z.add_0_l.
  Qed.
End SUM.
