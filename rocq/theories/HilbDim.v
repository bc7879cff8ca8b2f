(** Dimensions of the homogeneous components of the quotient by a regular
    sequence of forms, and the meaning of the output of the solvers. *)
From Coq Require Import ZArith List Bool Lia Znumtheory.
From Verif Require Import Base VecSpec ToolsSpec ToolsProofs MatModel MatProofs DRModel DRSpec DRProofs MpzModel MpzSpec MpzProofs LinAlg
  SolveModel SolveSpec SolveProofs SmoothProofs LuInst HilbKoszul HilbPoly HilbTop.
Import ListNotations.
Open Scope Z_scope.

Definition zfn : list Z -> Z := fun _ => 0.
Definition lincomb (l : nat -> Z) (L : list (list Z -> Z)) : list Z -> Z :=
  fun w => sumf (fun i => l i * nth i L zfn w) (seq 0 (length L)).

Section Dim.
  Variables (m : nat) (p e : Z).
  Hypothesis Pp : prime p.
  Hypothesis Hm : (0 < m)%nat.
  Hypothesis He : 0 < e.

  (** L is a basis of the forms of degree t modulo S *)
  Record qbasis (S : (list Z -> Z) -> Prop) (t : Z) (L : list (list Z -> Z)) : Prop := {
    qb_in : forall x, In x L -> Gs m x /\ homog t x;
    qb_span : forall c, Gs m c -> homog t c -> exists l, S (fun w => c w - lincomb l L w);
    qb_ind : forall l, S (lincomb l L) -> forall i, (i < length L)%nat -> cong p (l i) 0 }.

  Lemma lin_zero S l L : good (OpP m) S -> (forall x, S0 p x -> S x) -> (forall i, (i < length L)%nat -> cong p (l i) 0) -> S (lincomb l L).
  Proof.
    intros HS H0 H. apply H0. intros w. unfold lincomb. apply cong_trans with (sumf (fun _ => 0) (seq 0 (length L))).
    - apply cong_sumf. intros i Hi. apply in_seq in Hi. replace 0 with (0 * nth i L zfn w) by lia. apply cong_mul; [apply H; lia|apply cong_refl].
    - apply cong_of_eq. now apply sumf_zero.
  Qed.
  Lemma lincomb_G l L t : (forall x, In x L -> Gs m x /\ homog t x) -> Gs m (lincomb l L) /\ homog t (lincomb l L).
  Proof.
    intros H. split.
    - apply (s_sumf (Gs m) (Gs_sub m) (fun i w => l i * nth i L zfn w)). intros i Hi. apply in_seq in Hi.
      apply (s_scal _ (Gs_sub m)). apply H, nth_In. lia.
    - intros w N. apply sumf_zero. intros i Hi. apply in_seq in Hi. destruct (H (nth i L zfn)) as (_ & K); [apply nth_In; lia|]. rewrite K by auto. lia.
  Qed.

  Lemma qbasis_le S t L L' : good (OpP m) S -> (forall x, S0 p x -> S x) -> qbasis S t L -> qbasis S t L' -> (length L' <= length L)%nat.
  Proof.
    intros HS H0 B B'. destruct (Nat.le_gt_cases (length L') (length L)) as [|C]; auto. exfalso.
    destruct (fin_choice (fun _ : nat => 0) (fun i a => S (fun w => nth i L' zfn w - lincomb a L w)) (length L')) as (A & HA).
    { intros i Hi. destruct (qb_in _ _ _ B' (nth i L' zfn)) as (G1 & G2); [now apply nth_In|]. apply (qb_span _ _ _ B); auto. }
    destruct (kernel_vector p (length L) Pp (length L') A C) as (x & (i & Hi & Ni) & K). apply Ni.
    apply (qb_ind _ _ _ B' x); auto.
    pose proof (lin_zero S (fun j => sumf (fun i => x i * A i j) (seq 0 (length L'))) L HS H0 K) as T1.
    assert (T2 : S (fun w => sumf (fun i => x i * (nth i L' zfn w - lincomb (A i) L w)) (seq 0 (length L')))).
    { apply (s_sumf S (g_sub _ _ HS) (fun i w => x i * (nth i L' zfn w - lincomb (A i) L w))). intros k Hk. apply in_seq in Hk.
      apply (s_scal S (g_sub _ _ HS) (x k) (fun w => nth k L' zfn w - lincomb (A k) L w)). apply HA. lia. }
    eapply (s_ext S (g_sub _ _ HS)); [|apply (s_add S (g_sub _ _ HS) _ _ T1 T2)]. intros w. cbv beta. unfold lincomb.
    rewrite (sumf_ext (fun j => sumf (fun i0 => x i0 * A i0 j) (seq 0 (length L')) * nth j L zfn w)
      (fun j => sumf (fun i0 => x i0 * (A i0 j * nth j L zfn w)) (seq 0 (length L')))).
    2:{ intros j _. rewrite <- sumf_scal_r. apply sumf_ext. intros; ring. }
    rewrite sumf_swap. rewrite <- sumf_plus. apply sumf_ext. intros k _. rewrite sumf_scal. lia.
  Qed.

  Lemma qbasis_exact P Ps t L1 L2 : form m e P -> Forall (form m e) Ps -> vanishH m p e (P :: Ps) ->
    qbasis (ideal m p Ps) (t - e) L1 -> qbasis (ideal m p (P :: Ps)) t L2 -> qbasis (ideal m p Ps) t (map (act P) L1 ++ L2).
  Proof.
    intros HP HF V B1 B2. pose proof (ideal_good m p e Ps HF) as IG. pose proof (g_sub _ _ IG) as IS. pose proof (form_Op m e P HP) as OP.
    assert (EL : forall l w, lincomb l (map (act P) L1 ++ L2) w = act P (lincomb l L1) w + lincomb (fun i => l (length L1 + i)%nat) L2 w).
    { intros l w. unfold lincomb. rewrite app_length, map_length, seq_app, sumf_app, Nat.add_0_l. f_equal.
      - rewrite (l_sumf (act P) (act_lin P) (fun i w => l i * nth i L1 zfn w)). apply sumf_ext. intros i Hi. apply in_seq in Hi.
        rewrite app_nth1 by (rewrite map_length; lia). rewrite (nth_indep _ zfn (act P zfn)) by (rewrite map_length; lia). rewrite map_nth.
        unfold act. rewrite <- sumf_scal. apply sumf_ext. intros; ring.
      - rewrite seq_off, sumf_map. apply sumf_ext. intros i Hi. rewrite app_nth2 by (rewrite map_length; lia). rewrite map_length.
        replace (length L1 + i - length L1)%nat with i by lia. reflexivity. }
    split.
    - intros x Hx. apply in_app_or in Hx. destruct Hx as [Hx|Hx]; [|now apply (qb_in _ _ _ B2)].
      apply in_map_iff in Hx. destruct Hx as (y & <- & Hy). destruct (qb_in _ _ _ B1 y Hy) as (G1 & G2).
      split; [now apply OpP_G|]. replace t with (t - e + e) by lia. now apply (act_homog m e).
    - intros c Gc Hc. destruct (qb_span _ _ _ B2 c Gc Hc) as (l2 & Hl2).
      destruct (lincomb_G l2 L2 t (qb_in _ _ _ B2)) as (G2 & H2).
      destruct (ideal_homog m p e P Ps t (fun w => c w - lincomb l2 L2 w)) as (y & Gy & Hy & Iy); auto.
      { intros w N. rewrite Hc, H2 by auto. lia. }
      destruct (qb_span _ _ _ B1 y Gy Hy) as (l1 & Hl1).
      exists (fun i => if Nat.ltb i (length L1) then l1 i else l2 (i - length L1)%nat).
      pose proof (g_op _ _ IG (act P) _ OP Hl1) as T. eapply (s_ext _ IS); [|apply (s_add _ IS _ _ Iy T)]. intros w. cbv beta. rewrite EL.
      rewrite (l_sub _ (act_lin P) y (lincomb l1 L1)).
      assert (E1 : act P (lincomb (fun i => if Nat.ltb i (length L1) then l1 i else l2 (i - length L1)%nat) L1) w = act P (lincomb l1 L1) w).
      { apply (l_ext _ (act_lin P)). intros w'. apply sumf_ext. intros i Hi. apply in_seq in Hi. destruct (Nat.ltb_spec i (length L1)); [auto|lia]. }
      assert (E2 : lincomb (fun i => if Nat.ltb (length L1 + i) (length L1) then l1 (length L1 + i)%nat else l2 (length L1 + i - length L1)%nat) L2 w = lincomb l2 L2 w).
      { apply sumf_ext. intros i Hi. destruct (Nat.ltb_spec (length L1 + i) (length L1)); [lia|]. replace (length L1 + i - length L1)%nat with i by lia. auto. }
      rewrite E1, E2. lia.
    - intros l Hl. 
      assert (Z2 : forall i, (i < length L2)%nat -> cong p (l (length L1 + i)%nat) 0).
      { apply (qb_ind _ _ _ B2 (fun i => l (length L1 + i)%nat)). destruct (lincomb_G l L1 (t - e) (qb_in _ _ _ B1)) as (G1 & _).
        exists (fun w => - lincomb l L1 w). split; [now apply (s_opp _ (Gs_sub m))|].
        eapply (s_ext _ IS); [|apply Hl]. intros w. rewrite EL, (l_opp _ (act_lin P)). lia. }
      assert (Z1 : forall i, (i < length L1)%nat -> cong p (l i) 0).
      { apply (qb_ind _ _ _ B1). destruct (lincomb_G l L1 (t - e) (qb_in _ _ _ B1)) as (G1 & H1).
        apply (regular m p e P Ps) with (s := t - e); auto.
        pose proof (lin_zero (ideal m p Ps) (fun i => l (length L1 + i)%nat) L2 IG (ideal_S0 m p e Ps HF) Z2) as T.
        eapply (s_ext _ IS); [|apply (s_sub _ IS _ _ Hl T)]. intros w. cbv beta. rewrite EL. lia. }
      intros i Hi. rewrite app_length, map_length in Hi. destruct (Nat.lt_ge_cases i (length L1)) as [C|C]; auto.
      replace i with (length L1 + (i - length L1))%nat by lia. apply Z2. lia.
  Qed.

  (** ** the ideal in coordinates *)
  Lemma act_coef P k y w : form m e P -> Gs m y -> homog k y -> length w = m ->
    act P y w = sumf (fun s => y s * coefP P s w) (mons m k).
  Proof.
    intros HP Gy Hy Lw. unfold act, coefP.
    transitivity (sumf (fun bc => sumf (fun s => if list_eq_dec Z.eq_dec (wsub w (fst bc)) s then snd bc * y s else 0) (mons m k)) P).
    - apply sumf_ext. intros [b c] Hb. cbn [fst snd]. 
      rewrite (sumf_pick (list_eq_dec Z.eq_dec) (fun s => c * y s) (wsub w b)) by apply mons_NoDup.
      destruct (in_dec _ _ _) as [|N]; auto. destruct (Z.eq_dec (y (wsub w b)) 0) as [->|Ny]; [lia|]. exfalso. apply N. apply mons_In; auto.
      destruct (Gy _ Ny) as (A & B). split; [|split]; auto. destruct (Z.eq_dec (zsum (wsub w b)) k) as [|Nk]; auto. apply Hy in Nk. lia.
    - rewrite sumf_swap. apply sumf_ext. intros s Hs. apply mons_In in Hs; auto. rewrite <- sumf_scal. apply sumf_ext. intros [b c] Hb. cbn [fst snd].
      destruct (Z.eq_dec c 0) as [->|Nc]; [destruct (list_eq_dec _ _ _), (list_eq_dec _ _ _); lia|].
      destruct (HP b c Hb Nc) as (Lb & _). destruct Hs as (Ls & _).
      pose proof (eplus_wsub s b w ltac:(lia) ltac:(lia)) as EW.
      destruct (list_eq_dec Z.eq_dec (wsub w b) s) as [E1|E1], (list_eq_dec Z.eq_dec (eplus s b) w) as [E2|E2]; try lia; exfalso; [apply E2, EW; auto|apply E1; symmetry; now apply EW].
  Qed.

  Definition comb (Ps : list (list (list Z * Z))) (t : Z) (h : nat -> list Z -> Z) (w : list Z) : Z :=
    sumf (fun i => sumf (fun s => h i s * coefP (nth i Ps []) s w) (mons m (t - e))) (seq 0 (length Ps)).

  Lemma comb_cons P Ps t h w : comb (P :: Ps) t h w = sumf (fun s => h 0%nat s * coefP P s w) (mons m (t - e)) + comb Ps t (fun i => h (S i)) w.
  Proof. unfold comb. cbn [length seq]. rewrite sumf_cons. f_equal. rewrite <- seq_shift, sumf_map. reflexivity. Qed.

  Lemma ideal_coef Ps : Forall (form m e) Ps -> forall t x, Gs m x -> homog t x ->
    ideal m p Ps x <-> exists h, forall w, is_tuple m t w -> cong p (x w) (comb Ps t h w).
  Proof.
    induction 1 as [|P Ps HP HF IH]; intros t x Gx Hx; cbn [ideal].
    - split.
      + intros H. exists (fun _ _ => 0). intros w Hw. apply H.
      + intros (h & Hh) w. destruct (Z.eq_dec (x w) 0) as [->|N]; [apply cong_refl|]. apply (Hh w).
        destruct (Gx w N). split; [|split]; auto. destruct (Z.eq_dec (zsum w) t); auto. exfalso. auto.
    - split.
      + intros H. destruct (ideal_homog m p e P Ps t x HP HF Hx H) as (y & Gy & Hy & Iy).
        apply IH with (t := t) in Iy.
        2:{ apply (s_sub _ (Gs_sub m)); auto. apply OpP_G; auto. eapply form_Op; eauto. }
        2:{ intros w N. rewrite Hx by auto. rewrite (act_homog m e P (t - e)) by (auto; lia). lia. }
        destruct Iy as (h & Hh). exists (fun i => match i with O => y | S i => h i end). intros w Hw. rewrite comb_cons.
        specialize (Hh w Hw). cbv beta in Hh. rewrite <- (act_coef P (t - e)) by (auto; apply Hw).
        replace (x w) with (act P y w + (x w - act P y w)) by lia. apply cong_add; [apply cong_refl|]. exact Hh.
      + intros (h & Hh). set (y := fun s => if in_dec (list_eq_dec Z.eq_dec) s (mons m (t - e)) then h 0%nat s else 0).
        assert (Gy : Gs m y /\ homog (t - e) y).
        { split; intros w; unfold y; destruct (in_dec _ _ _) as [I|]; try congruence; apply mons_In in I; auto; destruct I as (A & B & C); tauto. }
        destruct Gy as (Gy & Hy). exists y. split; auto. apply (IH t).
        * apply (s_sub _ (Gs_sub m)); auto. apply OpP_G; auto. eapply form_Op; eauto.
        * intros w N. rewrite Hx by auto. rewrite (act_homog m e P (t - e)) by (auto; lia). lia.
        * exists (fun i => h (S i)). intros w Hw. specialize (Hh w Hw). rewrite comb_cons in Hh.
          rewrite (act_coef P (t - e)) by (auto; apply Hw).
          replace (comb Ps t (fun i => h (S i)) w) with (sumf (fun s => h 0%nat s * coefP P s w) (mons m (t - e)) + comb Ps t (fun i => h (S i)) w - sumf (fun s => y s * coefP P s w) (mons m (t - e))).
          { apply cong_sub; [exact Hh|apply cong_refl]. }
          assert (E : sumf (fun s => y s * coefP P s w) (mons m (t - e)) = sumf (fun s => h 0%nat s * coefP P s w) (mons m (t - e))).
          { apply sumf_ext. intros s Hs. unfold y. destruct (in_dec _ _ _); [auto|contradiction]. }
          lia.
  Qed.

  (** the unit vector of the monomial b *)
  Definition dmon (b : list Z) : list Z -> Z := fun w => if list_eq_dec Z.eq_dec w b then 1 else 0.

  (** rows of T: monomials of degree t; column (i, s): the multiple x^s of the i-th form *)
  Lemma solver_basis Ps t T B U : Forall (form m e) Ps ->
    let rows := mons m t in let lo := mons m (t - e) in let nc := (length Ps * length lo)%nat in
    (forall r i j, (r < length rows)%nat -> (i < length Ps)%nat -> (j < length lo)%nat ->
        cong p (mget T r (i * length lo + j)) (coefP (nth i Ps []) (nth j lo []) (nth r rows []))) ->
    solves p (length rows) nc (mget T) B (mget U) -> independent p (length rows) nc (mget T) B ->
    qbasis (ideal m p Ps) t (map (fun b => dmon (nth b rows [])) B).
  Proof.
    intros HF rows lo nc HT (S1 & S2 & S3) HI.
    assert (IR : forall i j, (i < length rows)%nat -> (j < length rows)%nat -> nth i rows [] = nth j rows [] -> i = j)
      by (intros i j Hi Hj; apply NoDup_nth; auto; apply mons_NoDup).
    assert (NB : forall k, (k < length B)%nat -> (nth k B O < length rows)%nat) by (intros k Hk; apply S2, nth_In; auto).
    assert (TR : forall r, (r < length rows)%nat -> is_tuple m t (nth r rows [])) by (intros r Hr; apply mons_In; auto; now apply nth_In).
    set (L := map (fun b => dmon (nth b rows [])) B).
    assert (LL : length L = length B) by apply map_length.
    assert (EL : forall l r, (r < length rows)%nat -> lincomb l L (nth r rows []) = sumf (fun k => if Nat.eqb (nth k B O) r then l k else 0) (seq 0 (length B))).
    { intros l r Hr. unfold lincomb. rewrite LL. apply sumf_ext. intros k Hk. apply in_seq in Hk. unfold L.
      rewrite (nth_indep _ zfn (dmon (nth 0 rows []))) by (rewrite map_length; lia). rewrite (map_nth (fun b => dmon (nth b rows [])) B 0%nat). unfold dmon.
      destruct (list_eq_dec _ _ _) as [E|N], (Nat.eqb_spec (nth k B O) r) as [E'|N']; try lia.
      - exfalso. apply N'. symmetry. apply IR; auto. apply NB. lia.
      - exfalso. apply N. now rewrite E'. }
    assert (QI : forall x, In x L -> Gs m x /\ homog t x).
    { intros x Hx. unfold L in Hx. apply in_map_iff in Hx. destruct Hx as (b & <- & Hb). apply S2 in Hb. destruct (TR b Hb) as (A1 & A2 & A3).
      unfold dmon. split; intros w; destruct (list_eq_dec _ _ _) as [->|]; try congruence; tauto. }
    assert (CB : forall h r, (r < length rows)%nat -> cong p (comb Ps t h (nth r rows [])) (sumf (fun k => mget T r k * h (k / length lo)%nat (nth (k mod length lo) lo [])) (seq 0 nc))).
    { intros h r Hr. unfold nc. rewrite seq_blocks. unfold comb. fold lo. apply cong_sumf. intros i Hi. apply in_seq in Hi. rewrite (sumf_nth _ lo []).
      apply cong_sumf. intros j Hj. apply in_seq in Hj.
      rewrite Nat.div_add_l by lia. rewrite Nat.div_small, Nat.add_0_r by lia.
      rewrite (Nat.add_comm (i * length lo) j), Nat.mod_add, Nat.mod_small by lia. rewrite (Nat.add_comm j).
      rewrite Z.mul_comm. apply cong_mul; [|apply cong_refl]. symmetry. apply HT; lia. }
    assert (BC : forall h r, (r < length rows)%nat -> cong p (comb Ps t (fun i s => sumf (fun j => if list_eq_dec Z.eq_dec (nth j lo []) s then h (i * length lo + j)%nat else 0) (seq 0 (length lo))) (nth r rows [])) (sumf (fun k => mget T r k * h k) (seq 0 nc))).
    { intros h r Hr. eapply cong_trans; [apply CB; auto|]. apply cong_of_eq. unfold nc. rewrite !seq_blocks. apply sumf_ext. intros i Hi. apply sumf_ext. intros j Hj. apply in_seq in Hj.
      f_equal. rewrite Nat.div_add_l by lia. rewrite Nat.div_small, Nat.add_0_r by lia.
      rewrite (Nat.add_comm (i * length lo) j), Nat.mod_add, Nat.mod_small by lia.
      rewrite (sumf_seq_single _ 0 (length lo) j); [|lia|].
      - destruct (list_eq_dec _ _ _); [|congruence]. f_equal. lia.
      - intros j' Hj' N. destruct (list_eq_dec _ _ _) as [E|]; auto. exfalso. apply N. apply (proj1 (NoDup_nth lo []) (mons_NoDup m _)); auto; lia. }
    split; auto.
    - intros c Gc Hc.
      exists (fun k => sumf (fun r => mget U (nc + k) r * c (nth r rows [])) (seq 0 (length rows))).
      set (l := fun k => sumf (fun r => mget U (nc + k) r * c (nth r rows [])) (seq 0 (length rows))).
      destruct (lincomb_G l L t QI) as (GL & HLh).
      apply (ideal_coef Ps HF t).
      { apply (s_sub _ (Gs_sub m)); auto. }
      { intros w N. rewrite Hc, HLh by auto. lia. }
      eexists. intros w Hw. apply (mons_In m t w Hm) in Hw. fold rows in Hw. destruct (In_nth _ _ [] Hw) as (r0 & Hr0 & <-).
      rewrite EL by auto.
      symmetry. eapply cong_trans; [apply (BC (fun k => sumf (fun r => mget U k r * c (nth r rows [])) (seq 0 (length rows)))); auto|].
      set (X := sumf (fun k => mget T r0 k * sumf (fun r => mget U k r * c (nth r rows [])) (seq 0 (length rows))) (seq 0 nc)).
      set (Y := sumf (fun k => if Nat.eqb (nth k B O) r0 then l k else 0) (seq 0 (length B))).
      assert (E : cong p (X + Y) (c (nth r0 rows []))).
      2:{ replace X with (X + Y - Y) by lia. apply cong_sub; [exact E|apply cong_refl]. }
      apply cong_trans with (sumf (fun r => (sumf (fun k => mget T r0 k * mget U k r) (seq 0 nc) +
            sumf (fun k => if Nat.eqb (nth k B O) r0 then mget U (nc + k) r else 0) (seq 0 (length B))) * c (nth r rows [])) (seq 0 (length rows))).
      { apply cong_of_eq. unfold X, Y, l.
        rewrite (sumf_ext (fun k => mget T r0 k * _) (fun k => sumf (fun r => mget T r0 k * mget U k r * c (nth r rows [])) (seq 0 (length rows)))).
        2:{ intros k _. rewrite <- sumf_scal. apply sumf_ext. intros; ring. }
        rewrite (sumf_ext (fun k => if Nat.eqb (nth k B O) r0 then _ else 0) (fun k => sumf (fun r => (if Nat.eqb (nth k B O) r0 then mget U (nc + k) r else 0) * c (nth r rows [])) (seq 0 (length rows)))).
        2:{ intros k _. destruct (Nat.eqb _ _); auto. symmetry. now apply sumf_zero. }
        rewrite (sumf_swap _ (seq 0 nc)), (sumf_swap _ (seq 0 (length B))), <- sumf_plus. apply sumf_ext. intros r _.
        rewrite Z.mul_add_distr_r, <- !sumf_scal_r. reflexivity. }
      apply cong_trans with (sumf (fun r => (if Nat.eqb r0 r then 1 else 0) * c (nth r rows [])) (seq 0 (length rows))).
      { apply cong_sumf. intros r Hr. apply in_seq in Hr. apply cong_mul; [apply S3; lia|apply cong_refl]. }
      apply cong_of_eq. rewrite (sumf_seq_single _ 0 (length rows) r0); [rewrite Nat.eqb_refl; lia|lia|].
      intros r _ N. destruct (Nat.eqb_spec r0 r); [congruence|lia].
    - intros l Hl i Hi. rewrite LL in Hi. destruct (lincomb_G l L t QI) as (GL & HLh).
      apply (ideal_coef Ps HF t) in Hl; auto. destruct Hl as (h & Hh).
      apply (HI (fun k => h (k / length lo)%nat (nth (k mod length lo) lo [])) l); auto.
      intros r Hr. rewrite <- EL by auto. symmetry. eapply cong_trans; [apply Hh; auto|]. now apply CB.
  Qed.

  Lemma qbasis_exists Ps t : Forall (form m e) Ps -> exists L, qbasis (ideal m p Ps) t L.
  Proof.
    intros HF. set (rows := mons m t). set (lo := mons m (t - e)). set (nc := (length Ps * length lo)%nat).
    set (T := tab (length rows) nc (fun r k => coefP (nth (k / length lo) Ps []) (nth (k mod length lo) lo []) (nth r rows []) mod p)).
    pose proof (prime_ge_2 p Pp) as P2.
    destruct (solve_zz_p_ok p lu_inst inv_inst true T (length rows) nc Pp (lu_inst_spec p Pp) (inv_inst_ok p Pp)) as (B & U & _ & HS & _ & _ & HI).
    { apply tab_shape. }
    { apply mreduced_tab. intros. apply Z.mod_pos_bound. lia. }
    exists (map (fun b => dmon (nth b rows [])) B). apply (solver_basis Ps t T B U HF); auto.
    intros r i j Hr Hi Hj. fold lo in Hj. fold lo. fold rows in Hr. fold rows. unfold T. rewrite tab_get; auto.
    2:{ unfold nc. nia. }
    rewrite Nat.div_add_l by lia. rewrite Nat.div_small, Nat.add_0_r by lia.
    rewrite (Nat.add_comm (i * length lo) j), Nat.mod_add, Nat.mod_small by lia. apply cong_mod.
  Qed.

  (** coefficients of (1 - x^e)^k / (1 - x)^m *)
  Fixpoint hs (k : nat) (t : Z) : Z := match k with O => zlen (mons m t) | S k => hs k t - hs k (t - e) end.

  Theorem qbasis_size Ps : Forall (form m e) Ps -> vanishH m p e Ps -> forall t L, qbasis (ideal m p Ps) t L -> zlen L = hs (length Ps) t.
  Proof.
    induction 1 as [|P Ps HP HF IH]; intros V t L B.
    - cbn [length hs]. 
      assert (B' : qbasis (ideal m p []) t (map dmon (mons m t))).
      { pose proof (solver_basis [] t [] (seq 0 (length (mons m t))) (tab (length (mons m t)) (length (mons m t)) (fun i j => if Nat.eqb i j then 1 else 0))) as SB.
        cbn [length] in SB. rewrite Nat.mul_0_l in SB.
        replace (map dmon (mons m t)) with (map (fun b => dmon (nth b (mons m t) [])) (seq 0 (length (mons m t)))).
        2:{ rewrite <- (map_map (fun b => nth b (mons m t) []) dmon). f_equal. apply (nth_ext _ _ [] []); rewrite map_length, seq_length; auto.
            intros k Hk. rewrite (nth_indep _ [] (nth 0 (mons m t) [])) by (rewrite map_length, seq_length; auto).
            rewrite (map_nth (fun b => nth b (mons m t) []) _ 0%nat). now rewrite seq_nth. }
        apply SB; clear SB; [constructor|intros; lia| |].
        - split; [|split].
          + intros i j. rewrite seq_length. intros. rewrite !seq_nth by lia. lia.
          + intros b Hb. apply in_seq in Hb. lia.
          + intros i j Hi Hj. cbn [seq]. rewrite sumf_nil, seq_length. rewrite (sumf_seq_single _ 0 _ i); [|lia|].
            * rewrite seq_nth by auto. rewrite Nat.eqb_refl, !Nat.add_0_l, tab_get by auto. apply cong_refl.
            * intros k Hk Nk. rewrite seq_nth by lia. destruct (Nat.eqb_spec (0 + k) i); [lia|auto].
        - intros x b HX k Hk. rewrite seq_length in Hk, HX. specialize (HX k Hk). cbn [seq] in HX. rewrite sumf_nil in HX.
          symmetry in HX. rewrite (sumf_seq_single _ 0 _ k) in HX; [|lia|].
          + rewrite seq_nth, Nat.add_0_l, Nat.eqb_refl in HX by auto. auto.
          + intros j Hj Nj. rewrite seq_nth by lia. destruct (Nat.eqb_spec (0 + j) k); [lia|auto]. }
      pose proof (ideal_good m p e [] (Forall_nil _)) as IG.
      pose proof (qbasis_le (ideal m p []) t _ _ IG (fun x H => H) B B') as C1.
      pose proof (qbasis_le (ideal m p []) t _ _ IG (fun x H => H) B' B) as C2. unfold zlen. rewrite map_length in *. lia.
    - cbn [length hs]. destruct (qbasis_exists Ps (t - e) HF) as (L1 & B1).
      pose proof (vanish_tail m p e He P Ps HP HF V) as V'.
      rewrite <- (IH V' (t - e) L1 B1). rewrite <- (IH V' t _ (qbasis_exact P Ps t L1 L HP HF V B1 B)).
      unfold zlen. rewrite app_length, map_length. lia.
  Qed.
End Dim.
