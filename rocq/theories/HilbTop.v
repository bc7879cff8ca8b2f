(** If every form of some degree N is in the ideal of m forms of degree e in m
    variables, the Koszul complex of these forms is exact in positive degrees. *)
From Coq Require Import ZArith List Bool Lia.
From Verif Require Import Base VecSpec ToolsSpec ToolsProofs MatProofs DRSpec DRProofs HilbKoszul HilbPoly.
Import ListNotations.
Open Scope Z_scope.

Lemma regs_equiv m al : Forall (OpP m) al -> forall S S', (forall x, Gs m x -> (S x <-> S' x)) -> regs (Gs m) S al -> regs (Gs m) S' al.
Proof.
  induction 1 as [|a al Ha HA IH]; intros S S' E; cbn [regs]; auto. intros (R1 & R2). split.
  - intros y Gy Hy. apply E; auto. apply R1; auto. apply E; auto. now apply OpP_G.
  - eapply IH; [|apply R2]. intros x Gx. unfold quot. split; intros (y & Gy & Hy); exists y; split; auto; (apply E; auto; apply (s_sub _ (Gs_sub m)); auto; now apply OpP_G).
Qed.

(** monomials of degree k, none if k < 0 *)
Definition mons (m : nat) (k : Z) : list (list Z) := if k <? 0 then [] else enum m (Z.to_nat k).

Lemma mons_In m k t : (0 < m)%nat -> (In t (mons m k) <-> is_tuple m k t).
Proof.
  intros Hm. unfold mons. destruct (Z.ltb_spec k 0).
  - split; [intros []|]. intros (_ & A & B). pose proof (nonneg_zsum t A). lia.
  - rewrite enum_In by auto. now rewrite Z2Nat.id.
Qed.
Lemma mons_NoDup m k : NoDup (mons m k).
Proof. unfold mons. destruct (k <? 0); [constructor|apply enum_NoDup]. Qed.

Lemma sumf_pick {A} (dec : forall a b : A, {a = b} + {a <> b}) (g : A -> Z) (a : A) l : NoDup l ->
  sumf (fun b => if dec a b then g b else 0) l = if in_dec dec a l then g a else 0.
Proof.
  induction 1 as [|b l Hb HN IH]; [reflexivity|]. rewrite sumf_cons, IH.
  destruct (dec a b) as [->|N].
  - destruct (in_dec dec b l); [contradiction|]. destruct (in_dec dec b (b :: l)) as [|K]; [lia|]. exfalso. apply K. now left.
  - destruct (in_dec dec a l) as [I|I]; destruct (in_dec dec a (b :: l)) as [K|K]; try lia.
    + exfalso. apply K. now right.
    + destruct K; [congruence|contradiction].
Qed.

Lemma eplus_length a : forall b, length a = length b -> length (eplus a b) = length a.
Proof. induction a as [|x a IH]; intros [|y b] H; cbn [eplus length] in *; try lia. rewrite IH by lia. lia. Qed.
Lemma eplus_wsub s : forall b w, length s = length w -> length b = length w -> (eplus s b = w <-> s = wsub w b).
Proof.
  induction s as [|x s IH]; intros [|y b] [|z w] H1 H2; cbn [eplus wsub length] in *; try lia; [tauto|].
  specialize (IH b w ltac:(lia) ltac:(lia)). split; intros E; injection E as E1 E2.
  - f_equal; [lia|]. now apply IH.
  - f_equal; [lia|]. now apply IH.
Qed.
Lemma eplus_tuple m a b s t : is_tuple m a s -> is_tuple m b t -> is_tuple m (a + b) (eplus s t).
Proof.
  intros (L1 & N1 & Z1) (L2 & N2 & Z2). split; [|split].
  - rewrite eplus_length; congruence.
  - clear Z1 Z2. revert t N2 m L1 L2. unfold nonneg in *. induction N1 as [|x s H N1 IH]; intros t N2 m L1 L2; [constructor|].
    destruct N2 as [|y t H' N2]; cbn [eplus]; [constructor|]. constructor; [lia|]. cbn [length] in *. apply (IH t N2 (length s)); lia.
  - clear N1 N2. subst a b. revert t m L1 L2. induction s as [|x s IH]; intros [|y t] m L1 L2; cbn [eplus zsum length] in *; try lia.
    rewrite (IH t (length s)) by lia. lia.
Qed.

Section Top.
  Variables (m : nat) (p e N : Z) (Ps : list (list (list Z * Z))).
  Hypothesis Hm : (0 < m)%nat.
  Hypothesis He : 0 < e.
  Hypothesis HN : e <= N.
  Hypothesis HF : Forall (form m e) Ps.
  Hypothesis HL : length Ps = m.
  Hypothesis Top : forall alpha, is_tuple m N alpha -> exists h : nat -> list Z -> Z, forall t, is_tuple m N t ->
    cong p (if list_eq_dec Z.eq_dec t alpha then 1 else 0)
           (sumf (fun i => sumf (fun s => h i s * coefP (nth i Ps []) s t) (mons m (N - e))) (seq 0 (length Ps))).

  Definition xpow (j : nat) : list (list Z * Z) := [(upd (repeat 0 m) j N, 1)].

  Lemma xvec_tuple j : (j < m)%nat -> is_tuple m N (upd (repeat 0 m) j N).
  Proof.
    intros Hj. split; [|split].
    - now rewrite upd_length, repeat_length.
    - clear - Hj HN He. revert j Hj. unfold nonneg. induction m as [|k IH]; intros [|j] Hj; cbn [repeat upd]; try lia; constructor; try lia; try (apply IH; lia).
      clear. induction k; cbn [repeat]; constructor; auto; lia.
    - clear - Hj. revert j Hj. induction m as [|k IH]; intros [|j] Hj; cbn [repeat upd zsum]; try lia; [|apply IH; lia].
      assert (E : zsum (repeat 0 k) = 0) by (clear; induction k; cbn [repeat zsum]; lia). rewrite E. lia.
  Qed.
  Lemma xpow_Op j : (j < m)%nat -> OpP m (act (xpow j)).
  Proof. intros Hj. eapply (form_Op m N). intros a c [E|[]] _. injection E as <- <-. now apply xvec_tuple. Qed.

  Lemma xpow_val j x w : (j < m)%nat -> length w = m -> act (xpow j) x w = x (upd w j (nth j w 0 - N)).
  Proof.
    intros Hj Hw. unfold act, xpow. rewrite sumf_cons, sumf_nil. cbn [fst snd].
    replace (wsub w (upd (repeat 0 m) j N)) with (upd w j (nth j w 0 - N)); [lia|].
    apply (nth_ext _ _ 0 0); [now rewrite upd_length, wsub_length|]. intros i Hi. rewrite upd_length in Hi.
    rewrite wsub_nth by (rewrite upd_length, repeat_length; lia). destruct (Nat.eq_dec i j) as [->|Nij].
    - rewrite !nth_upd_eq by (rewrite ?repeat_length; lia). lia.
    - rewrite !nth_upd_neq by auto. rewrite nth_repeat. lia.
  Qed.

  Lemma upd_upd {A} (l : list A) i x y : upd (upd l i x) i y = upd l i y.
  Proof. revert i. induction l as [|a l IH]; intros [|i]; cbn [upd]; auto. now rewrite IH. Qed.
  Lemma upd_self (l : list Z) i : (i < length l)%nat -> upd l i (nth i l 0) = l.
  Proof. revert i. induction l as [|a l IH]; intros [|i] H; cbn [upd nth length] in *; auto; try lia. now rewrite IH by lia. Qed.
  Lemma upd_nonneg l i x : nonneg l -> 0 <= x -> nonneg (upd l i x).
  Proof.
    unfold nonneg. intros H Hx. revert i. induction H; intros [|i]; cbn [upd]; constructor; auto.
  Qed.

  Definition Tj (j : nat) (x : list Z -> Z) : Prop := forall w, length w = m -> nonneg w -> (forall l, (l < j)%nat -> nth l w 0 < N) -> cong p (x w) 0.

  Lemma reg_powers k : forall j S, (j + k = m)%nat -> (forall x, Gs m x -> (S x <-> Tj j x)) -> regs (Gs m) S (map (fun j => act (xpow j)) (seq j k)).
  Proof.
    induction k as [|k IH]; intros j S Hjk HS; cbn [seq map regs]; auto. assert (Hj : (j < m)%nat) by lia. split.
    - intros y Gy Hy. apply HS in Hy; [|apply OpP_G; auto; now apply xpow_Op]. apply HS; auto. intros w Lw Nw Bw.
      specialize (Hy (upd w j (nth j w 0 + N))). rewrite xpow_val in Hy by (rewrite ?upd_length; auto).
      rewrite nth_upd_eq, upd_upd in Hy by lia. replace (nth j w 0 + N - N) with (nth j w 0) in Hy by lia. rewrite upd_self in Hy by lia.
      apply Hy; [now rewrite upd_length|apply upd_nonneg; auto; pose proof (nonneg_nth w j Nw); lia|].
      intros l Hl. rewrite nth_upd_neq by lia. auto.
    - apply IH; [lia|]. intros x Gx. unfold quot. split.
      + intros (y & Gy & Hy) w Lw Nw Bw. apply HS in Hy; [|apply (s_sub _ (Gs_sub m)); auto; apply OpP_G; auto; now apply xpow_Op].
        specialize (Hy w Lw Nw ltac:(intros; apply Bw; lia)). cbv beta in Hy. rewrite xpow_val in Hy by auto.
        rewrite (Gs_0 m y) in Hy; auto; [now rewrite Z.sub_0_r in Hy|]. intros (_ & K). apply (nonneg_nth _ j) in K.
        rewrite nth_upd_eq in K by lia. specialize (Bw j ltac:(lia)). lia.
      + intros Hx. exists (fun w => if Nat.eqb (length w) m && forallb (Z.leb 0) w then x (upd w j (nth j w 0 + N)) else 0).
        assert (B : forall w, (Nat.eqb (length w) m && forallb (Z.leb 0) w) = true <-> length w = m /\ nonneg w).
        { intros w. rewrite andb_true_iff, Nat.eqb_eq, forallb_forall. unfold nonneg. rewrite Forall_forall. 
          split; intros (U & V); split; auto; intros z Hz; specialize (V z Hz); apply Z.leb_le; auto. }
        assert (Gy : Gs m (fun w => if Nat.eqb (length w) m && forallb (Z.leb 0) w then x (upd w j (nth j w 0 + N)) else 0)).
        { intros w K. apply B. destruct (_ && _); congruence. }
        split; auto. apply HS; [apply (s_sub _ (Gs_sub m)); auto; apply OpP_G; auto; now apply xpow_Op|].
        intros w Lw Nw Bw. rewrite xpow_val by auto. rewrite upd_length, Lw, Nat.eqb_refl. cbn [andb].
        destruct (Z_lt_le_dec (nth j w 0) N) as [C|C].
        * assert (F : forallb (Z.leb 0) (upd w j (nth j w 0 - N)) = false).
          { destruct (forallb _ _) eqn:F; auto. exfalso. rewrite forallb_forall in F. specialize (F (nth j w 0 - N)).
            assert (K : In (nth j w 0 - N) (upd w j (nth j w 0 - N))).
            { rewrite <- (nth_upd_eq w j (nth j w 0 - N) 0) at 1 by lia. apply nth_In. rewrite upd_length. lia. }
            apply F in K. apply Z.leb_le in K. lia. }
          rewrite F, Z.sub_0_r. apply Hx; auto. intros l Hl. destruct (Nat.eq_dec l j) as [->|]; auto. apply Bw. lia.
        * assert (F : forallb (Z.leb 0) (upd w j (nth j w 0 - N)) = true).
          { specialize (B (upd w j (nth j w 0 - N))). rewrite upd_length, Lw, Nat.eqb_refl in B. cbn [andb] in B. apply B. split; auto. apply upd_nonneg; auto. lia. }
          rewrite F, nth_upd_eq, upd_upd by lia. replace (nth j w 0 - N + N) with (nth j w 0) by lia. rewrite upd_self by lia.
          apply cong_of_eq. lia.
  Qed.

  Lemma mono_killed alpha : is_tuple m N alpha -> killed (Gs m) (OpP m) (S0 p) (map act Ps) (act [(alpha, 1)]).
  Proof.
    intros Ha. destruct (Top alpha Ha) as (h & Hh).
    exists (fun j => act (map (fun s => (s, h j s)) (mons m (N - e)))). split.
    - intros j. eexists. split; [reflexivity|]. intros a c Hi _. apply in_map_iff in Hi. destruct Hi as (s & E & Hs). injection E as <- <-.
      apply mons_In in Hs; auto. destruct Hs as (A & B & _). auto.
    - intros x Gx w. rewrite map_length. replace 0 with (act [(alpha, 1)] x w - act [(alpha, 1)] x w) by lia.
      apply cong_sub; [apply cong_refl|].
      destruct (Nat.eq_dec (length w) m) as [Lw|Lw].
      2:{ assert (Z0 : forall f y, OpP m f -> Gs m y -> f y w = 0).
          { intros f y Hf Hy. apply (Gs_0 m); [|tauto]. now apply OpP_G. }
          rewrite (Z0 (act [(alpha, 1)])); auto.
          2:{ eapply (form_Op m N). intros a c [E|[]] _. injection E as <- <-. auto. }
          apply cong_of_eq. apply sumf_zero. intros j Hj. apply in_seq in Hj. apply Z0.
          - eexists. split; [reflexivity|]. intros a c Hi _. apply in_map_iff in Hi. destruct Hi as (s & E & Hs). injection E as <- <-.
            apply mons_In in Hs; auto. destruct Hs as (A & B & _). auto.
          - rewrite (nth_indep _ (fun x => x) (act [])) by (rewrite map_length; lia). rewrite (map_nth act). apply OpP_G; auto. 
            eapply (form_Op m e). rewrite Forall_forall in HF. apply HF, nth_In. lia. }
      apply cong_trans with (sumf (fun t => sumf (fun i => sumf (fun s => h i s * coefP (nth i Ps []) s t) (mons m (N - e))) (seq 0 (length Ps)) * x (wsub w t)) (mons m N)).
      + apply cong_of_eq.
        transitivity (sumf (fun i => sumf (fun t => sumf (fun s => h i s * coefP (nth i Ps []) s t) (mons m (N - e)) * x (wsub w t)) (mons m N)) (seq 0 (length Ps))).
        2:{ rewrite sumf_swap. apply sumf_ext. intros t _. now rewrite sumf_scal_r. }
        apply sumf_ext. intros i Hi. apply in_seq in Hi.
        rewrite (nth_indep _ (fun x => x) (act [])) by (rewrite map_length; lia). rewrite (map_nth act).
        assert (FP : form m e (nth i Ps [])). { rewrite Forall_forall in HF. apply HF, nth_In. lia. }
        set (P := nth i Ps []) in *. unfold act at 1. rewrite sumf_map.
        transitivity (sumf (fun s => sumf (fun t => h i s * coefP P s t * x (wsub w t)) (mons m N)) (mons m (N - e))).
        2:{ rewrite sumf_swap. apply sumf_ext. intros t _. now rewrite sumf_scal_r. }
        apply sumf_ext. intros s Hs. apply mons_In in Hs; auto. cbn [fst snd].
        rewrite (sumf_ext _ (fun t => h i s * (coefP P s t * x (wsub w t)))) by (intros; ring). rewrite sumf_scal. f_equal.
        unfold act, coefP.
        transitivity (sumf (fun bc => sumf (fun t => (if list_eq_dec Z.eq_dec (eplus s (fst bc)) t then snd bc * x (wsub w t) else 0)) (mons m N)) P).
        2:{ rewrite sumf_swap. apply sumf_ext. intros t _. rewrite <- sumf_scal_r. apply sumf_ext. intros bc _. destruct (list_eq_dec _ _ _); lia. }
        apply sumf_ext. intros [b c] Hb. cbn [fst snd].
        rewrite (sumf_pick (list_eq_dec Z.eq_dec) (fun t => c * x (wsub w t)) (eplus s b)) by apply mons_NoDup.
        destruct (Z.eq_dec c 0) as [->|Nc]; [destruct (in_dec _ _ _); lia|].
        pose proof (FP b c Hb Nc) as Tb. destruct (in_dec _ _ _) as [|K].
        * rewrite wsub_eplus; [reflexivity| |]; destruct Hs as (L1 & _); destruct Tb as (L2 & _); lia.
        * exfalso. apply K. apply mons_In; auto. replace N with (N - e + e) by lia. now apply eplus_tuple.
      + apply cong_trans with (sumf (fun t => (if list_eq_dec Z.eq_dec t alpha then 1 else 0) * x (wsub w t)) (mons m N)).
        * apply cong_sumf. intros t Ht. apply mons_In in Ht; auto. apply cong_mul; [|apply cong_refl]. symmetry. auto.
        * apply cong_of_eq. unfold act. rewrite sumf_cons, sumf_nil. cbn [fst snd].
          rewrite (sumf_ext _ (fun t => if list_eq_dec Z.eq_dec alpha t then x (wsub w t) else 0)).
          -- rewrite (sumf_pick (list_eq_dec Z.eq_dec) (fun t => x (wsub w t)) alpha) by apply mons_NoDup. destruct (in_dec _ _ _) as [|K]; [lia|].
             exfalso. apply K. now apply mons_In.
          -- intros t _. destruct (list_eq_dec _ t alpha), (list_eq_dec _ alpha t); congruence || lia.
  Qed.

  Theorem koszul_exact : vanishH m p e Ps.
  Proof.
    apply vanish_H; auto.
    pose proof (depth (Gs m) (OpP m) (Gs_sub m) (OpP_lin m) (OpP_comm m) (OpP_G m) (map act Ps) (forms_Op m e Ps HF)
      (map (fun j => act (xpow j)) (seq 0 m)) (S0 p) (S0_good m p)) as D.
    replace 0 with (Z.of_nat (length (map act Ps)) - Z.of_nat (length (map (fun j => act (xpow j)) (seq 0 m)))) by (rewrite !map_length, seq_length; lia).
    apply D; clear D.
    - apply Forall_forall. intros f Hf. apply in_map_iff in Hf. destruct Hf as (j & <- & Hj). apply in_seq in Hj. apply xpow_Op. lia.
    - apply Forall_forall. intros f Hf. apply in_map_iff in Hf. destruct Hf as (j & <- & Hj). apply in_seq in Hj. apply mono_killed, xvec_tuple. lia.
    - apply reg_powers; [lia|]. intros x Gx. unfold S0, Tj. split; [auto|]. intros H w.
      destruct (Z.eq_dec (x w) 0) as [->|Nx]; [apply cong_refl|]. destruct (Gx w Nx). apply H; auto. intros; lia.
  Qed.
End Top.
