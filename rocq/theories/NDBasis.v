(** Proofs: from the cokernel coordinates to the cohomology basis (C37). *)
From Coq Require Import ZArith List Lia Bool.
From Verif Require Import Base VecModel VecSpec VecProofs ToolsModel ToolsSpec ToolsProofs PolyProofs
  MatModel MatProofs DRModel DRSpec DRProofs DRRed DRStep DRFinal DRPath NDModel NDSpec NDMat NDRed NDCol NDStep.
Import ListNotations.
Open Scope Z_scope.

Lemma mapM_rel {A B} (f : A -> res B) (P : A -> B -> Prop) l :
  (forall a, In a l -> exists b, f a = OK b /\ P a b) -> exists r, mapM f l = OK r /\ Forall2 P l r.
Proof.
  induction l as [|a l IH]; intros H; cbn [mapM].
  - exists []. auto.
  - destruct (H a) as (b & Hb & Pb); [now left|]. destruct IH as (r & Hr & Pr); [intros; apply H; now right|].
    rewrite Hb. cbn [bind]. rewrite Hr. cbn [bind]. eauto.
Qed.

Lemma Forall2_In_l {A B} (P : A -> B -> Prop) l r : Forall2 P l r -> forall a, In a l -> exists b, In b r /\ P a b.
Proof. induction 1 as [|a0 b0 l r H F IH]; intros a []; subst; firstorder. Qed.

Lemma Forall2_len {A B} (P : A -> B -> Prop) l r : Forall2 P l r -> length l = length r.
Proof. induction 1; cbn [length]; auto. Qed.

Lemma Forall2_concat {A B} (P : A -> B -> Prop) l r : Forall2 (Forall2 P) l r -> Forall2 P (concat l) (concat r).
Proof. induction 1; cbn [concat]; auto. now apply Forall2_app. Qed.

Section NDBASIS.
  Variables (slv : solver) (N : dND).
  Notation D := (nd_dr N).
  Hypothesis ninv : nd_inv slv N.
  Hypothesis Hslv : solver_ok (r_q D) slv.
  Hypothesis Hq : 2 <= r_q D.
  Hypothesis Hn : (1 <= r_n D)%nat.
  Notation n := (r_n D).
  Notation d := (r_d D).
  Notation q := (r_q D).
  Notation zn := (Z.of_nat (r_n D)).
  Notation E l := (enum (S n) (Z.to_nat l)).
  Notation bas := (r_basis D).
  Notation nbas := (nd_basis N).
  Let inv : dr_inv slv D := ni_dr _ _ ninv.

  Notation LF := (E (degG D - zn)).
  Notation LT := (E (deg_top D)).
  Notation LH := (E (d * zn - (zn + 1))).
  Notation pairs := (list_prod (seq 0 (S n)) (seq 0 (length LF))).

  Lemma pairs_in i k : In (i, k) pairs <-> (i <= n)%nat /\ (k < length LF)%nat.
  Proof. rewrite in_prod_iff, !in_seq. lia. Qed.

  Lemma ndeg : degG D = d * zn - zn /\ deg_top D = d * zn - 2 * zn + d - 1 /\ 1 <= zn < d /\
    0 <= d * zn - 2 * zn /\ 0 <= d * zn - (zn + 1) /\ 0 <= deg_top D /\ deg_top D <= (zn + 1) * d.
  Proof.
    pose proof (inv_nd _ _ inv). pose proof (degs slv D inv) as (H1 & H2 & H3 & H4 & H5 & H6 & H7 & H8 & H9 & H10).
    unfold degG, deg_top in *. nia.
  Qed.

  (** x^(a+w) with |w| the degree where the Jacobian ideal is everything *)
  Lemma top_class U : (exists T, matrix_J D (deg_top D) = OK ((S n * length LF)%nat, T) /\
      (forall i j, (i < length LT)%nat -> (j < length LT)%nat ->
         cong q (sumf (fun k => mget T i k * mget U k j) (seq 0 (S n * length LF))) (if Nat.eqb i j then 1 else 0)) /\
      (forall (X : vec -> Z) i j, (i <= n)%nat -> (j < length LF)%nat ->
        sumf (fun r => mget T r (i * length LF + j) * X (nth r LT [])) (seq 0 (length LT)) =
        sumf (fun t => if 0 <? nth i (fst t) 0
                       then ((nth i (fst t) 0 * snd t) mod q) * X (eminus (eplus (nth j LF []) (fst t)) i) else 0) (r_f D))) ->
    forall phi m a cw, GD q n d (r_f D) phi -> is_tuple (S n) (d * m - (d * zn - 2 * zn) - zn) a -> (cw < length LT)%nat ->
    cong q (sumf (fun ik => mget U (fst ik * length LF + snd ik) cw *
              (nth (fst ik) (vadd a (nth (snd ik) LF [])) 0 * phi m (eminus (vadd a (nth (snd ik) LF [])) (fst ik)))) pairs)
           (phi (m + 1) (vadd a (nth cw LT []))).
  Proof.
    intros (T & _ & C3 & C4) phi m a cw Hphi (A1 & A2 & A3) Hcw.
    destruct ndeg as (G1 & G2 & G3 & G4 & G5 & G6 & G7).
    transitivity (sumf (fun ik => mget U (fst ik * length LF + snd ik) cw *
       sumf (fun r => mget T r (fst ik * length LF + snd ik) * phi (m + 1) (vadd a (nth r LT []))) (seq 0 (length LT))) pairs).
    { apply cong_sumf. intros [i k] Hik. cbn [fst snd]. apply pairs_in in Hik. destruct Hik as [Hi Hk].
      apply cong_mul; [reflexivity|].
      pose proof (LF_tuple slv D inv k Hk) as (S1 & S2 & S3). set (s := nth k LF []) in *.
      rewrite (C4 (fun w => phi (m + 1) (vadd a w)) i k Hi Hk). fold s.
      assert (Hh : is_tuple (S n) (d * m - zn) (vadd a s)).
      { replace (d * m - zn) with (d * m - (d * zn - 2 * zn) - zn + (degG D - zn)) by lia. apply tuple_vadd; split; auto. }
      rewrite <- (Hphi m i (vadd a s) Hi Hh). apply cong_sumf. intros [b cc] Ht. cbn [fst snd].
      pose proof (inv_h _ _ inv _ _ Ht) as (T1 & T2 & T3).
      destruct (Z.ltb_spec 0 (nth i b 0)) as [Hb|Hb].
      - rewrite cong_mod. replace (vadd a (eminus (eplus s b) i)) with (eminus (eplus (vadd a s) b) i); [reflexivity|].
        rewrite !eplus_vadd. apply vec_ext.
        + rewrite eminus_length. rewrite !(vadd_length _ _ (S n)); auto using vadd_length.
          rewrite eminus_length. now apply vadd_length.
        + intros j Hj. rewrite eminus_length, (vadd_length _ _ (S n)) in Hj by auto using vadd_length.
          assert (La : length (vadd s b) = S n) by now apply vadd_length.
          assert (Lu : length (vadd a s) = S n) by now apply vadd_length.
          rewrite eminus_nth by (rewrite (vadd_length _ _ (S n)); auto; lia).
          rewrite !vadd_nth by (rewrite ?eminus_length; congruence).
          rewrite eminus_nth by lia. rewrite vadd_nth by congruence. lia.
      - pose proof (nonneg_nth b i T2). replace (nth i b 0) with 0 by lia. apply cong_of_eq. ring. }
    transitivity (sumf (fun r => sumf (fun k => mget T r k * mget U k cw) (seq 0 (S n * length LF)) * phi (m + 1) (vadd a (nth r LT []))) (seq 0 (length LT))).
    { apply cong_of_eq.
      transitivity (sumf (fun r => sumf (fun ik => mget T r (fst ik * length LF + snd ik) * mget U (fst ik * length LF + snd ik) cw) pairs * phi (m + 1) (vadd a (nth r LT []))) (seq 0 (length LT))).
      - transitivity (sumf (fun ik => sumf (fun r => mget T r (fst ik * length LF + snd ik) * mget U (fst ik * length LF + snd ik) cw * phi (m + 1) (vadd a (nth r LT []))) (seq 0 (length LT))) pairs).
        + apply sumf_ext. intros [i k] _. cbn [fst snd]. rewrite <- sumf_scal. apply sumf_ext. intros. ring.
        + rewrite sumf_swap. apply sumf_ext. intros. now rewrite sumf_scal_r.
      - apply sumf_ext. intros r _. f_equal.
        symmetry. apply (sumf_prod_seq (fun k => mget T r k * mget U k cw)). }
    rewrite (cong_sumf q _ (fun r => (if Nat.eqb r cw then 1 else 0) * phi (m + 1) (vadd a (nth r LT [])))).
    2:{ intros r Hr. apply in_seq in Hr. rewrite C3 by (auto; lia). reflexivity. }
    rewrite (sumf_seq_single _ 0 (length LT) cw); [|lia|].
    - rewrite Nat.eqb_refl, Z.mul_1_l. reflexivity.
    - intros r _ Hne. apply Nat.eqb_neq in Hne. rewrite Hne. lia.
  Qed.

  Variable u : vec.
  Hypothesis Lu : length u = S n.
  Hypothesis Pu : positive u = true.
  Hypothesis Su : zsum u = d.

  Lemma upos k : (k <= n)%nat -> 0 < nth k u 0.
  Proof. intros Hk. apply (proj1 (positive_iff _) Pu). lia. Qed.

  (** what a column must be *)
  Definition colP (b : vec) (col : list Z) : Prop :=
    length col = length bas /\
    forall phi psi, GD q n d (r_f D) phi -> basis_val q n d bas phi psi ->
      cong q (ev_basis psi bas col) (log_of d phi (vadd u b)).

  Lemma log_val phi l b : is_tuple (S n) (l * d) b ->
    log_of d phi (vadd u b) = phi (l + 1) (vadd b (epred u)).
  Proof.
    destruct ndeg as (_ & _ & G3 & _). intros (B1 & B2 & B3).
    assert (Lub : length (vadd u b) = S n) by now apply vadd_length.
    unfold log_of, phi_div. replace (positive (vadd u b)) with true.
    - rewrite zsum_vadd by congruence. rewrite Su, B3. replace ((d + l * d) / d) with (l + 1).
      2:{ replace (d + l * d) with ((l + 1) * d) by ring. now rewrite Z.div_mul by lia. }
      f_equal. apply vec_ext.
      + rewrite epred_length, (vadd_length _ _ (S n)), (vadd_length _ _ (S n)); auto. now rewrite epred_length.
      + intros j Hj. rewrite epred_length in Hj. rewrite epred_nth, !vadd_nth by (rewrite ?epred_length; congruence).
        rewrite epred_nth by lia. lia.
    - symmetry. apply positive_iff. intros j Hj. rewrite Lub in Hj. rewrite vadd_nth by congruence.
      pose proof (upos j ltac:(lia)). pose proof (nonneg_nth b j B2). lia.
  Qed.

  Lemma epu_tuple : is_tuple (S n) (d - (zn + 1)) (epred u).
  Proof.
    split; [now rewrite epred_length|]. split.
    - apply nonneg_iff. rewrite epred_length. intros j Hj. rewrite epred_nth by auto. pose proof (upos j ltac:(lia)). lia.
    - rewrite epred_sum. lia.
  Qed.

  Lemma checks_u : forallb (fun i => 0 <? nth i u 0) (seq 0 (S n)) = true /\
    (sumf (fun i => nth i u 0) (seq 0 (S n)) =? d) = true.
  Proof.
    split.
    - apply forallb_forall. intros i Hi. apply in_seq in Hi. apply Z.ltb_lt, upos. lia.
    - apply Z.eqb_eq. rewrite sumf_nth_zsum by auto. exact Su.
  Qed.

  Lemma ev_poly_unit phi k (L : list vec) j : (j < length L)%nat ->
    ev_poly phi k L (unit_at (length L) j) = phi k (nth j L []).
  Proof.
    intros Hj. unfold ev_poly. rewrite (sumf_seq_single _ 0 (length L) j); [|lia|].
    - rewrite (unit_at_nth D Hn), Nat.eqb_refl by auto. ring.
    - intros i _ Hi. rewrite (unit_at_nth D Hn) by auto. destruct (Nat.eqb_spec j i); [congruence|ring].
  Qed.

  (** a level below n *)
  Lemma low_level l b : 0 <= l < zn -> init_ND_level slv D (hilbert_ND n d) l = OK b ->
    exists cols, (M <- get_final_reduction_matrix_J slv D (l + 1) ;;
                  incl <- get_inclusion_matrix_ND slv N u l ;;
                  mapM (mat_vec q M) incl) = OK cols /\ Forall2 colP b cols.
  Proof.
    intros Hl Hb. destruct ndeg as (G1 & G2 & G3 & G4 & G5 & G6 & G7).
    destruct (nlevel_ok slv N ninv Hslv l b ltac:(lia) Hb) as (nc & T & B & U & _ & _ & Hs & (_ & HB & _) & _ & -> & _).
    destruct (final_class_all slv D inv Hslv Hq (l + 1) ltac:(lia)) as (M & F1 & F2 & F3).
    rewrite F1. cbn [bind].
    set (dd := (l + 1) * d - (zn + 1)) in *. assert (Hdd : 0 <= dd <= (zn + 1) * d) by (unfold dd; nia).
    unfold get_inclusion_matrix_ND. destruct checks_u as [C1 C2]. rewrite C1, C2. unfold check at 1 2 3. cbn [bind].
    replace (l <? zn) with true by (symmetry; apply Z.ltb_lt; lia). cbn [bind].
    rewrite Hs. cbn [bind fst]. rewrite (inv_tl _ _ inv) by nia. cbn [bind]. fold dd.
    rewrite (inv_tl _ _ inv) by lia. cbn [bind]. rewrite (inv_td _ _ inv) by lia. cbn [bind].
    assert (HE : forall k, In k B -> is_tuple (S n) (l * d) (nth k (E (l * d)) [])).
    { intros k Hk. apply enum_tuple; [nia|]. apply nth_In. auto. }
    assert (HW : forall k, In k B -> is_tuple (S n) (Z.of_nat (Z.to_nat dd)) (vadd (nth k (E (l * d)) []) (epred u))).
    { intros k Hk. rewrite Z2Nat.id by lia. replace dd with (l * d + (d - (zn + 1))) by (unfold dd; lia).
      apply tuple_vadd; [|apply epu_tuple]. auto. }
    set (jj := fun k => pos n (Z.to_nat dd) (vadd (nth k (E (l * d)) []) (epred u))).
    rewrite (mapM_total _ (fun k => unit_at (length (E dd)) (jj k))).
    2:{ intros k Hk. replace (get_at (E (l * d)) (Z.of_nat k)) with (OK (nth k (E (l * d)) [])).
        2:{ symmetry. apply get_at_ok. split; [lia|]. rewrite Nat2Z.id. apply nth_error_nth'. auto. }
        cbn [bind]. pose proof (HW k Hk) as W. rewrite vec_add_ok.
        2:{ rewrite map_length, Lu. apply (HE k Hk). }
        cbn [bind]. change (map (fun x => x - 1) u) with (epred u).
        destruct (pos_ok _ _ _ W) as (P1 & P2 & P3). rewrite P1. cbn [bind]. unfold check.
        apply Nat.ltb_lt in P2. rewrite P2. reflexivity. }
    cbn [bind].
    destruct (mapM_rel (fun k => mat_vec q M (unit_at (length (E dd)) (jj k))) (fun k col => colP (nth k (E (l * d)) []) col) B) as (cols & X1 & X2).
    { intros k Hk. destruct (F3 (unit_at (length (E dd)) (jj k)) (unit_at_length _ _)) as (w & W1 & W2 & W3).
      exists w. split; [exact W1|]. split; [exact W2|]. intros phi psi Hp Hb'. rewrite (W3 phi psi Hp Hb').
      destruct (pos_ok _ _ _ (HW k Hk)) as (P1 & P2 & P3).
      rewrite ev_poly_unit by exact P2. unfold jj. rewrite P3.
      rewrite (log_val phi l); [reflexivity|]. auto. }
    exists cols. split.
    - rewrite <- X1. clear. induction B as [|k B IH]; auto. cbn [map mapM]. now rewrite IH.
    - clear - X2. induction X2; cbn [map]; auto.
  Qed.

  (** the level n *)
  Lemma high_column U m : (exists T, matrix_J D (deg_top D) = OK ((S n * length LF)%nat, T) /\
      (forall i j, (i < length LT)%nat -> (j < length LT)%nat ->
         cong q (sumf (fun k => mget T i k * mget U k j) (seq 0 (S n * length LF))) (if Nat.eqb i j then 1 else 0)) /\
      (forall (X : vec -> Z) i j, (i <= n)%nat -> (j < length LF)%nat ->
        sumf (fun r => mget T r (i * length LF + j) * X (nth r LT [])) (seq 0 (length LT)) =
        sumf (fun t => if 0 <? nth i (fst t) 0
                       then ((nth i (fst t) 0 * snd t) mod q) * X (eminus (eplus (nth j LF []) (fst t)) i) else 0) (r_f D))) ->
    shape U (S n * length LF) (length LT) ->
    is_tuple (S n) (zn * d) m ->
    exists col, ckn_column slv N u ([], U) LF LH (tuple_index LT) (tuple_index LH) m = OK col /\ colP m col.
  Proof.
    intros HT HU (M1 & M2 & M3). destruct ndeg as (G1 & G2 & G3 & G4 & G5 & G6 & G7).
    unfold ckn_column.
    destruct (tweak_ok m zn M2) as (tt & T1 & T2 & T3 & T4 & T5 & _); [lia|]. rewrite T1. cbn [bind].
    assert (Ltt : length tt = S n) by congruence.
    rewrite vec_sub_ok by congruence. cbn [bind]. set (a := vsub m tt).
    rewrite vec_add_ok by congruence. cbn [bind].
    assert (Ltu : length (vadd tt u) = S n) by now apply vadd_length.
    rewrite vec_sub_ok by (rewrite repeat_length; congruence). cbn [bind].
    assert (Ew : vsub (vadd tt u) (repeat 1 (S n)) = vadd tt (epred u)).
    { apply vec_ext.
      - rewrite (vsub_length _ _ (S n)), (vadd_length _ _ (S n)); auto using repeat_length. now rewrite epred_length.
      - intros j Hj. rewrite (vsub_length _ _ (S n)) in Hj by auto using repeat_length.
        rewrite vsub_nth by (rewrite repeat_length; congruence). rewrite !vadd_nth by (rewrite ?epred_length; congruence).
        rewrite epred_nth by lia. rewrite nth_repeat_any. apply Nat.ltb_lt in Hj. rewrite Hj. lia. }
    rewrite Ew. set (w := vadd tt (epred u)).
    assert (St : zsum tt = zn * d - zn) by (rewrite T4, M3; nia).
    assert (Ta : is_tuple (S n) zn a).
    { split; [now apply vsub_length|]. split.
      - apply nonneg_iff. intros j Hj. unfold a in *. rewrite (vsub_length _ _ (S n)) in Hj by auto.
        rewrite vsub_nth by congruence. specialize (T5 j). lia.
      - unfold a. rewrite zsum_vsub by congruence. lia. }
    assert (Tw : is_tuple (S n) (Z.of_nat (Z.to_nat (deg_top D))) w).
    { rewrite Z2Nat.id by lia. replace (deg_top D) with (zn * d - zn + (d - (zn + 1))) by lia.
      apply tuple_vadd; [split; auto|apply epu_tuple]. }
    destruct (pos_ok _ _ _ Tw) as (P1 & P2 & P3). rewrite P1. cbn [bind snd].
    set (cw := pos n _ w) in *.
    set (F := map (fun row => nth cw row 0) U).
    assert (HF : forall j, (j < S n * length LF)%nat -> nth j F 0 = mget U j cw).
    { intros j Hj. unfold F. rewrite (nth_map_lt _ _ _ _ []) by (destruct HU as [-> _]; lia). reflexivity. }
    unfold check at 1. replace (Nat.leb (S n * length LF) (length F)) with true.
    2:{ symmetry. apply Nat.leb_le. unfold F. rewrite map_length. destruct HU as [-> _]. lia. }
    cbn [bind].
    assert (La : length a = S n) by apply Ta.
    assert (HLF : forall k, (k < length LF)%nat -> is_tuple (S n) (degG D - zn) (nth k LF [])).
    { intros k Hk. apply (LF_tuple slv D inv k Hk). }
    assert (Tas : forall k, (k < length LF)%nat -> is_tuple (S n) (d * zn - zn) (vadd a (nth k LF []))).
    { intros k Hk. replace (d * zn - zn) with (zn + (degG D - zn)) by lia. apply tuple_vadd; auto. }
    assert (Key : forall i k, (i <= n)%nat -> (k < length LF)%nat -> 0 < nth i (vadd a (nth k LF [])) 0 ->
       is_tuple (S n) (Z.of_nat (Z.to_nat (d * zn - (zn + 1)))) (eminus (vadd a (nth k LF [])) i)).
    { intros i k Hi Hk Hp. rewrite Z2Nat.id by lia. destruct (Tas k Hk) as (A1 & A2 & A3).
      split; [now rewrite eminus_length|]. split.
      - apply nonneg_iff. rewrite eminus_length. intros x Hx. rewrite eminus_nth by lia.
        pose proof (nonneg_nth _ x A2). destruct (Nat.eqb_spec i x); subst; lia.
      - rewrite eminus_sum by lia. lia. }
    set (up := fun ik : nat * nat => let i := fst ik in let as_ := vadd a (nth (snd ik) LF []) in
       if 0 <? nth i as_ 0 then [(pos n (Z.to_nat (d * zn - (zn + 1))) (eminus as_ i), (nth i as_ 0 * nth (i * length LF + snd ik) F 0) mod q)] else []).
    rewrite (mapM_total _ up).
    2:{ intros [i k] Hik. apply pairs_in in Hik. destruct Hik as [Hi Hk]. cbn [fst snd]. unfold up. cbn [fst snd].
        assert (Ls : length (nth k LF []) = S n) by apply (HLF k Hk).
        rewrite <- vadd_nth by congruence.
        destruct (Z.ltb_spec 0 (nth i (vadd a (nth k LF [])) 0)) as [Hp|]; auto.
        rewrite vec_add_ok by congruence. cbn [bind].
        rewrite <- eminus_upd by (rewrite (vadd_length _ _ (S n)); auto; lia).
        rewrite (proj1 (pos_ok _ _ _ (Key i k Hi Hk Hp))). reflexivity. }
    cbn [bind]. set (us := concat (map up pairs)).
    assert (Hus : forall r x, In (r, x) us -> (r < length LH)%nat).
    { intros r x Hin. unfold us in Hin. apply in_concat in Hin. destruct Hin as (l0 & Hl0 & Hin).
      apply in_map_iff in Hl0. destruct Hl0 as ([i j] & <- & Hij). apply pairs_in in Hij. destruct Hij as [Hi Hj].
      unfold up in Hin. cbn [fst snd] in Hin. destruct (Z.ltb_spec 0 (nth i (vadd a (nth j LF [])) 0)) as [Hp|]; [|destruct Hin].
      destruct Hin as [Hin|[]]. injection Hin as <- _. apply (pos_ok _ _ _ (Key i j Hi Hj Hp)). }
    unfold check at 1. replace (forallb _ us) with true.
    2:{ symmetry. apply forallb_forall. intros [r x] Hin. cbn [fst]. apply Nat.ltb_lt. eauto. }
    cbn [bind]. set (H := vadd_all q us (repeat 0 (length LH))).
    assert (HHl : length H = length LH) by (unfold H; now rewrite vadd_all_length, repeat_length).
    destruct (final_class_all slv D inv Hslv Hq zn ltac:(lia)) as (M & F1 & F2 & F3).
    rewrite F1. cbn [bind].
    replace (zn * d - (zn + 1)) with (d * zn - (zn + 1)) in F2, F3 by lia.
    destruct (F3 H HHl) as (col & W1 & W2 & W3). exists col. split; [exact W1|]. split; [exact W2|].
    intros phi psi Hp Hb. rewrite (W3 phi psi Hp Hb).
    (* the value *)
    transitivity (sumf (fun ik => mget U (fst ik * length LF + snd ik) cw *
              (nth (fst ik) (vadd a (nth (snd ik) LF [])) 0 * phi zn (eminus (vadd a (nth (snd ik) LF [])) (fst ik)))) pairs).
    { unfold ev_poly. transitivity (sumf (fun x => phi zn (nth x LH []) * nth x H 0) (seq 0 (length LH))).
      { apply cong_of_eq, sumf_ext. intros. ring. }
      assert (Hus' : forall i x, In (i, x) us -> (i < length (repeat 0%Z (length LH)))%nat) by (rewrite repeat_length; exact Hus).
      pose proof (vadd_all_wsum q us (repeat 0 (length LH)) (fun x => phi zn (nth x LH [])) Hus') as V.
      rewrite repeat_length in V. fold H in V. rewrite V. clear V.
      rewrite (sumf_zero (fun i => phi zn (nth i LH []) * nth i (repeat 0 (length LH)) 0)).
      2:{ intros i _. rewrite nth_repeat_any. destruct (Nat.ltb _ _); ring. }
      rewrite Z.add_0_l. unfold us. rewrite sumf_concat, sumf_map. apply cong_sumf. intros [i j] Hij.
      apply pairs_in in Hij. destruct Hij as [Hi Hj]. unfold up. cbn [fst snd].
      destruct (Z.ltb_spec 0 (nth i (vadd a (nth j LF [])) 0)) as [Hpp|Hpp].
      - rewrite sumf_cons, sumf_nil. cbn [fst snd].
        destruct (pos_ok _ _ _ (Key i j Hi Hj Hpp)) as (_ & _ & P3'). rewrite P3', cong_mod, HF by nia. apply cong_of_eq. ring.
      - rewrite sumf_nil. destruct (Tas j Hj) as (_ & A2 & _). pose proof (nonneg_nth _ i A2).
        replace (nth i (vadd a (nth j LF [])) 0) with 0 by lia. apply cong_of_eq. ring. }
    assert (Ta' : is_tuple (S n) (d * zn - (d * zn - 2 * zn) - zn) a) by (replace (d * zn - (d * zn - 2 * zn) - zn) with zn by lia; exact Ta).
    rewrite (top_class U HT phi zn a cw Hp Ta' P2). rewrite (log_val phi zn m) by (split; auto).
    rewrite P3. apply cong_of_eq. f_equal. unfold w. rewrite vadd_assoc.
    - f_equal. apply vec_ext.
      + rewrite (vadd_length _ _ (S n)); auto.
      + intros j Hj. rewrite (vadd_length _ _ (S n)) in Hj by auto. rewrite vadd_nth by congruence.
        unfold a. rewrite vsub_nth by congruence. lia.
    - congruence.
    - rewrite epred_length. congruence.
  Qed.

  Lemma transpose_class cols : Forall2 colP nbas cols -> forall G, length G = length nbas ->
    exists w, mat_vec q (transpose (length nbas) (length bas) cols) G = OK w /\ length w = length bas /\
    forall phi psi, GD q n d (r_f D) phi -> basis_val q n d bas phi psi ->
      cong q (ev_basis psi bas w) (ev_ND (log_of d phi) u nbas G).
  Proof.
    intros HC G LG. destruct (mat_vec_ok q (transpose (length nbas) (length bas) cols) G (length bas)) as (w & W1 & W2 & W3).
    { rewrite LG. apply transpose_shape. }
    exists w. split; auto. split; auto. intros phi psi Hp Hb. unfold ev_basis, ev_ND.
    transitivity (sumf (fun i => sumf (fun c => mget cols c i * nth c G 0) (seq 0 (length nbas)) * psi (nth i bas [])) (seq 0 (length bas))).
    { apply cong_sumf. intros i Hi. apply in_seq in Hi. rewrite W3 by lia. rewrite LG, cong_mod. apply cong_of_eq. f_equal.
      apply sumf_ext. intros c Hc. apply in_seq in Hc. rewrite transpose_get by lia. reflexivity. }
    transitivity (sumf (fun c => nth c G 0 * ev_basis psi bas (nth c cols [])) (seq 0 (length nbas))).
    { apply cong_of_eq.
      transitivity (sumf (fun i => sumf (fun c => mget cols c i * nth c G 0 * psi (nth i bas [])) (seq 0 (length nbas))) (seq 0 (length bas))).
      - apply sumf_ext. intros. now rewrite sumf_scal_r.
      - rewrite sumf_swap. apply sumf_ext. intros c _. unfold ev_basis. rewrite <- sumf_scal. apply sumf_ext. intros. unfold mget. ring. }
    apply cong_sumf. intros c Hc. apply in_seq in Hc. apply cong_mul; [reflexivity|].
    destruct (Forall2_nth_error _ _ _ c (nth c nbas []) HC) as (col & C1 & _ & C2).
    { apply nth_error_nth'. lia. }
    rewrite (nth_error_nth _ _ _ C1). rewrite (C2 phi psi Hp Hb), eplus_vadd. reflexivity.
  Qed.

  Lemma ckn_ok : exists M, get_coKernels_ND_to_basis slv N u = OK M /\ shape M (length bas) (length nbas) /\
    forall G, length G = length nbas -> exists w, mat_vec q M G = OK w /\ length w = length bas /\
    forall phi psi, GD q n d (r_f D) phi -> basis_val q n d bas phi psi ->
      cong q (ev_basis psi bas w) (ev_ND (log_of d phi) u nbas G).
  Proof.
    destruct ndeg as (G1 & G2 & G3 & G4 & G5 & G6 & G7).
    destruct (nbasis_levels slv N ninv) as (bs & HB & Hc).
    rewrite zseq_snoc in HB by lia. apply Forall2_app_inv_l in HB. destruct HB as (bl & bh & HL & HH & ->).
    inversion HH as [|? btop ? ? HT HH']; subst. inversion HH'; subst. clear HH HH'.
    unfold get_coKernels_ND_to_basis. destruct checks_u as [C1 C2]. rewrite C1, C2. unfold check at 1 2. cbn [bind].
    assert (X : exists low, mapM (fun l => M <- get_final_reduction_matrix_J slv D (l + 1) ;;
                  incl <- get_inclusion_matrix_ND slv N u l ;;
                  mapM (mat_vec q M) incl) (zseq 0 zn) = OK low /\ Forall2 (Forall2 colP) bl low).
    { assert (HL' : Forall2 (fun l b => 0 <= l < zn /\ init_ND_level slv D (hilbert_ND n d) l = OK b) (zseq 0 zn) bl).
      { eapply Forall2_impl; [|exact HL]. cbn beta. intros l b Hl Hb. apply zseq_In in Hl. auto. }
      clear HL Hc. induction HL' as [|l b ls bl [Hl Hb] _ IH]; cbn [mapM].
      - exists []. auto.
      - destruct IH as (low & I1 & I2). destruct (low_level l b Hl Hb) as (cols & L1 & L2).
        rewrite L1. cbn [bind]. rewrite I1. cbn [bind]. eauto. }
    destruct X as (low & X1 & X2). rewrite X1. cbn [bind].
    destruct (top_solve slv D inv Hslv) as (T & U & M1 & M2 & M3 & M4 & M5 & M6).
    rewrite M3. cbn [bind].
    destruct (nlevel_ok slv N ninv Hslv zn btop ltac:(lia) HT) as (nc & T' & B & U' & _ & _ & Hs & (_ & HB & _) & _ & -> & _).
    rewrite (Z.mul_comm d zn), Hs. cbn [bind fst].
    rewrite (Z.mul_comm zn d).
    rewrite (inv_tl _ _ inv (d * zn - 2 * zn)) by nia. cbn [bind].
    rewrite (inv_tl _ _ inv (d * zn)) by nia. cbn [bind].
    rewrite (inv_tl _ _ inv (d * zn - (zn + 1))) by nia. cbn [bind].
    rewrite (inv_td _ _ inv (deg_top D)) by nia. cbn [bind].
    rewrite (inv_td _ _ inv (d * zn - (zn + 1))) by nia. cbn [bind].
    replace (d * zn - 2 * zn) with (degG D - zn) by lia.
    rewrite (Z.mul_comm zn d) in HB.
    assert (HE : forall k, In k B -> is_tuple (S n) (zn * d) (nth k (E (d * zn)) [])).
    { intros k Hk. rewrite (Z.mul_comm zn d). apply enum_tuple; [nia|]. apply nth_In. auto. }
    match goal with |- context [mapM ?f B] => destruct (mapM_rel f (fun k col => colP (nth k (E (d * zn)) []) col) B) as (high & Y1 & Y2) end.
    { intros k Hk. replace (get_at (E (d * zn)) (Z.of_nat k)) with (OK (nth k (E (d * zn)) [])).
      2:{ symmetry. apply get_at_ok. split; [lia|]. rewrite Nat2Z.id. apply nth_error_nth'. auto. }
      cbn [bind]. apply high_column; auto. exists T. auto. }
    rewrite Y1. cbn [bind].
    assert (HC : Forall2 colP nbas (concat low ++ high)).
    { rewrite Hc, concat_app. apply Forall2_app.
      - now apply Forall2_concat.
      - cbn [concat]. rewrite app_nil_r, (Z.mul_comm zn d). clear - Y2. induction Y2; cbn [map]; auto. }
    unfold check. replace (Nat.leb _ _) with true.
    2:{ symmetry. apply Nat.leb_le. rewrite (Forall2_len _ _ _ HC). lia. }
    cbn [bind]. eexists. split; [reflexivity|]. split; [apply transpose_shape|].
    now apply transpose_class.
  Qed.
End NDBASIS.

(** * the direction of monomial_to_basis_ND *)
Lemma nd_bump_ok : forall u v, length v = length u -> nonneg v -> (forall i, (i < length u)%nat -> nth i v 0 + 1 <= nth i u 0) ->
  zsum v + Z.of_nat (length u) < zsum u ->
  exists v', nd_bump u v = Some v' /\ length v' = length u /\ nonneg v' /\
    (forall i, (i < length u)%nat -> nth i v' 0 + 1 <= nth i u 0) /\ zsum v' = zsum v + 1.
Proof.
  induction u as [|x u IH]; intros [|y v] L Nv Hv Hs; cbn [length] in L; try discriminate L.
  - cbn in Hs. lia.
  - injection L as L. inversion Nv as [|? ? Hy Nv']; subst. cbn [nd_bump].
    assert (H0 := Hv 0%nat ltac:(cbn [length]; lia)). cbn [nth] in H0.
    destruct (Z.ltb_spec (y + 1) x) as [Hlt|Hge].
    + eexists. split; [reflexivity|]. split; [cbn [length]; congruence|]. split; [constructor; [lia|auto]|].
      split; [|cbn [zsum fold_right]; lia]. intros [|i] Hi; cbn [nth]; [lia|]. apply (Hv (S i) Hi).
    + destruct (IH v L Nv') as (v' & E1 & E2 & E3 & E4 & E5).
      * intros i Hi. apply (Hv (S i)). cbn [length]. lia.
      * cbn [zsum fold_right length] in Hs. lia.
      * rewrite E1. cbn [option_map]. eexists. split; [reflexivity|]. split; [cbn [length]; congruence|].
        split; [constructor; auto|]. split; [|cbn [zsum fold_right]; lia].
        intros [|i] Hi; cbn [nth]; [lia|]. apply E4. cbn [length] in Hi. lia.
Qed.

Lemma nd_dir_loop_ok d u : zsum u >= d + Z.of_nat (length u) -> forall fuel v, length v = length u -> nonneg v ->
  (forall i, (i < length u)%nat -> nth i v 0 + 1 <= nth i u 0) -> zsum v <= d -> d - zsum v <= Z.of_nat fuel ->
  exists w, nd_dir_loop fuel d u v (zsum v) = OK w /\ length w = length u /\ nonneg w /\
    (forall i, (i < length u)%nat -> nth i w 0 + 1 <= nth i u 0) /\ zsum w = d.
Proof.
  intros Hu. induction fuel as [|fuel IH]; intros v L Nv Hv Hs Hf; cbn [nd_dir_loop].
  - destruct (Z.ltb_spec (zsum v) d); [lia|]. exists v. do 4 (split; [assumption || reflexivity|]). lia.
  - destruct (Z.ltb_spec (zsum v) d) as [Hlt|Hge].
    + destruct (nd_bump_ok u v L Nv Hv ltac:(lia)) as (v' & E1 & E2 & E3 & E4 & E5). rewrite E1, <- E5.
      apply IH; auto; lia.
    + exists v. do 4 (split; [assumption || reflexivity|]). lia.
Qed.

Lemma nd_dir_ok d u : 0 <= d -> (forall i, (i < length u)%nat -> 1 <= nth i u 0) -> zsum u >= d + Z.of_nat (length u) ->
  exists w, nd_dir d u = OK w /\ length w = length u /\ nonneg w /\
    (forall i, (i < length u)%nat -> nth i w 0 + 1 <= nth i u 0) /\ zsum w = d.
Proof.
  intros Hd Hp Hu. unfold nd_dir. set (z := map (fun _ => 0) u).
  assert (Ez : z = repeat 0 (length u)) by (unfold z; clear; induction u; cbn; congruence).
  assert (Sz : zsum z = 0) by (rewrite Ez; apply zsum_repeat0).
  replace (nd_dir_loop (Z.to_nat d) d u z 0) with (nd_dir_loop (Z.to_nat d) d u z (zsum z)) by now rewrite Sz.
  apply nd_dir_loop_ok; auto.
  - unfold z. apply map_length.
  - rewrite Ez. apply nonneg_iff. intros i _. rewrite nth_repeat_any. destruct (Nat.ltb _ _); lia.
  - intros i Hi. rewrite Ez, nth_repeat_any. specialize (Hp i Hi). destruct (Nat.ltb _ _); lia.
  - lia.
  - lia.
Qed.

Section NDMTB.
  Variables (slv : solver) (N : dND).
  Notation D := (nd_dr N).
  Hypothesis ninv : nd_inv slv N.
  Hypothesis Hslv : solver_ok (r_q D) slv.
  Hypothesis Hq : 2 <= r_q D.
  Hypothesis Hn : (1 <= r_n D)%nat.
  Notation n := (r_n D).
  Notation d := (r_d D).
  Notation q := (r_q D).
  Notation zn := (Z.of_nat (r_n D)).
  Notation bas := (r_basis D).
  Notation nbas := (nd_basis N).

  Lemma fhom a c : In (a, c) (r_f D) -> is_tuple (S n) d a.
  Proof. apply (inv_h _ _ (ni_dr _ _ ninv)). Qed.

  Lemma mtb_loop_ok k : forall u G, length u = S n -> positive u = true -> zsum u = (Z.of_nat k + 1) * d ->
    length G = length nbas ->
    exists u' G', mtb_ND_loop slv N k u G = OK (u', G') /\ length u' = S n /\ positive u' = true /\ zsum u' = d /\
      length G' = length nbas /\
      forall phi, GD q n d (r_f D) phi -> cong q (ev_ND (log_of d phi) u' nbas G') (ev_ND (log_of d phi) u nbas G).
  Proof.
    pose proof (nd_nd slv N ninv) as ND.
    induction k as [|k IH]; intros u G Lu Pu Su LG; cbn [mtb_ND_loop].
    - exists u, G. do 3 (split; [assumption || reflexivity|]). split; [lia|]. split; [assumption|]. intros. reflexivity.
    - assert (Hp : forall i, (i < length u)%nat -> 1 <= nth i u 0).
      { intros i Hi. pose proof (proj1 (positive_iff _) Pu i Hi). lia. }
      destruct (nd_dir_ok d u ltac:(lia) Hp) as (v & V1 & V2 & V3 & V4 & V5).
      { rewrite Lu, Su. nia. }
      rewrite V1. cbn [bind]. assert (Lv : length v = S n) by congruence.
      rewrite vec_sub_ok by congruence. cbn [bind].
      set (u' := vsub u v).
      assert (Lu' : length u' = S n) by now apply vsub_length.
      assert (Pu' : positive u' = true).
      { apply positive_iff. intros i Hi. unfold u'. rewrite vsub_nth by congruence. specialize (V4 i). lia. }
      assert (Su' : zsum u' = (Z.of_nat k + 1) * d).
      { unfold u'. rewrite zsum_vsub by congruence. lia. }
      assert (Hv : is_tuple (S n) d v) by (split; auto).
      destruct (reduce_vector_ND_class slv N ninv Hslv v Hv Hn u' Lu') with (G := G) as (G' & R1 & R2 & R3); auto.
      { exists (Z.of_nat k + 1). exact Su'. }
      rewrite R1. cbn [bind].
      destruct (IH u' G' Lu' Pu' Su' R2) as (u2 & G2 & I1 & I2 & I3 & I4 & I5 & I6).
      exists u2, G2. do 5 (split; [assumption|]). intros phi Hp'. rewrite (I6 phi Hp').
      rewrite (R3 (log_of d phi)).
      + replace (eplus u' v) with u; [reflexivity|]. rewrite eplus_vadd. apply vec_ext.
        * rewrite (vadd_length _ _ (S n)); auto.
        * intros i Hi. rewrite vadd_nth by congruence. unfold u'. rewrite vsub_nth by congruence. lia.
      + apply GD_LGD; auto; [lia|]. exact fhom.
  Qed.

  Lemma mtb_ND_ok u m : length u = S n -> (forall i, (i <= n)%nat -> 0 < nth i u 0) -> zsum u = m * d ->
    exists F, monomial_to_basis_ND slv N u = OK F /\ length F = length bas /\
      forall phi psi, GD q n d (r_f D) phi -> basis_val q n d bas phi psi ->
        cong q (ev_basis psi bas F) (phi m (epred u)).
  Proof.
    intros Lu Hu Su. pose proof (nd_nd slv N ninv) as ND.
    assert (Pu : positive u = true) by (apply positive_iff; rewrite Lu; intros; apply Hu; lia).
    assert (Hm : 0 < m).
    { assert (0 < zsum u); [|nia]. pose proof (nth_le_zsum u 0%nat) as H. 
      assert (nonneg u). { apply nonneg_iff. rewrite Lu. intros i Hi. specialize (Hu i ltac:(lia)). lia. }
      specialize (Hu 0%nat ltac:(lia)). specialize (H H0). lia. }
    unfold monomial_to_basis_ND. unfold check at 1. rewrite Lu, Nat.eqb_refl. cbn [bind].
    unfold check at 1. unfold positive in Pu. rewrite Pu. fold (positive u) in Pu. cbn [bind].
    unfold check at 1. rewrite Su, Z.rem_mul, Z.quot_mul by lia. cbn [bind]. rewrite Z.eqb_refl. cbn [bind].
    destruct (nbasis_0 slv N ninv Hslv) as [B0 Bl]. unfold check at 1. apply Nat.ltb_lt in Bl as Bl'. rewrite Bl'. cbn [bind].
    destruct (mtb_loop_ok (Z.to_nat (m - 1)) u (unit_at (length nbas) 0) Lu Pu) as (u' & G' & L1 & L2 & L3 & L4 & L5 & L6).
    { rewrite Su, Z2Nat.id by lia. f_equal. lia. }
    { apply unit_at_length. }
    rewrite L1. cbn [bind fst snd]. unfold check. rewrite L4, Z.eqb_refl. cbn [bind].
    destruct (ckn_ok slv N ninv Hslv Hq Hn u' L2 L3 L4) as (M & M1 & _ & M3). rewrite M1. cbn [bind].
    destruct (M3 G' L5) as (F & F1 & F2 & F3). exists F. split; [exact F1|]. split; [exact F2|].
    intros phi psi Hp Hb. rewrite (F3 phi psi Hp Hb), (L6 phi Hp).
    unfold ev_ND. rewrite (sumf_seq_single _ 0 (length nbas) 0); [|lia|].
    - rewrite (unit_at_nth D Hn) by auto. cbn [Nat.eqb]. rewrite B0, Z.mul_1_l.
      replace (eplus u (repeat 0 (S n))) with u.
      + unfold log_of, phi_div. rewrite Pu, Su, Z.div_mul by lia. reflexivity.
      + rewrite eplus_vadd. apply vec_ext.
        * rewrite (vadd_length _ _ (S n)); auto using repeat_length.
        * intros i Hi. rewrite vadd_nth by (rewrite repeat_length; auto).
          replace (nth i (repeat 0 (S n)) 0) with 0 by (rewrite nth_repeat_any; destruct (Nat.ltb i (S n)); reflexivity). lia.
    - intros i _ Hi. rewrite (unit_at_nth D Hn) by auto. destruct i; [congruence|]. cbn [Nat.eqb]. ring.
  Qed.
End NDMTB.
