(** Proofs about the self-tests: the powers of f in the basis. *)
From Coq Require Import ZArith List Bool Lia Znumtheory.
From Verif Require Import Base VecModel VecSpec VecProofs ToolsModel ToolsSpec ToolsProofs MatModel MatProofs DRModel DRSpec DRProofs DRRed DRStep DRFinal DRPath
  NDModel NDSpec NDRed NDStep NDBasis FrobModel FrobSpec FrobTop TestModel UniqCode PolyProofs TestProofs.
Import ListNotations.
Open Scope Z_scope.

Lemma eplus_assoc a : forall b c, eplus (eplus a b) c = eplus a (eplus b c).
Proof. induction a as [|x a IH]; intros [|y b] [|z c]; cbn [eplus]; auto. rewrite IH, Z.add_assoc. reflexivity. Qed.
Lemma eplus_length a : forall b, length a = length b -> length (eplus a b) = length a.
Proof. intros b H. rewrite eplus_vadd. now apply vadd_length. Qed.
Lemma eplus_zero a : forall k, k = length a -> eplus (repeat 0 k) a = a.
Proof. induction a as [|x a IH]; intros k ->; cbn [length repeat eplus]; auto. now rewrite (IH (length a) eq_refl). Qed.

(** ** the relation of Euler: f x^b Omega / f^(m+1) is x^b Omega / f^m *)
Section Euler.
  Variables (q : Z) (n : nat) (d : Z) (f : poly).
  Hypothesis W : wf_poly n d f.
  Hypothesis Hd : rel_prime d q.
  Variable phi : Z -> list Z -> Z.
  Hypothesis Hphi : GD q n d f phi.
  Lemma euler_step m b : is_tuple (S n) (d * m - (Z.of_nat n + 1)) b ->
    cong q (sumf (fun t => snd t * phi (m + 1) (eplus b (fst t))) f) (m * phi m b).
  Proof.
    intros (B1 & B2 & B3).
    assert (A : cong q (sumf (fun i => sumf (fun t => nth i (fst t) 0 * snd t * phi (m + 1) (eplus b (fst t))) f) (seq 0 (S n)))
                       (sumf (fun i => (nth i b 0 + 1) * phi m b) (seq 0 (S n)))).
    { apply cong_sumf. intros i Hi. apply in_seq in Hi.
      set (h := upd b i (nth i b 0 + 1)). assert (Lh : length h = S n) by (unfold h; now rewrite upd_length).
      assert (Th : is_tuple (S n) (d * m - Z.of_nat n) h).
      { split; auto. split; [apply nonneg_iff; intros k Hk; unfold h; rewrite nth_upd|unfold h; rewrite zsum_upd by lia; lia].
        pose proof (nonneg_nth b k B2). pose proof (nonneg_nth b i B2). destruct (Nat.eqb i k); [|auto]. destruct (Nat.ltb _ _); lia. }
      pose proof (Hphi m i h ltac:(lia) Th) as G.
      assert (E1 : eminus h i = b).
      { apply nth_ext with (d := 0) (d' := 0); [rewrite eminus_length; congruence|]. intros k Hk. rewrite eminus_nth by lia. unfold h. rewrite nth_upd.
        destruct (Nat.eqb_spec i k) as [->|]; [|lia]. destruct (Nat.ltb_spec k (length b)); lia. }
      assert (E2 : nth i h 0 = nth i b 0 + 1) by (unfold h; rewrite nth_upd, Nat.eqb_refl; destruct (Nat.ltb_spec i (length b)); lia).
      rewrite E1, E2 in G. rewrite <- G. apply cong_of_eq. apply sumf_ext. intros [a c] Hin. cbn [fst snd]. f_equal. f_equal.
      destruct (proj2 W a c Hin) as (A1 & _). rewrite !eplus_vadd. apply nth_ext with (d := 0) (d' := 0).
      - rewrite eminus_length, !(vadd_length _ _ (S n)); auto.
      - intros k Hk. rewrite (vadd_length _ _ (S n)) in Hk by auto. rewrite eminus_nth by (rewrite (vadd_length _ _ (S n)); auto; lia). rewrite !vadd_nth by congruence. unfold h. rewrite nth_upd.
        destruct (Nat.eqb_spec i k) as [->|]; [|lia]. destruct (Nat.ltb_spec k (length b)); lia. }
    rewrite sumf_swap in A. rewrite sumf_scal_r in A.
    assert (S1 : sumf (fun i => nth i b 0 + 1) (seq 0 (S n)) = d * m).
    { rewrite sumf_plus, sumf_nth_zsum by auto. replace (sumf (fun _ : nat => 1) (seq 0 (S n))) with (Z.of_nat (S n)) by (generalize (S n) as k; clear; intros k; rewrite <- (seq_length k 0) at 1; induction (seq 0 k) as [|x l IH]; [reflexivity|]; rewrite sumf_cons, <- IH; cbn [length]; lia). lia. }
    assert (S2 : sumf (fun t : list Z * Z => sumf (fun i => nth i (fst t) 0 * snd t * phi (m + 1) (eplus b (fst t))) (seq 0 (S n))) f = d * sumf (fun t => snd t * phi (m + 1) (eplus b (fst t))) f).
    { rewrite <- sumf_scal. apply sumf_ext. intros [a c] Hin. cbn [fst snd]. destruct (proj2 W a c Hin) as (A1 & _ & A3).
      transitivity (sumf (fun i => nth i a 0 * (c * phi (m + 1) (eplus b a))) (seq 0 (S n))); [apply sumf_ext; intros; ring|]. rewrite sumf_scal_r, sumf_nth_zsum by auto. rewrite A3. ring. }
    rewrite S1, S2 in A. unfold cong in *. replace (d * sumf (fun t => snd t * phi (m + 1) (eplus b (fst t))) f - d * m * phi m b) with (d * (sumf (fun t => snd t * phi (m + 1) (eplus b (fst t))) f - m * phi m b)) in A by ring.
    apply Gauss in A; auto. now apply rel_prime_sym.
  Qed.
  Lemma euler_pow j : forall m b, 1 <= m -> is_tuple (S n) (d * m - (Z.of_nat n + 1)) b ->
    cong q (pow_sum n f j (fun u => phi (m + Z.of_nat j) (eplus u b))) (zprod (zseq m (m + Z.of_nat j)) * phi m b).
  Proof.
    induction j as [|j IH]; intros m b Hm Hb; cbn [pow_sum].
    - rewrite eplus_zero by (symmetry; apply Hb). cbn [Z.of_nat]. rewrite Z.add_0_r. rewrite zseq_nil by lia. cbn [zprod]. apply cong_of_eq. ring.
    - transitivity (sumf (fun t => snd t * (zprod (zseq (m + 1) (m + Z.of_nat (S j))) * phi (m + 1) (eplus b (fst t)))) f).
      + apply cong_sumf. intros [a c] Hin. cbn [fst snd]. apply cong_mul; [reflexivity|]. destruct (proj2 W a c Hin) as (A1 & A2 & A3). destruct Hb as (B1 & B2 & B3).
        assert (C : eplus a b = eplus b a) by (rewrite !eplus_vadd; apply vadd_comm; congruence).
        rewrite (pow_sum_ext n f j _ (fun u => phi (m + 1 + Z.of_nat j) (eplus u (eplus b a)))).
        2: { intros u. rewrite eplus_assoc, C. f_equal. lia. }
        replace (m + Z.of_nat (S j)) with (m + 1 + Z.of_nat j) by lia. apply IH; [lia|]. rewrite eplus_vadd. split; [rewrite (vadd_length _ _ (S n)); auto|].
        split; [now apply nonneg_vadd|]. rewrite zsum_vadd by congruence. lia.
      + rewrite (zseq_cons m) by lia. cbn [zprod].
        transitivity (zprod (zseq (m + 1) (m + Z.of_nat (S j))) * (m * phi m b)); [|apply cong_of_eq; ring].
        rewrite <- (euler_step m b Hb). apply cong_of_eq. rewrite <- sumf_scal. apply sumf_ext. intros. ring.
  Qed.
End Euler.

(** ** (m-1)! in 64 bits *)
Lemma fact64_ok m : 1 <= m <= 21 -> fact64 m = OK (zfact (m - 1)).
Proof.
  intros H. assert (C : In m (zseq 1 22)) by (apply zseq_In; lia). revert m C H. apply (Forall_forall (fun m => 1 <= m <= 21 -> fact64 m = OK (zfact (m - 1)))).
  repeat (constructor; [intros _; vm_compute; reflexivity|]). constructor.
Qed.
Lemma fact64_overflow m : 22 <= m -> fact64 m = Err EUB.
Proof. intros H. unfold fact64. rewrite (zseq_app 1 22 m) by lia. rewrite foldM_app. reflexivity. Qed.

Section Mtb.
  Variables (p prec : Z) (slv : solver) (D : dR) (mtb : vec -> res (list Z)).
  Notation n := (r_n D).
  Notation d := (r_d D).
  Notation q := (r_q D).
  Notation zn := (Z.of_nat (r_n D)).
  Notation bas := (r_basis D).
  Hypothesis Pp : prime p.
  Hypothesis Hprec : 1 <= prec.
  Hypothesis inv : dr_inv slv D.
  Hypothesis Eq : r_q D = p ^ prec.
  Hypothesis Hslv : solver_ok (p ^ prec) slv.
  Hypothesis Hn : (1 <= n)%nat.
  Hypothesis Hd : ~ (p | d).
  Hypothesis Hmtb : forall u m, length u = S n -> (forall i, (i <= n)%nat -> 0 < nth i u 0) -> zsum u = m * d ->
    exists F, mtb u = OK F /\ length F = length bas /\
      forall phi psi, GD q n d (r_f D) phi -> basis_val q n d bas phi psi -> cong q (ev_basis psi bas F) (phi m (epred u)).

  Lemma ev_basis_lin psi c F F0 F1 : (forall i, (i < length bas)%nat -> cong q (nth i F1 0) (nth i F0 0 + c * nth i F 0)) ->
    cong q (ev_basis psi bas F1) (ev_basis psi bas F0 + c * ev_basis psi bas F).
  Proof using.
    clear. intros H. unfold ev_basis. rewrite <- sumf_scal, <- sumf_plus. apply cong_sumf. intros i Hi. apply in_seq in Hi. rewrite H by lia. apply cong_of_eq. ring.
  Qed.
  Lemma mtb_sum_ok b m k : is_tuple (S n) (d * m - (zn + 1)) b -> forall P v0, (forall a c, In (a, c) P -> is_tuple (S n) (d * k) a) ->
    length v0 = length bas -> Forall (fun x => 0 <= x < q) v0 -> exists v,
    foldM (fun v t => w <- vec_add (fst t) b ;; c <- mtb (map (fun x => x + 1) w) ;; lvec_add q v (lvec_scal q (snd t) c)) P v0 = OK v /\ length v = length bas /\ Forall (fun x => 0 <= x < q) v /\
    forall phi psi, GD q n d (r_f D) phi -> basis_val q n d bas phi psi ->
      cong q (ev_basis psi bas v) (ev_basis psi bas v0 + psum (fun u => phi (m + k) (eplus u b)) P).
  Proof using Hmtb Hprec Pp Eq Hn.
    pose proof (q_two p prec D Pp Hprec Eq) as Hq.
    intros (B1 & B2 & B3). induction P as [|[a c] P IH]; intros v0 HP L0 F0; cbn [foldM].
    - exists v0. split; auto. split; auto. split; auto. intros. unfold psum. rewrite sumf_nil. apply cong_of_eq. ring.
    - destruct (HP a c (or_introl eq_refl)) as (A1 & A2 & A3). cbn [fst snd]. assert (VA : vec_add a b = OK (vadd a b)) by (unfold vec_add; now rewrite A1, B1, Nat.eqb_refl). rewrite VA. cbn [bind].
      set (w := map (fun x => x + 1) (vadd a b)). assert (Lw : length w = S n) by (unfold w; rewrite map_length; now apply vadd_length).
      assert (Nw : forall i, (i <= n)%nat -> nth i w 0 = nth i a 0 + nth i b 0 + 1).
      { intros i Hi. unfold w. rewrite (nth_map_lt _ _ _ _ 0) by (rewrite (vadd_length _ _ (S n)); auto; lia). rewrite vadd_nth by congruence. reflexivity. }
      assert (Ew : epred w = vadd a b). { unfold epred, w. rewrite map_map. rewrite <- (map_id (vadd a b)) at 2. apply map_ext. intros. lia. }
      destruct (Hmtb w (m + k) Lw) as (F & E1 & E2 & E3).
      { intros i Hi. rewrite Nw by auto. pose proof (nonneg_nth a i A2). pose proof (nonneg_nth b i B2). assert (i < S n)%nat by lia. lia. }
      { assert (zsum (epred w) = zsum w - Z.of_nat (S n)) by (rewrite epred_sum, Lw; lia). rewrite Ew, zsum_vadd in H by congruence. lia. }
      rewrite E1. cbn [bind]. destruct (lvec_add_ok q v0 (lvec_scal q c F)) as (v1 & X1 & X2 & X3); [rewrite lvec_scal_length; congruence|].
      rewrite X1. cbn [bind]. destruct (IH v1) as (v & Y1 & Y2 & Y3 & Y4).
      { intros a' c' Hin. apply (HP a' c'). now right. } { congruence. }
      { apply Forall_forall. intros x Hx. apply (In_nth _ _ 0) in Hx. destruct Hx as (i & Hi & <-). rewrite X3 by congruence. apply Z.mod_pos_bound. lia. }
      exists v. split; auto. split; auto. split; auto. intros phi psi G B. rewrite (Y4 phi psi G B).
      rewrite (ev_basis_lin psi c F v0 v1).
      + rewrite (E3 phi psi G B), Ew, <- eplus_vadd. unfold psum. rewrite sumf_cons. cbn [fst snd]. apply cong_of_eq. ring.
      + intros i Hi. rewrite X3 by congruence. rewrite cong_mod, lvec_scal_nth by congruence. rewrite cong_mod. apply cong_refl.
  Qed.

  Notation T N := (fpow_loop q (r_f D) N (fpow_init q n)).
  Lemma mtb_check_ok N i j : (i <= N)%nat -> (j < length bas)%nat -> mtb_check D mtb (T N) i j =
    if pole_of n d (nth j bas []) + Z.of_nat i <=? 21 then OK true else Err EUB.
  Proof using Hmtb Hprec Pp Eq inv Hslv Hn Hd.
    pose proof (q_two p prec D Pp Hprec Eq) as Hq. pose proof (inv_nd _ _ inv) as ND. assert (Hs : solver_ok q slv) by (now rewrite Eq).
    intros Hi Hj. set (b := nth j bas []). destruct (basis_elem slv D inv Hs b (nth_In _ _ Hj)) as (k & Hk & Tb). destruct Tb as (B1 & B2 & B3). unfold lev in B3.
    assert (Ep : pole_of n d b = k + 1). { unfold pole_of. rewrite B3. replace ((k + 1) * d - (zn + 1) + zn + 1) with ((k + 1) * d) by ring. apply Z.div_mul. lia. }
    assert (Em : Z.quot (zsum b + (zn + 1)) d = k + 1). { rewrite B3. replace ((k + 1) * d - (zn + 1) + (zn + 1)) with ((k + 1) * d) by ring. apply Z.quot_mul. lia. }
    rewrite Ep. unfold mtb_check. fold b. rewrite Em.
    destruct (Z.leb_spec (k + 1 + Z.of_nat i) 21) as [Hle|Hgt]; [|rewrite fact64_overflow by lia; reflexivity].
    rewrite fact64_ok by lia. cbn [bind].
    assert (W : wf_poly n d (r_f D)) by (split; [apply (inv_f _ _ inv)|apply (inv_h _ _ inv)]).
    destruct (loop_tab q n d (r_f D) Hq W N _ (init_ok q n d (r_f D) Hq)) as ((_ & TO) & TL & _). change (length (fpow_init q n)) with 1%nat in TL.
    destruct (nth_error (T N) i) as [P|] eqn:EP; [|apply nth_error_None in EP; lia].
    rewrite (nth_error_nth _ _ _ EP). destruct (TO i P EP) as (_ & _ & P3 & P4).
    assert (Tb : is_tuple (S n) (d * (k + 1) - (zn + 1)) b) by (split; auto; split; auto; lia).
    destruct (mtb_sum_ok b (k + 1) (Z.of_nat i) Tb P (repeat 0 (length bas)) P3 (repeat_length _ _)) as (v & V1 & V2 & V3 & V4).
    { apply Forall_forall. intros x Hx. apply repeat_spec in Hx. lia. }
    unfold mtb_sum. rewrite V1. cbn [bind]. f_equal.
    set (fa := zfact (k + 1 + Z.of_nat i - 1)).
    set (F := map (fun l => if Nat.eqb l j then fa else 0) (seq 0 (length bas))).
    assert (LF : length F = length bas) by (unfold F; now rewrite map_length, seq_length).
    assert (NF : forall l, (l < length bas)%nat -> nth l F 0 = if Nat.eqb l j then fa else 0).
    { intros l Hl. unfold F. rewrite (nth_map_lt _ _ _ _ O) by (now rewrite seq_length). rewrite seq_nth by auto. reflexivity. }
    assert (VC : vcong q v F).
    { rewrite Eq. apply (coords_unique p prec slv D Pp Hprec inv Eq Hslv Hn); auto. rewrite <- Eq. intros phi psi G B. rewrite (V4 phi psi G B).
      assert (Z0 : ev_basis psi bas (repeat 0 (length bas)) = 0) by (unfold ev_basis; apply sumf_zero; intros l _; rewrite nth_repeat; ring).
      rewrite Z0, P4. rewrite Z.add_0_l.
      assert (RP : rel_prime d q) by (rewrite Eq, <- (Z2Nat.id prec) by lia; now apply rel_prime_pow).
      rewrite (euler_pow q n d (r_f D) W RP phi G i (k + 1) b ltac:(lia) Tb).
      pose proof (B b (nth_In _ _ Hj)) as Bb. rewrite Ep in Bb. rewrite Bb.
      apply cong_of_eq. unfold ev_basis. rewrite (sumf_seq_single _ 0 _ j); [|lia|].
      - rewrite NF, Nat.eqb_refl by auto. fold b. unfold fa, zfact. replace (k + 1 - 1 + 1) with (k + 1) by ring. replace (k + 1 + Z.of_nat i - 1 + 1) with (k + 1 + Z.of_nat i) by ring.
        rewrite (zseq_app 1 (k + 1) (k + 1 + Z.of_nat i)) by lia. rewrite zprod_app. ring.
      - intros l Hl Nl. rewrite NF by lia. apply Nat.eqb_neq in Nl. rewrite Nl. ring. }
    apply forallb_forall. intros l Hl. apply in_seq in Hl. apply Z.eqb_eq. destruct VC as [_ VC]. specialize (VC l ltac:(lia)). rewrite NF in VC by lia.
    rewrite Forall_forall in V3. assert (Bd := V3 (nth l v 0) ltac:(apply nth_In; lia)). apply cong_iff_mod in VC; [|lia]. rewrite Z.mod_small in VC by exact Bd. rewrite VC.
    destruct (Nat.eqb l j); auto. 
  Qed.

  Lemma test_mtb_ok N : 0 <= N -> test_mtb D mtb N = if forallb (fun b => pole_of n d b + N <=? 21) bas then OK true else Err EUB.
  Proof using Hmtb Hprec Pp Eq inv Hslv Hn Hd.
    intros HN. unfold test_mtb. unfold check at 1 2. rewrite (proj2 (Z.leb_le (-1) N)) by lia. rewrite (proj2 (Z.leb_le 0 N)) by lia. cbn [bind].
    set (L := flat_map _ _). set (f := fun (ok : bool) (ij : nat * nat) => _).
    assert (HL : forall i j, In (i, j) L <-> (i <= Z.to_nat N)%nat /\ (j < length bas)%nat).
    { intros i j. unfold L. rewrite in_flat_map. split.
      - intros (i' & H1 & H2). apply in_map_iff in H2. destruct H2 as (j' & [= <- <-] & H2). apply in_seq in H1, H2. lia.
      - intros [H1 H2]. exists i. split; [apply in_seq; lia|]. apply in_map_iff. exists j. split; auto. apply in_seq. lia. }
    assert (G : forall l, (forall ij, In ij l -> In ij L) -> foldM f l true = if forallb (fun ij => pole_of n d (nth (snd ij) bas []) + Z.of_nat (fst ij) <=? 21) l then OK true else Err EUB).
    { induction l as [|[i j] l IH]; intros Hl; cbn [foldM forallb]; auto. unfold f at 1. cbn [fst snd]. destruct (proj1 (HL i j) (Hl _ (or_introl eq_refl))) as [H1 H2].
      rewrite mtb_check_ok by auto. destruct (_ <=? 21); cbn [bind andb]; auto. apply IH. intros ij H. apply Hl. now right. }
    rewrite G by auto.
    assert (E : forall a b : bool, (a = true <-> b = true) -> a = b) by (intros [] []; intuition).
    rewrite (E (forallb (fun ij => pole_of n d (nth (snd ij) bas []) + Z.of_nat (fst ij) <=? 21) L) (forallb (fun b => pole_of n d b + N <=? 21) bas)); [reflexivity|].
    rewrite !forallb_forall. split.
    - intros H b Hb. apply (In_nth _ _ []) in Hb. destruct Hb as (j & Hj & <-). specialize (H (Z.to_nat N, j)). cbn [fst snd] in H. rewrite Z2Nat.id in H by lia. apply H. apply HL. lia.
    - intros H [i j] Hij. apply HL in Hij. destruct Hij as [H1 H2]. cbn [fst snd]. specialize (H (nth j bas []) (nth_In _ _ H2)). apply Z.leb_le in H. apply Z.leb_le. lia.
  Qed.
End Mtb.
