(** random_SL_matrix and find_change_of_variables. *)
From Coq Require Import ZArith List Bool Lia Znumtheory.
From Verif Require Import Base VecModel VecSpec VecProofs ToolsModel ToolsSpec ToolsProofs PolyProofs MatModel MatProofs DRModel DRSpec DRProofs DRRed DRLemmas
  FrobModel FrobTop NDModel NDSpec NDMat LinAlg SolveModel SolveSpec SolveProofs SmoothProofs ChangeModel ChangeSpec ChangeProofs ChangeMC.
Import ListNotations.
Open Scope Z_scope.

Section Find.
  Variables (p : Z) (gauss : ech_fun) (det : Z -> nat -> mat -> Z).
  Hypothesis Pp : prime p.
  Hypothesis HG : ech_spec p gauss.
  Hypothesis HD : det_spec p det.

  Definition invertible (n : nat) (A : mat) : Prop := exists W, mmeq p n n (mm n (mget A) W) delta.

  Lemma gauss_inv n A : shape A n n -> mreduced p A -> Nat.eqb n (fst (gauss p n n A)) = true <-> invertible n A.
  Proof.
    intros SA RA. rewrite Nat.eqb_eq. unfold invertible. rewrite <- (rank_full p gauss n n A); auto. split; auto.
  Qed.

  Lemma det_ok n A : shape A n n -> 0 <= det p n A < p /\ cong p (det p n A) (detf n (mget A)).
  Proof. intros [S1 S2]. apply (HD n A); auto. Qed.

  Lemma scaled_get n A row di i j : shape A n n -> (row < n)%nat -> (i < n)%nat -> (j < n)%nat ->
    cong p (mget (upd A row (lvec_scal p di (nth row A []))) i j) (if Nat.eqb i row then di * mget A i j else mget A i j).
  Proof.
    intros [S1 S2] Hr Hi Hj. unfold mget. destruct (Nat.eqb_spec i row) as [->|N]; [rewrite nth_upd_eq by lia|rewrite nth_upd_neq by auto].
    - rewrite lvec_scal_nth by (rewrite Forall_forall in S2; rewrite S2; [auto|apply nth_In; lia]). eapply cong_trans; [apply cong_mod_any|]. apply cong_of_eq. ring.
    - apply cong_refl.
  Qed.

  Lemma scaled_shape n A row di : shape A n n -> mreduced p A -> (row < n)%nat ->
    shape (upd A row (lvec_scal p di (nth row A []))) n n /\ mreduced p (upd A row (lvec_scal p di (nth row A []))).
  Proof.
    intros [S1 S2] HR Hr. pose proof (prime_ge_2 p Pp). unfold shape, mreduced in *.
    rewrite upd_length. rewrite Forall_forall in S2, HR.
    assert (K : forall r, In r (upd A row (lvec_scal p di (nth row A []))) -> r = lvec_scal p di (nth row A []) \/ In r A).
    { intros r Hin. apply In_nth with (d := []) in Hin. destruct Hin as (k & Hk & <-). rewrite upd_length in Hk.
      destruct (Nat.eq_dec row k) as [->|N]; [rewrite nth_upd_eq by lia; now left|rewrite nth_upd_neq by auto; right; now apply nth_In]. }
    split; [split; [exact S1|]|]; apply Forall_forall; intros r Hin; destruct (K r Hin) as [->|Hin']; auto.
    - rewrite lvec_scal_length. apply S2. apply nth_In. lia.
    - unfold lvec_scal. apply Forall_forall. intros x Hx. apply in_map_iff in Hx. destruct Hx as (y & <- & _). apply Z.mod_pos_bound. lia.
  Qed.

  Lemma random_SL_ok n row cands : (row < n)%nat -> Forall (fun A => shape A n n /\ mreduced p A) cands ->
    (Forall (fun A => ~ invertible n A) cands /\ random_SL gauss det p n cands row = Err EFuel) \/
    (exists bad A later di R, cands = bad ++ A :: later /\ Forall (fun A => ~ invertible n A) bad /\ invertible n A /\
       random_SL gauss det p n cands row = OK R /\ shape R n n /\ mreduced p R /\ cong p (detf n (mget R)) 1 /\
       (forall i j, (i < n)%nat -> (j < n)%nat -> cong p (mget R i j) (if Nat.eqb i row then di * mget A i j else mget A i j))).
  Proof.
    intros Hr. pose proof (prime_ge_2 p Pp) as P2. induction 1 as [|A cands [SA RA] HF IH].
    { left. split; [constructor|reflexivity]. }
    cbn [random_SL]. pose proof (gauss_inv n A SA RA) as GI. destruct (Nat.eqb n (fst (gauss p n n A))) eqn:E.
    - right. assert (IA : invertible n A) by now apply GI. clear GI IH.
      destruct (det_ok n A SA) as [D1 D2].
      assert (DI : exists w, cong p (detf n (mget A) * w) 1).
      { destruct IA as [W HW]. exists (detf n W). rewrite <- detf_mul. rewrite (@detf_cong p n _ _ HW). rewrite detf_delta. apply cong_refl. }
      assert (RP : rel_prime (det p n A) p).
      { apply rel_prime_sym, prime_rel_prime; auto. intros Hdv. destruct DI as [w Hw].
        assert (X : (p | 1)).
        { destruct Hdv as [k1 Hk1], D2 as [k2 Hk2], Hw as [k3 Hk3].
          exists ((k1 - k2) * w - k3). nia. }
        apply Z.divide_1_r_nonneg in X; lia. }
      destruct (inv_mod_ok p (det p n A) P2 RP) as (di & EI & RI & CI).
      destruct (scaled_shape n A row di SA RA Hr) as [SR RR].
      pose proof (fun i j => scaled_get n A row di i j SA Hr) as GR.
      set (R := upd A row (lvec_scal p di (nth row A []))) in *.
      destruct (det_ok n R SR) as [D3 D4].
      assert (DR : cong p (detf n (mget R)) 1).
      { rewrite (@detf_cong p n (mget R) (fun i j => if Nat.eqb i row then di * mget A i j else mget A i j)) by (intros i j Hi Hj; auto).
        rewrite detf_row by auto. rewrite <- D2. rewrite Z.mul_comm. exact CI. }
      exists [], A, cands, di, R. repeat split; auto; try apply SR.
      rewrite EI. cbn [bind].
      assert (ER : get_at A (Z.of_nat row) = OK (nth row A [])).
      { apply get_at_ok. destruct SA as [S1 _]. rewrite Nat2Z.id. split; [lia|]. apply nth_error_nth'. lia. }
      rewrite ER. cbn [bind]. fold R.
      assert (EV : det p n R = 1 mod p).
      { rewrite Z.mod_small by lia. assert (C : cong p (det p n R) 1) by (rewrite D4; exact DR).
        apply cong_iff_mod in C; [|lia]. rewrite !Z.mod_small in C by lia. exact C. }
      rewrite (proj2 (Z.eqb_eq _ _) EV). reflexivity.
    - assert (NA : ~ invertible n A) by (intros X; apply GI in X; discriminate).
      destruct IH as [[I1 I2]|(bad & A' & later & di & R & -> & I1 & I2)]; [left; split; auto|right].
      exists (A :: bad), A', later, di, R. split; [reflexivity|]. split; [constructor; auto|exact I2].
  Qed.

  (** ** the search *)
  Variables (lu : ech_fun) (q : Z) (n : nat) (d : Z) (tl : list (list vec)) (f : poly) (rnd : nat -> list mat * nat).
  Hypothesis HL : ech_spec p lu.
  Hypothesis Hpq : (p | q).
  Hypothesis Hd : 1 <= d.
  Hypothesis Htl : init_tuples n d = OK tl.
  Hypothesis Hf : f <> [].
  Hypothesis Wf : wf_poly n d f.
  Hypothesis Hrnd : forall i, (snd (rnd i) < S n)%nat /\ Forall (fun A => shape A (S n) (S n) /\ mreduced p A) (fst (rnd i)) /\
    Exists (invertible (S n)) (fst (rnd i)).

  (** the i-th matrix and the polynomial after the change of variables *)
  Definition attempt (i : nat) (R : mat) (g : poly) : Prop :=
    random_SL gauss det p (S n) (fst (rnd i)) (snd (rnd i)) = OK R /\ shape R (S n) (S n) /\ mreduced p R /\
    cong p (detf (S n) (mget R)) 1 /\ change_of_variables p f R = OK g /\ wf_poly n d g.

  Lemma attempt_ok i : exists R g, attempt i R g /\ g <> [].
  Proof.
    destruct (Hrnd i) as (R1 & R2 & R3).
    destruct (random_SL_ok (S n) (snd (rnd i)) (fst (rnd i)) R1 R2) as [[B _]|(bad & A & later & di & R & _ & _ & _ & E & SR & RR & DR & _)].
    - exfalso. rewrite Exists_exists in R3. destruct R3 as (A & HA & IA). rewrite Forall_forall in B. now apply (B A).
    - destruct (cov_wf p n d f R Wf SR) as (g & Eg & Ng & Wg). exists R, g. unfold attempt. auto 10.
  Qed.

  Lemma find_loop_ok k i M : exists R, find_loop lu gauss det p q (S n) f rnd k i M false = OK R /\
    ((exists j g, (i <= j < i + k)%nat /\ attempt j R g /\ non_degenerate p n d g /\
        forall j', (i <= j' < j)%nat -> exists R' g', attempt j' R' g' /\ ~ non_degenerate p n d g') \/
     (R = mzero (S n) (S n) /\ forall j', (i <= j' < i + k)%nat -> exists R' g', attempt j' R' g' /\ ~ non_degenerate p n d g')).
  Proof.
    revert i M. induction k as [|k IH]; intros i M; cbn [find_loop].
    - exists (mzero (S n) (S n)). split; auto. right. split; auto. intros; lia.
    - destruct (attempt_ok i) as (R & g & At & Ng). pose proof At as (E1 & _ & _ & _ & E2 & Wg).
      rewrite E1. cbn [bind]. rewrite E2. cbn [bind].
      destruct (is_nd_ok p q lu n d tl Pp Hpq HL Hd Htl g Ng Wg) as (b & Eb & Hb). rewrite Eb. cbn [bind].
      destruct b.
      + exists R. split; [destruct k; reflexivity|]. left. exists i, g. split; [lia|]. split; auto. split; [now apply Hb|]. intros; lia.
      + assert (Nb : ~ non_degenerate p n d g) by (intros X; apply Hb in X; discriminate).
        destruct (IH (S i) R) as (R' & E' & [(j & g' & Hj & At' & N' & Bf)|[Z Bf]]); exists R'; (split; [exact E'|]).
        * left. exists j, g'. split; [lia|]. split; auto. split; auto. intros j' Hj'.
          destruct (Nat.eq_dec j' i) as [->|]; [exists R, g; auto|apply Bf; lia].
        * right. split; auto. intros j' Hj'. destruct (Nat.eq_dec j' i) as [->|]; [exists R, g; auto|apply Bf; lia].
  Qed.

  Lemma find_change_ok N : exists M, find_change_of_variables lu gauss det p q rnd f N = OK M /\
    ((non_degenerate p n d f /\ M = ident (S n)) \/
     (~ non_degenerate p n d f /\ exists j g, (j < Z.to_nat N)%nat /\ attempt j M g /\ non_degenerate p n d g /\
        forall j', (j' < j)%nat -> exists R' g', attempt j' R' g' /\ ~ non_degenerate p n d g') \/
     (~ non_degenerate p n d f /\ M = mzero (S n) (S n) /\
        forall j', (j' < Z.to_nat N)%nat -> exists R' g', attempt j' R' g' /\ ~ non_degenerate p n d g')).
  Proof.
    unfold find_change_of_variables. destruct (is_nd_ok p q lu n d tl Pp Hpq HL Hd Htl f Hf Wf) as (b & Eb & Hb).
    destruct f as [|[a0 c0] f'] eqn:Ef; [congruence|]. rewrite <- Ef in *.
    destruct (proj2 Wf a0 c0) as (A1 & _ & _); [rewrite Ef; now left|]. rewrite A1, Eb. cbn [bind]. destruct b.
    - exists (ident (S n)). split; [destruct (Z.to_nat N); reflexivity|]. left. split; auto. now apply Hb.
    - assert (Nb : ~ non_degenerate p n d f) by (intros X; apply Hb in X; discriminate).
      destruct (find_loop_ok (Z.to_nat N) 0 (ident (S n))) as (R & E & [(j & g & Hj & At & N' & Bf)|[Z Bf]]); exists R; (split; [exact E|]); right.
      + left. split; auto. exists j, g. split; [lia|]. split; auto. split; auto. intros j' Hj'. apply Bf. lia.
      + right. split; auto. split; auto. intros j' Hj'. apply Bf. lia.
  Qed.
End Find.
