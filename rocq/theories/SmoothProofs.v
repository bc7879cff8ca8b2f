(** Proofs about isSmooth. *)
From Coq Require Import ZArith List Bool Lia Znumtheory Permutation.
From Verif Require Import Base VecModel ToolsModel ToolsSpec ToolsProofs MatModel MatProofs DRModel DRSpec DRProofs DRRed DRLemmas MpzSpec MpzProofs LinAlg SolveModel SolveSpec SolveProofs.
Import ListNotations.
Open Scope Z_scope.

Lemma fin_choice {A} (d : A) (P : nat -> A -> Prop) m : (forall i, (i < m)%nat -> exists x, P i x) ->
  exists F, forall i, (i < m)%nat -> P i (F i).
Proof.
  induction m as [|m IH]; intros H.
  - exists (fun _ => d). intros; lia.
  - destruct IH as (F & HF); [intros; apply H; lia|]. destruct (H m ltac:(lia)) as (x & Hx).
    exists (fun i => if Nat.eqb i m then x else F i). intros i Hi. destruct (Nat.eqb_spec i m) as [->|]; auto. apply HF. lia.
Qed.

(** the rank returned by LU is the number of rows exactly if there is a right inverse *)
Lemma rank_full p ech m n A : prime p -> ech_spec p ech -> shape A m n -> mreduced p A ->
  fst (ech p m n A) = m <-> exists W, mmeq p m m (mm n (mget A) W) delta.
Proof.
  intros Pp HE HS HR.
  pose proof (ech_factor p ech m n A Pp HE HS HR) as F1.
  pose proof (ech_factor p ech n m (transpose m n A) Pp HE (transpose_shape m n A) (mreduced_transpose p m n A HS HR)) as F2.
  destruct (ech p m n A) as [r M]. destruct (ech p n m (transpose m n A)) as [r' M']. cbv zeta in F1, F2. cbn [fst snd] in *.
  destruct F1 as (c & V & R1 & E1 & S1). destruct F2 as (R & V' & R2 & E2 & S2).
  assert (R2' : rfact p n m (trm (mget A)) r' V').
  { destruct R2 as (L & K & A1 & A2). exists L, K. split; auto. intros i j Hi Hj. unfold trm.
    rewrite <- (transpose_get m n) by auto. auto. }
  pose proof (cross_rank p Pp m n (mget A) r V c r' V' R R1 E1 R2' E2) as Er. subst r'. split.
  - intros ->. destruct (cross p Pp m n (mget A) m V c m V' R R1 E1 R2' E2) as (W & HW).
    assert (Rid : forall s, (s < m)%nat -> nth s R O = s).
    { destruct E2 as (L & I1 & I2 & _). pose proof (incr_ge R m I1) as G. clear L.
      assert (G2 : forall k s, (s + k < m)%nat -> (nth s R O + k <= nth (s + k) R O)%nat).
      { induction k as [|k IH]; intros s Hs; [rewrite !Nat.add_0_r; lia|]. specialize (IH s ltac:(lia)).
        specialize (I1 (s + k)%nat (s + S k)%nat ltac:(lia)). lia. }
      intros s Hs. specialize (G s Hs). specialize (G2 (m - 1 - s)%nat s ltac:(lia)).
      specialize (I2 (s + (m - 1 - s))%nat ltac:(lia)). lia. }
    (* spread W over all columns *)
    exists (fun k t => sumf (fun a => if Nat.eqb (nth a c O) k then W a t else 0) (seq 0 m)).
    intros i j Hi Hj. eapply cong_trans; [|apply (HW i j Hi Hj)]. apply cong_of_eq. unfold mm.
    transitivity (sumf (fun a => sumf (fun k => if Nat.eqb (nth a c O) k then mget A i k * W a j else 0) (seq 0 n)) (seq 0 m)).
    { rewrite sumf_swap. apply sumf_ext. intros k _. rewrite <- sumf_scal. apply sumf_ext. intros a _. destruct (Nat.eqb _ k); ring. }
    apply sumf_ext. intros a Ha. apply in_seq in Ha. rewrite Rid by auto.
    rewrite (sumf_seq_single _ 0 n (nth a c O)).
    + now rewrite Nat.eqb_refl.
    + split; [lia|]. apply E1. lia.
    + intros k _ N. destruct (Nat.eqb_spec (nth a c O) k); [congruence|auto].
  - intros (W & HW). assert (Hrm : (r <= m)%nat) by apply S1. destruct R1 as (L & K & A1 & A2).
    assert (m <= r)%nat; [|lia]. apply (right_inv_le p m r L (mm n V W) Pp).
    intros i j Hi Hj. rewrite mm_assoc. eapply cong_trans; [|apply (HW i j Hi Hj)].
    apply mm_cong; [|intros; apply cong_refl]. intros a Ha. apply cong_sym. auto.
Qed.

Lemma seq_blocks b a (g : nat -> Z) :
  sumf g (seq 0 (a * b)) = sumf (fun i => sumf (fun j => g (i * b + j)%nat) (seq 0 b)) (seq 0 a).
Proof.
  induction a as [|a IH]; [reflexivity|]. rewrite seq_S, sumf_app, Nat.add_0_l, sumf_cons, sumf_nil, <- IH.
  replace (S a * b)%nat with (a * b + b)%nat by lia. rewrite seq_app, sumf_app, Nat.add_0_l. f_equal. rewrite Z.add_0_r.
  rewrite seq_off, sumf_map. reflexivity.
Qed.

(** the matrix whose column (i, s) holds the coefficients of the multiple x^s of
    the i-th generator has full row rank exactly if every form is in the ideal *)
Lemma ideal_rank p lu n (rows lo : list vec) T (coef : nat -> vec -> vec -> Z) :
  prime p -> ech_spec p lu -> NoDup rows -> NoDup lo ->
  let nc := (S n * length lo)%nat in
  shape T (length rows) nc -> mreduced p T ->
  (forall r i j, (r < length rows)%nat -> (i <= n)%nat -> (j < length lo)%nat ->
      cong p (mget T r (i * length lo + j)) (coef i (nth j lo []) (nth r rows []))) ->
  fst (lu p (length rows) nc T) = length rows <->
  forall G : vec -> Z, exists h : nat -> vec -> Z, forall t, In t rows ->
    cong p (G t) (sumf (fun i => sumf (fun s => h i s * coef i s t) lo) (seq 0 (S n))).
Proof.
  intros Pp HE NR NL nc ST RT HT.
  pose proof (rank_full p lu (length rows) nc T Pp HE ST RT) as RF. rewrite RF. clear RF.
  assert (IR : forall i j, (i < length rows)%nat -> (j < length rows)%nat -> nth i rows [] = nth j rows [] -> i = j)
    by (intros i j Hi Hj; now apply NoDup_nth).
  assert (IL : forall i j, (i < length lo)%nat -> (j < length lo)%nat -> nth i lo [] = nth j lo [] -> i = j)
    by (intros i j Hi Hj; now apply NoDup_nth).
  split.
  - intros (V & HV) G.
    exists (fun i s => sumf (fun j => if list_eq_dec Z.eq_dec (nth j lo []) s
               then sumf (fun r => V (i * length lo + j)%nat r * G (nth r rows [])) (seq 0 (length rows)) else 0) (seq 0 (length lo))).
    intros t Ht. destruct (In_nth _ _ [] Ht) as (r0 & Hr0 & <-).
    set (H := fun i j => sumf (fun r => V (i * length lo + j)%nat r * G (nth r rows [])) (seq 0 (length rows))).
    apply cong_trans with (sumf (fun i => sumf (fun j => H i j * coef i (nth j lo []) (nth r0 rows [])) (seq 0 (length lo))) (seq 0 (S n))).
    2:{ apply cong_of_eq. apply sumf_ext. intros i Hi. rewrite (sumf_nth _ lo []). apply sumf_ext. intros j Hj. apply in_seq in Hj. f_equal.
        rewrite (sumf_seq_single _ 0 (length lo) j); [|lia|].
        - destruct (list_eq_dec Z.eq_dec (nth j lo []) (nth j lo [])); [reflexivity|congruence].
        - intros j' Hj' N. destruct (list_eq_dec Z.eq_dec (nth j' lo []) (nth j lo [])) as [X|]; auto. exfalso. apply N.
          exact (IL j' j (proj2 Hj') (proj2 Hj) X). }
    apply cong_trans with (sumf (fun i => sumf (fun j => H i j * mget T r0 (i * length lo + j)) (seq 0 (length lo))) (seq 0 (S n))).
    2:{ apply cong_eq_sumf. intros i Hi. apply in_seq in Hi. apply cong_eq_sumf. intros j Hj. apply in_seq in Hj.
        apply cong_mul; [apply cong_refl|]. apply HT; lia. }
    apply cong_trans with (sumf (fun k => sumf (fun r => V k r * G (nth r rows [])) (seq 0 (length rows)) * mget T r0 k) (seq 0 nc)).
    2:{ apply cong_of_eq. unfold nc; rewrite seq_blocks. reflexivity. }
    apply cong_trans with (sumf (fun r => mm nc (mget T) V r0 r * G (nth r rows [])) (seq 0 (length rows))).
    2:{ apply cong_of_eq. unfold mm. 
        transitivity (sumf (fun r => sumf (fun k => mget T r0 k * V k r * G (nth r rows [])) (seq 0 nc)) (seq 0 (length rows))).
        { apply sumf_ext. intros r _. now rewrite sumf_scal_r. }
        rewrite sumf_swap. apply sumf_ext. intros k _. rewrite <- sumf_scal_r. apply sumf_ext. intros r _. ring. }
    apply cong_trans with (sumf (fun r => delta r0 r * G (nth r rows [])) (seq 0 (length rows))).
    { apply cong_of_eq. rewrite (sumf_seq_single _ 0 (length rows) r0); [rewrite delta_same; ring|lia|].
      intros r _ N. rewrite delta_diff by auto. ring. }
    apply cong_eq_sumf. intros r Hr. apply in_seq in Hr. apply cong_mul; [|apply cong_refl]. apply cong_sym, HV; lia.
  - intros HG.
    destruct (fin_choice (fun _ => 0) (fun c (w : nat -> Z) => forall r, (r < length rows)%nat ->
      cong p (sumf (fun k => mget T r k * w k) (seq 0 nc)) (delta r c)) (length rows)) as (F & HF).
    { intros c Hc. destruct (HG (fun t => if list_eq_dec Z.eq_dec t (nth c rows []) then 1 else 0)) as (h & Hh).
      exists (fun k => h (k / length lo)%nat (nth (k mod length lo) lo [])). intros r Hr.
      specialize (Hh (nth r rows [])). cbn beta in Hh. apply cong_sym.
      eapply cong_trans; [eapply cong_trans; [|apply Hh, nth_In; auto]|].
      { apply cong_of_eq. unfold delta. destruct (Nat.eqb_spec r c) as [->|N].
        - destruct (list_eq_dec Z.eq_dec (nth c rows []) (nth c rows [])); [reflexivity|congruence].
        - destruct (list_eq_dec Z.eq_dec (nth r rows []) (nth c rows [])) as [X|]; auto. exfalso. apply N.
          now apply IR. }
      unfold nc; rewrite seq_blocks. apply cong_eq_sumf. intros i Hi. apply in_seq in Hi. rewrite (sumf_nth _ lo []).
      apply cong_eq_sumf. intros j Hj. apply in_seq in Hj.
      rewrite Nat.div_add_l by lia. rewrite Nat.div_small, Nat.add_0_r by lia.
      rewrite (Nat.add_comm (i * length lo) j), Nat.mod_add, Nat.mod_small by lia.
      rewrite Z.mul_comm. rewrite (Nat.add_comm j). apply cong_mul; [|apply cong_refl]. apply cong_sym, HT; lia. }
    exists (fun k c => F c k). intros r c Hr Hc. apply HF; auto.
Qed.

Section Smooth.
  Variables (p q : Z) (lu : ech_fun) (f : poly) (n : nat) (d : Z) (tl : list (list vec)).
  Hypothesis Pp : prime p.
  Hypothesis Hpq : (p | q).
  Hypothesis HE : ech_spec p lu.
  Hypothesis Hf : f <> [].
  Hypothesis W : wf_poly n d f.
  Hypothesis Hd : 2 <= d.
  Hypothesis Htl : init_tuples n d = OK tl.
  Let l := (d - 2) * (Z.of_nat n + 1) + 1.

  Lemma is_smooth_ok : exists b, is_smooth lu p q f = OK b /\
    (b = true <-> forall G, in_jacobian p n d f l G).
  Proof.
    unfold is_smooth. destruct f as [|[a0 c0] f'] eqn:Ef; [congruence|]. rewrite <- Ef in *.
    destruct (proj2 W a0 c0) as (A1 & A2 & A3); [rewrite Ef; now left|].
    rewrite A1, A3. replace (S n - 1)%nat with n by lia. rewrite Htl. cbn [bind].
    set (D := mk_dR p 1 q n d f tl (map tuple_index tl) [] []).
    assert (base : dr_base D).
    { constructor; cbn [r_d r_n r_f r_tl r_td D]; [lia|apply W|apply W| |].
      - intros k Hk. eapply init_tuples_ok; eauto.
      - intros k Hk. eapply (get_at_map tuple_index). eapply init_tuples_ok; eauto. }
    destruct (matrix_J_weighted_b D base l) as (T & MJ & ST & _); [cbn [r_d r_n D]; unfold l; nia|].
    destruct (matrix_J_entry_b D base l) as (ts & ss & T' & G1 & G2 & MJ' & _ & MT); [cbn [r_d r_n D]; unfold l; nia|].
    cbn [r_d r_n r_f r_tl r_q D] in *. 
    rewrite (init_tuples_ok n d) in G1, G2 by (auto; unfold l; nia). injection G1 as <-. injection G2 as <-.
    rewrite MJ in MJ'. injection MJ' as <-.
    set (rows := enum (S n) (Z.to_nat l)) in *. set (lo := enum (S n) (Z.to_nat (l - (d - 1)))) in *.
    set (nc := (S n * length lo)%nat) in *.
    fold l. rewrite MJ. cbn [bind fst snd]. eexists. split; [reflexivity|].
    assert (LT : length T = length rows) by apply ST. rewrite LT.
    pose proof (prime_ge_2 p Pp) as P2.
    rewrite Nat.eqb_eq. transitivity (fst (lu p (length rows) nc (reduce_mat p T)) = length rows); [split; auto|].
    etransitivity.
    { apply (ideal_rank p lu n rows lo (reduce_mat p T) (coef_dx f) Pp HE);
        [apply enum_NoDup|apply enum_NoDup|now apply reduce_mat_shape|apply reduce_mat_reduced; lia|].
      intros r i j Hr Hi Hj. rewrite reduce_mat_get. eapply cong_trans; [apply cong_mod_any|].
      apply cong_div with q; auto. }
    assert (Hin : forall t, is_tuple (S n) l t <-> In t rows).
    { intros t. unfold rows. rewrite enum_In by lia. rewrite Z2Nat.id by (unfold l; nia). reflexivity. }
    split; intros X G; destruct (X G) as (h & Hh); exists h; intros t Ht; apply Hh, Hin, Ht.
  Qed.
End Smooth.
