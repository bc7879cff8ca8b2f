(** Linear algebra modulo q on matrices given as functions of two indices. *)
From Coq Require Import ZArith List Lia Znumtheory.
From Verif Require Import Base MatProofs.
Import ListNotations.
Open Scope Z_scope.

Definition mm (k : nat) (f g : nat -> nat -> Z) : nat -> nat -> Z :=
  fun i j => sumf (fun a => f i a * g a j) (seq 0 k).
Definition delta (i j : nat) : Z := if Nat.eqb i j then 1 else 0.
Definition mmeq (q : Z) (m n : nat) (f g : nat -> nat -> Z) : Prop :=
  forall i j, (i < m)%nat -> (j < n)%nat -> cong q (f i j) (g i j).
Definition trm (f : nat -> nat -> Z) : nat -> nat -> Z := fun i j => f j i.

Lemma cong_mul q a b c d : cong q a b -> cong q c d -> cong q (a * c) (b * d).
Proof. intros [x Hx] [y Hy]. exists (x * d + b * y + x * y * q). nia. Qed.
Lemma cong_add q a b c d : cong q a b -> cong q c d -> cong q (a + c) (b + d).
Proof. intros [x Hx] [y Hy]. exists (x + y). lia. Qed.
Lemma cong_sub q a b c d : cong q a b -> cong q c d -> cong q (a - c) (b - d).
Proof. intros [x Hx] [y Hy]. exists (x - y). lia. Qed.

Lemma delta_same i : delta i i = 1.
Proof. unfold delta. now rewrite Nat.eqb_refl. Qed.
Lemma delta_diff i j : i <> j -> delta i j = 0.
Proof. unfold delta. intros H. destruct (Nat.eqb_spec i j); congruence. Qed.

Lemma mm_cong q k f f' g g' i j :
  (forall a, (a < k)%nat -> cong q (f i a) (f' i a)) -> (forall a, (a < k)%nat -> cong q (g a j) (g' a j)) ->
  cong q (mm k f g i j) (mm k f' g' i j).
Proof.
  intros H1 H2. apply cong_eq_sumf. intros a Ha. apply in_seq in Ha. apply cong_mul; [apply H1|apply H2]; lia.
Qed.
Lemma mm_assoc k l f g h i j : mm k f (mm l g h) i j = mm l (mm k f g) h i j.
Proof.
  unfold mm. transitivity (sumf (fun a => sumf (fun b => f i a * (g a b * h b j)) (seq 0 l)) (seq 0 k)).
  { apply sumf_ext. intros a _. now rewrite sumf_scal. }
  rewrite sumf_swap. apply sumf_ext. intros b _. rewrite <- sumf_scal_r. apply sumf_ext. intros a _. ring.
Qed.
Lemma mm_delta_l k g i j : (i < k)%nat -> mm k delta g i j = g i j.
Proof.
  intros H. unfold mm. rewrite (sumf_seq_single _ 0 k i).
  - rewrite delta_same. ring.
  - lia.
  - intros a Ha Na. rewrite delta_diff by auto. ring.
Qed.
Lemma mm_delta_r k g i j : (j < k)%nat -> mm k g delta i j = g i j.
Proof.
  intros H. unfold mm. rewrite (sumf_seq_single _ 0 k j).
  - rewrite delta_same. ring.
  - lia.
  - intros a Ha Na. rewrite delta_diff by auto. ring.
Qed.
Lemma mm_trm k f g i j : mm k (trm f) (trm g) i j = mm k g f j i.
Proof. apply sumf_ext. intros a _. unfold trm. ring. Qed.

(** inverse of a triangular matrix *)
Lemma tri_inv q r U :
  (forall i j, (j < i < r)%nat -> cong q (U i j) 0) -> (forall i, (i < r)%nat -> exists e, cong q (U i i * e) 1) ->
  exists V, mmeq q r r (mm r U V) delta /\ mmeq q r r (mm r V U) delta.
Proof.
  induction r as [|r IH]; intros H0 H1.
  - exists delta. split; intros i j Hi; lia.
  - destruct IH as (V & R & L); [intros; apply H0; lia|intros; apply H1; lia|]. destruct (H1 r (Nat.lt_succ_diag_r r)) as (e & He).
    set (W := fun i j => if Nat.ltb i r then (if Nat.ltb j r then V i j else - (mm r V U i r) * e)
                         else (if Nat.ltb j r then 0 else e)).
    assert (Sr : forall f g i j, mm (S r) f g i j = mm r f g i j + f i r * g r j).
    { intros. unfold mm. now rewrite seq_S, Nat.add_0_l, sumf_app, sumf_cons, sumf_nil, Z.add_0_r. }
    assert (W1 : forall i j, (i < r)%nat -> (j < r)%nat -> W i j = V i j).
    { intros. unfold W. destruct (Nat.ltb_spec i r), (Nat.ltb_spec j r); auto; lia. }
    assert (W2 : forall i, (i < r)%nat -> W i r = - (mm r V U i r) * e).
    { intros. unfold W. rewrite Nat.ltb_irrefl. destruct (Nat.ltb_spec i r); auto; lia. }
    assert (W3 : forall j, (j < r)%nat -> W r j = 0).
    { intros. unfold W. rewrite Nat.ltb_irrefl. destruct (Nat.ltb_spec j r); auto; lia. }
    assert (W4 : W r r = e) by (unfold W; now rewrite Nat.ltb_irrefl).
    exists W. split; intros i j Hi Hj; rewrite Sr.
    + destruct (Nat.eq_dec j r) as [->|Nj].
      * rewrite W4. destruct (Nat.eq_dec i r) as [->|Ni].
        { rewrite delta_same. apply (cong_add q _ 0 _ 1); [|exact He].
          apply cong_trans with (sumf (fun _ => 0) (seq 0 r)); [|apply cong_of_eq; now apply sumf_zero].
          apply cong_eq_sumf. intros a Ha. apply in_seq in Ha. eapply cong_trans; [apply cong_mul; [apply H0; lia|apply cong_refl]|].
          apply cong_of_eq. ring. }
        { rewrite delta_diff by auto. replace (mm r U W i r) with (- mm r U (mm r V U) i r * e).
          2:{ transitivity (sumf (fun a => (U i a * mm r V U a r) * (- e)) (seq 0 r)).
              - rewrite sumf_scal_r. fold (mm r U (mm r V U) i r). ring.
              - apply sumf_ext. intros a Ha. apply in_seq in Ha. rewrite W2 by lia. ring. }
          rewrite mm_assoc. eapply cong_trans; [apply cong_add; [|apply cong_refl]|].
          - apply cong_mul; [|apply cong_refl]. rewrite <- (Z.mul_1_l (mm _ _ _ _ _)), <- Z.mul_opp_l.
            apply cong_mul; [apply cong_refl|]. apply (mm_cong q r (mm r U V) delta U U); [|intros; apply cong_refl].
            intros a Ha. apply R; lia.
          - rewrite mm_delta_l by lia. apply cong_of_eq. ring. }
      * rewrite W3 by lia. rewrite Z.mul_0_r, Z.add_0_r.
        apply cong_trans with (mm r U V i j).
        { apply cong_of_eq. apply sumf_ext. intros a Ha. apply in_seq in Ha. rewrite W1 by lia. reflexivity. }
        destruct (Nat.eq_dec i r) as [->|Ni]; [|apply R; lia].
        rewrite delta_diff by auto. apply cong_trans with (sumf (fun _ => 0) (seq 0 r)); [|apply cong_of_eq; now apply sumf_zero].
        apply cong_eq_sumf. intros a Ha. apply in_seq in Ha. eapply cong_trans; [apply cong_mul; [apply H0; lia|apply cong_refl]|].
        apply cong_of_eq. ring.
    + destruct (Nat.eq_dec i r) as [->|Ni].
      * rewrite W4. assert (Z0 : mm r W U r j = 0).
        { apply sumf_zero. intros a Ha. apply in_seq in Ha. rewrite W3 by lia. ring. }
        rewrite Z0, Z.add_0_l. destruct (Nat.eq_dec j r) as [->|Nj].
        { rewrite delta_same, Z.mul_comm. exact He. }
        { rewrite delta_diff by auto. eapply cong_trans; [apply cong_mul; [apply cong_refl|apply H0; lia]|]. apply cong_of_eq. ring. }
      * rewrite W2 by lia. replace (mm r W U i j) with (mm r V U i j).
        2:{ apply sumf_ext. intros a Ha. apply in_seq in Ha. rewrite W1 by lia. reflexivity. }
        destruct (Nat.eq_dec j r) as [->|Nj].
        { rewrite delta_diff by auto. destruct He as [x Hx]. exists (- mm r V U i r * x). replace (mm r V U i r + - mm r V U i r * e * U r r - 0) with (- mm r V U i r * (U r r * e - 1)) by ring. rewrite Hx. ring. }
        { eapply cong_trans; [apply cong_add; [apply L; lia|apply cong_mul; [apply cong_refl|apply H0; lia]]|].
          apply cong_of_eq. ring. }
Qed.

(** * more unknowns than equations *)
Definition skip (s i : nat) : nat := if Nat.ltb i s then i else S i.
Lemma sumf_skip (f : nat -> Z) m s : (s <= m)%nat ->
  sumf f (seq 0 (S m)) = f s + sumf (fun i => f (skip s i)) (seq 0 m).
Proof.
  intros H. induction m as [|m IH].
  - assert (s = 0%nat) by lia. subst. cbn. unfold sumf. cbn. lia.
  - rewrite (seq_S (S m)), sumf_app, sumf_cons, sumf_nil, Nat.add_0_l.
    destruct (Nat.eq_dec s (S m)) as [->|N].
    + rewrite (sumf_ext (fun i => f (skip (S m) i)) f); [lia|].
      intros a Ha. apply in_seq in Ha. unfold skip. destruct (Nat.ltb_spec a (S m)); auto; lia.
    + rewrite IH by lia. rewrite (seq_S m), sumf_app, sumf_cons, sumf_nil, Nat.add_0_l.
      unfold skip at 3. destruct (Nat.ltb_spec m s); [lia|]. lia.
Qed.
Lemma skip_inj s i j : skip s i = skip s j -> i = j.
Proof. unfold skip. destruct (Nat.ltb_spec i s), (Nat.ltb_spec j s); lia. Qed.
Lemma skip_neq s i : skip s i <> s.
Proof. unfold skip. destruct (Nat.ltb_spec i s); lia. Qed.
Lemma skip_lt s i m : (i < m)%nat -> (skip s i < S m)%nat.
Proof. unfold skip. destruct (Nat.ltb_spec i s); lia. Qed.
Lemma skip_surj s j m : (j < S m)%nat -> j <> s -> (s <= m)%nat -> exists i, (i < m)%nat /\ skip s i = j.
Proof.
  intros H N L. destruct (Nat.lt_ge_cases j s) as [C|C].
  - exists j. split; [lia|]. unfold skip. destruct (Nat.ltb_spec j s); lia.
  - exists (pred j). split; [lia|]. unfold skip. destruct (Nat.ltb_spec (pred j) s); lia.
Qed.

Lemma prime_inv p a : prime p -> ~ cong p a 0 -> exists e, cong p (a * e) 1.
Proof.
  intros Pp N. rewrite cong_0 in N. assert (R : rel_prime a p).
  { apply rel_prime_sym. apply prime_rel_prime; auto. }
  destruct (rel_prime_bezout _ _ R) as [u v E]. exists u. exists (- v). lia.
Qed.

Lemma cong_dec p a : 0 < p -> {cong p a 0} + {~ cong p a 0}.
Proof.
  intros H. destruct (Z.eq_dec (a mod p) 0) as [E|E]; [left|right].
  - apply cong_iff_mod; [lia|]. now rewrite E, Zmod_0_l.
  - intros C. apply E. apply cong_iff_mod in C; [|lia]. now rewrite C, Zmod_0_l.
Qed.

Lemma kernel_vector p r : prime p -> forall m A, (r < m)%nat ->
  exists x, (exists i, (i < m)%nat /\ ~ cong p (x i) 0) /\
    forall j, (j < r)%nat -> cong p (sumf (fun i => x i * A i j) (seq 0 m)) 0.
Proof.
  intros Pp. assert (P1 : 1 < p) by (apply prime_ge_2 in Pp; lia).
  induction r as [|r IH]; intros m A Hm.
  - exists (fun _ => 1). split; [|intros; lia]. exists 0%nat. split; [lia|]. intros C. rewrite cong_0 in C.
    apply Z.divide_1_r_nonneg in C; lia.
  - destruct m as [|m]; [lia|].
    assert (D : (forall i, (i < S m)%nat -> cong p (A i r) 0) \/ exists s, (s < S m)%nat /\ ~ cong p (A s r) 0).
    { clear - P1. induction (S m) as [|k IHk]; [left; intros; lia|]. destruct IHk as [Hl|(s & H1 & H2)].
      - destruct (cong_dec p (A k r) ltac:(lia)) as [Y|N]; [left|right; exists k; split; auto; lia].
        intros i Hi. destruct (Nat.eq_dec i k) as [->|]; auto. apply Hl. lia.
      - right. exists s. split; auto. }
    destruct D as [D|(s & Hs & Ns)].
    + destruct (IH (S m) A ltac:(lia)) as (x & X1 & X2). exists x. split; auto. intros j Hj.
      destruct (Nat.eq_dec j r) as [->|]; [|apply X2; lia].
      apply cong_trans with (sumf (fun _ => 0) (seq 0 (S m))); [|apply cong_of_eq; now apply sumf_zero].
      apply cong_eq_sumf. intros a Ha. apply in_seq in Ha. eapply cong_trans; [apply cong_mul; [apply cong_refl|apply D; lia]|].
      apply cong_of_eq. ring.
    + destruct (prime_inv p (A s r) Pp Ns) as (e & He).
      destruct (IH m (fun i j => A (skip s i) j - A (skip s i) r * e * A s j) ltac:(lia)) as (y & (i0 & Hi0 & Ny) & Y2).
      set (un := fun i => if Nat.ltb i s then i else pred i).
      set (xs := - sumf (fun i => y i * (A (skip s i) r * e)) (seq 0 m)).
      set (x := fun i => if Nat.eqb i s then xs else y (un i)).
      assert (Xs : x s = xs) by (unfold x; now rewrite Nat.eqb_refl).
      assert (Xk : forall i, x (skip s i) = y i).
      { intros i. unfold x. destruct (Nat.eqb_spec (skip s i) s) as [K|_]; [now apply skip_neq in K|]. f_equal.
        unfold un, skip. destruct (Nat.ltb_spec i s); [destruct (Nat.ltb_spec i s); lia|destruct (Nat.ltb_spec (S i) s); lia]. }
      exists x. split; [exists (skip s i0); split; [now apply skip_lt|now rewrite Xk]|]. intros j Hj.
      rewrite (sumf_skip _ m s) by lia. rewrite Xs.
      rewrite (sumf_ext (fun i => x (skip s i) * A (skip s i) j) (fun i => y i * A (skip s i) j)) by (intros; now rewrite Xk).
      assert (Eq : xs * A s j + sumf (fun i => y i * A (skip s i) j) (seq 0 m) =
        sumf (fun i => y i * (A (skip s i) j - A (skip s i) r * e * A s j)) (seq 0 m)).
      { unfold xs. rewrite Z.mul_opp_l, <- sumf_scal_r.
        rewrite (sumf_ext (fun i => y i * (A (skip s i) j - A (skip s i) r * e * A s j))
          (fun i => y i * A (skip s i) j + -1 * (y i * (A (skip s i) r * e) * A s j))) by (intros; ring).
        rewrite sumf_plus, sumf_scal. lia. }
      rewrite Eq. destruct (Nat.eq_dec j r) as [->|]; [|apply Y2; lia].
      apply cong_trans with (sumf (fun _ => 0) (seq 0 m)); [|apply cong_of_eq; now apply sumf_zero].
      apply cong_eq_sumf. intros a _. destruct He as [z Hz]. exists (- y a * A (skip s a) r * z). replace (y a * (A (skip s a) r - A (skip s a) r * e * A s r) - 0) with (- y a * A (skip s a) r * (A s r * e - 1)) by ring. rewrite Hz. ring.
Qed.

(** a right invertible matrix has at most as many rows as columns *)
Lemma right_inv_le p r' r A M : prime p -> mmeq p r' r' (mm r A M) delta -> (r' <= r)%nat.
Proof.
  intros Pp H. destruct (Nat.le_gt_cases r' r) as [|C]; auto. exfalso.
  destruct (kernel_vector p r Pp r' A C) as (x & (i & Hi & Ni) & K). apply Ni.
  set (X := fun (_ : nat) j => x j).
  apply cong_trans with (mm r' X (mm r A M) 0%nat i).
  - apply cong_sym. eapply cong_trans; [apply (mm_cong p r' X X (mm r A M) delta); [intros; apply cong_refl|intros a Ha; apply H; lia]|].
    rewrite mm_delta_r by auto. apply cong_refl.
  - rewrite mm_assoc. apply cong_trans with (mm r (fun _ _ => 0) M 0%nat i).
    + apply mm_cong; [|intros; apply cong_refl]. intros a Ha. apply K. lia.
    + apply cong_of_eq. apply sumf_zero. intros; ring.
Qed.

(** * echelon forms and rank factorisations *)
Definition echelon (p : Z) (r n : nat) (c : list nat) (U : nat -> nat -> Z) : Prop :=
  length c = r /\ (forall i j, (i < j < r)%nat -> (nth i c O < nth j c O)%nat) /\ (forall i, (i < r)%nat -> (nth i c O < n)%nat) /\
  (forall i, (i < r)%nat -> ~ cong p (U i (nth i c O)) 0) /\
  (forall i j, (i < r)%nat -> (j < nth i c O)%nat -> U i j = 0).
Definition rfact (p : Z) (m n : nat) (A : nat -> nat -> Z) (r : nat) (U : nat -> nat -> Z) : Prop :=
  exists L K, mmeq p m n A (mm r L U) /\ mmeq p r r (mm m K L) delta.

Section Cross.
  Variable p : Z.
  Hypothesis Pp : prime p.

  Lemma ech_tri r n c U : echelon p r n c U ->
    exists V, mmeq p r r (mm r (fun i j => U i (nth j c O)) V) delta /\ mmeq p r r (mm r V (fun i j => U i (nth j c O))) delta.
  Proof.
    intros (E1 & E2 & E3 & E4 & E5). apply tri_inv.
    - intros i j Hij. apply cong_of_eq. apply E5; [lia|]. apply E2. lia.
    - intros i Hi. apply prime_inv; auto.
  Qed.

  Lemma cross m n T r U c r' U' R : rfact p m n T r U -> echelon p r n c U ->
    rfact p n m (trm T) r' U' -> echelon p r' m R U' ->
    exists M, mmeq p r' r' (mm r (fun s a => T (nth s R O) (nth a c O)) M) delta.
  Proof.
    intros (L & K & F1 & F2) Ec (L' & K' & F1' & F2') Ec'.
    destruct (ech_tri _ _ _ _ Ec) as (V & V1 & V2). destruct (ech_tri _ _ _ _ Ec') as (V' & V1' & V2').
    set (UC := fun i j => U i (nth j c O)) in *. set (UR := fun i j => U' i (nth j R O)) in *.
    set (TRC := fun s a => T (nth s R O) (nth a c O)). set (TR := fun s j => T (nth s R O) j).
    assert (HR : forall s, (s < r')%nat -> (nth s R O < m)%nat) by apply Ec'.
    assert (HC : forall s, (s < r)%nat -> (nth s c O < n)%nat) by apply Ec.
    (* T = T_C V U *)
    assert (A1 : mmeq p r' n (mm r TRC (mm r V U)) TR).
    { intros s j Hs Hj. specialize (HR s Hs).
      apply cong_trans with (mm r (fun s' a => mm r L U (nth s' R O) (nth a c O)) (mm r V U) s j).
      { apply mm_cong; [|intros; apply cong_refl]. intros a Ha. apply F1; auto. }
      apply cong_trans with (mm r (mm r (fun s' => L (nth s' R O)) UC) (mm r V U) s j); [apply cong_refl|].
      rewrite <- mm_assoc. apply cong_trans with (mm r (fun s' => L (nth s' R O)) U s j); [|apply cong_sym; apply F1; auto].
      apply mm_cong; [intros; apply cong_refl|]. intros a Ha. rewrite mm_assoc. apply cong_trans with (mm r delta U a j).
      { apply mm_cong; [|intros; apply cong_refl]. intros b Hb. apply V1; auto. }
      rewrite mm_delta_l by auto. apply cong_refl. }
    (* T_R has a right inverse *)
    assert (A2 : mmeq p r' r' (mm n TR (mm r' (trm K') (trm V'))) delta).
    { intros s t Hs Ht. pose proof (HR s Hs) as Hs'.
      apply cong_trans with (mm n (fun s' j => mm r' (trm UR) (trm L') s' j) (mm r' (trm K') (trm V')) s t).
      { apply mm_cong; [|intros; apply cong_refl]. intros a Ha. unfold TR. specialize (F1' a (nth s R O) Ha Hs').
        eapply cong_trans; [exact F1'|]. apply cong_of_eq. apply sumf_ext. intros b _. unfold trm, UR. ring. }
      change (cong p (mm n (mm r' (trm UR) (trm L')) (mm r' (trm K') (trm V')) s t) (delta s t)).
      rewrite <- mm_assoc. apply cong_trans with (mm r' (trm UR) (trm V') s t).
      { apply mm_cong; [intros; apply cong_refl|]. intros a Ha. rewrite mm_assoc. apply cong_trans with (mm r' delta (trm V') a t).
        - apply mm_cong; [|intros; apply cong_refl]. intros b Hb. rewrite mm_trm. unfold delta. rewrite Nat.eqb_sym. apply F2'; auto.
        - rewrite mm_delta_l by auto. apply cong_refl. }
      rewrite mm_trm. unfold delta. rewrite Nat.eqb_sym. apply V2'; auto. }
    exists (mm n (mm r V U) (mm r' (trm K') (trm V'))). intros s t Hs Ht. rewrite mm_assoc.
    apply cong_trans with (mm n TR (mm r' (trm K') (trm V')) s t); [|apply A2; auto].
    apply mm_cong; [|intros; apply cong_refl]. intros a Ha. apply A1; auto.
  Qed.

  Lemma cross_rank m n T r U c r' U' R : rfact p m n T r U -> echelon p r n c U ->
    rfact p n m (trm T) r' U' -> echelon p r' m R U' -> r = r'.
  Proof.
    intros F E F' E'. destruct (cross _ _ _ _ _ _ _ _ _ F E F' E') as (M & HM).
    destruct (cross n m (trm T) _ _ _ _ _ _ F' E' F E) as (M' & HM').
    apply right_inv_le in HM; auto. apply right_inv_le in HM'; auto. lia.
  Qed.

  (** the square matrix of pivot columns and unit vectors has a right inverse *)
  Lemma complete m T r c R B M : (forall i, (i < r)%nat -> (nth i R O < m)%nat) -> length R = r ->
    (forall i j, (i < j < r)%nat -> (nth i R O < nth j R O)%nat) ->
    (length B = m - r)%nat -> (r <= m)%nat -> NoDup B -> (forall i, (i < m)%nat -> In i B \/ In i R) -> (forall i, In i B -> ~ In i R) ->
    mmeq p r r (mm r (fun s a => T (nth s R O) (nth a c O)) M) delta ->
    exists Z0, mmeq p m m (mm m (fun j i => if Nat.ltb i r then T j (nth i c O) else if Nat.eqb (nth (i - r) B O) j then 1 else 0) Z0) delta.
  Proof.
    intros R1 R2 R3 B1 Hrm B2 B3 B4 HM.
    set (TC := fun j a => T j (nth a c O)).
    (* index of a row in R *)
    assert (ND : NoDup R).
    { apply (NoDup_nth R O). intros i j Hi Hj E. destruct (Nat.lt_trichotomy i j) as [L|[L|L]]; auto.
      - specialize (R3 i j ltac:(lia)). lia.
      - specialize (R3 j i ltac:(lia)). lia. }
    set (top := fun a k => sumf (fun t => if Nat.eqb (nth t R O) k then M a t else 0) (seq 0 r)).
    assert (T1 : forall a t, (t < r)%nat -> top a (nth t R O) = M a t).
    { intros a t Ht. unfold top. rewrite (sumf_seq_single _ 0 r t); [now rewrite Nat.eqb_refl|lia|].
      intros t' Ht' N. destruct (Nat.eqb_spec (nth t' R O) (nth t R O)) as [E|]; auto. exfalso. apply N.
      apply (proj1 (NoDup_nth R O) ND); auto; lia. }
    assert (T2 : forall a k, ~ In k R -> top a k = 0).
    { intros a k Hk. apply sumf_zero. intros t Ht. apply in_seq in Ht. destruct (Nat.eqb_spec (nth t R O) k) as [E|]; auto.
      exfalso. apply Hk. rewrite <- E. apply nth_In. lia. }
    set (Z0 := fun i k => if Nat.ltb i r then top i k else delta (nth (i - r) B O) k - mm r TC top (nth (i - r) B O) k).
    exists Z0. intros i k Hi Hk.
    assert (Sp : mm m (fun j a => if Nat.ltb a r then T j (nth a c O) else if Nat.eqb (nth (a - r) B O) j then 1 else 0) Z0 i k =
      mm r TC top i k + sumf (fun b => if Nat.eqb (nth b B O) i then delta (nth b B O) k - mm r TC top (nth b B O) k else 0) (seq 0 (m - r))).
    { unfold mm at 1. replace m with (r + (m - r))%nat at 1 by lia. rewrite seq_app, sumf_app. f_equal.
      - apply sumf_ext. intros a Ha. apply in_seq in Ha. unfold Z0. destruct (Nat.ltb_spec a r); [reflexivity|lia].
      - rewrite Nat.add_0_l. clear. generalize (m - r)%nat as k0. intros k0. 
        assert (G : forall s, sumf (fun a => (if Nat.ltb a r then T i (nth a c O) else if Nat.eqb (nth (a - r) B O) i then 1 else 0) * Z0 a k) (seq (r + s) k0)
          = sumf (fun b => if Nat.eqb (nth b B O) i then delta (nth b B O) k - mm r TC top (nth b B O) k else 0) (seq s k0)).
        { induction k0 as [|k0 IH]; intros s; [reflexivity|]. cbn [seq]. rewrite !sumf_cons. rewrite <- (IH (S s)).
          rewrite Nat.add_succ_r. f_equal. destruct (Nat.ltb_spec (r + s) r); [lia|]. unfold Z0.
          destruct (Nat.ltb_spec (r + s) r); [lia|]. replace (r + s - r)%nat with s by lia. destruct (Nat.eqb _ i); ring. }
        specialize (G 0%nat). now rewrite Nat.add_0_r in G. }
    rewrite Sp. destruct (B3 i Hi) as [IB|IR].
    - destruct (In_nth _ _ O IB) as (b & Lb & Eb). rewrite (sumf_seq_single _ 0 (m - r) b).
      + rewrite Eb, Nat.eqb_refl. apply cong_of_eq. ring.
      + lia.
      + intros b' Hb' N. destruct (Nat.eqb_spec (nth b' B O) i) as [E|]; auto. exfalso. apply N.
        apply (proj1 (NoDup_nth B O) B2); try lia.
    - rewrite sumf_zero.
      2:{ intros b Hb. apply in_seq in Hb. destruct (Nat.eqb_spec (nth b B O) i) as [E|]; auto. exfalso.
          apply (B4 i); auto. rewrite <- E. apply nth_In. lia. }
      rewrite Z.add_0_r. destruct (In_nth _ _ O IR) as (s & Ls & Es).
      destruct (in_dec Nat.eq_dec k R) as [KR|KR].
      + destruct (In_nth _ _ O KR) as (t & Lt & Et). rewrite R2 in Ls, Lt.
        apply cong_trans with (mm r (fun s a => T (nth s R O) (nth a c O)) M s t).
        { apply cong_of_eq. apply sumf_ext. intros a _. unfold TC. rewrite <- Et, T1, Es by auto. reflexivity. }
        eapply cong_trans; [apply HM; auto|]. apply cong_of_eq. rewrite <- Es, <- Et. unfold delta.
        destruct (Nat.eqb_spec s t) as [->|N]; [now rewrite Nat.eqb_refl|].
        destruct (Nat.eqb_spec (nth s R O) (nth t R O)) as [E|]; auto. exfalso. apply N.
        apply (proj1 (NoDup_nth R O) ND); auto; lia.
      + rewrite delta_diff by congruence. apply cong_of_eq. apply sumf_zero. intros a _. rewrite T2 by auto. ring.
  Qed.

  (** unit vectors outside the pivot rows are independent modulo the image *)
  Lemma indep_rows m n T r' U' R B x b : rfact p n m (trm T) r' U' -> echelon p r' m R U' ->
    NoDup B -> (forall i, In i B -> (i < m)%nat /\ ~ In i R) ->
    (forall i, (i < m)%nat -> cong p (sumf (fun a => T i a * x a) (seq 0 n))
                                     (sumf (fun k => if Nat.eqb (nth k B O) i then b k else 0) (seq 0 (length B)))) ->
    forall k, (k < length B)%nat -> cong p (b k) 0.
  Proof.
    intros (L' & K' & F1 & F2) Ec HB1 HB2 HX k Hk.
    destruct (ech_tri _ _ _ _ Ec) as (V & V1 & V2). set (UR := fun i j => U' i (nth j R O)) in *.
    assert (HR : forall s, (s < r')%nat -> (nth s R O < m)%nat) by apply Ec. assert (LR : length R = r') by apply Ec.
    set (Xv := fun (_ a : nat) => x a). set (Yv := mm n Xv L').
    assert (TX : forall i, (i < m)%nat -> cong p (sumf (fun a => T i a * x a) (seq 0 n)) (mm r' Yv U' O i)).
    { intros i Hi. apply cong_trans with (mm n Xv (mm r' L' U') O i).
      - apply cong_eq_sumf. intros a Ha. apply in_seq in Ha. unfold Xv. rewrite Z.mul_comm. apply cong_mul; [apply cong_refl|].
        apply (F1 a i); lia.
      - rewrite mm_assoc. apply cong_refl. }
    assert (J0 : forall t, (t < r')%nat -> cong p (mm r' Yv UR O t) 0).
    { intros t Ht. apply cong_trans with (mm r' Yv U' O (nth t R O)); [apply cong_refl|].
      eapply cong_trans; [apply cong_sym, TX; auto|]. eapply cong_trans; [apply HX; auto|]. apply cong_of_eq. apply sumf_zero.
      intros a Ha. apply in_seq in Ha. destruct (Nat.eqb_spec (nth a B O) (nth t R O)) as [E|]; auto. exfalso.
      destruct (HB2 (nth a B O)) as [_ N]; [apply nth_In; lia|]. apply N. rewrite E. apply nth_In. lia. }
    assert (Y0 : forall s, (s < r')%nat -> cong p (Yv O s) 0).
    { intros s Hs. apply cong_trans with (mm r' Yv delta O s); [rewrite mm_delta_r by auto; apply cong_refl|].
      apply cong_trans with (mm r' Yv (mm r' UR V) O s).
      { apply mm_cong; [intros; apply cong_refl|]. intros a Ha. apply cong_sym. apply V1; auto. }
      rewrite mm_assoc. apply cong_trans with (mm r' (fun _ _ => 0) V O s).
      { apply mm_cong; [|intros; apply cong_refl]. intros a Ha. apply J0; auto. }
      apply cong_of_eq. apply sumf_zero. intros; ring. }
    destruct (HB2 (nth k B O)) as [Hi _]; [now apply nth_In|].
    apply cong_trans with (sumf (fun k' => if Nat.eqb (nth k' B O) (nth k B O) then b k' else 0) (seq 0 (length B))).
    { apply cong_of_eq. rewrite (sumf_seq_single _ 0 (length B) k); [now rewrite Nat.eqb_refl|lia|].
      intros k' Hk' N. destruct (Nat.eqb_spec (nth k' B O) (nth k B O)) as [E|]; auto. exfalso. apply N.
      apply (proj1 (NoDup_nth B O) HB1); auto; lia. }
    eapply cong_trans; [apply cong_sym, HX; auto|]. eapply cong_trans; [apply TX; auto|].
    apply cong_trans with (mm r' (fun _ _ => 0) U' O (nth k B O)).
    { apply mm_cong; [|intros; apply cong_refl]. intros a Ha. apply Y0; auto. }
    apply cong_of_eq. apply sumf_zero. intros; ring.
  Qed.
End Cross.

(** * Newton step for a right inverse *)
Lemma newton_step P m k X U : mmeq P m m (mm k X U) delta ->
  mmeq (P * P) m m (mm k X (fun i j => 2 * U i j - mm m U (mm k X U) i j)) delta.
Proof.
  intros H i j Hi Hj.
  set (E := fun a b => mm k X U a b - delta a b).
  assert (Eq : mm k X (fun i j => 2 * U i j - mm m U (mm k X U) i j) i j = delta i j - mm m E E i j).
  { transitivity (2 * mm k X U i j - mm k X (mm m U (mm k X U)) i j).
    { unfold mm at 1 3 4. rewrite <- sumf_scal.
      rewrite (sumf_ext (fun a => X i a * (2 * U a j - mm m U (mm k X U) a j))
        (fun a => 2 * (X i a * U a j) + -1 * (X i a * mm m U (mm k X U) a j))) by (intros; ring).
      rewrite sumf_plus, (sumf_scal (-1)). fold (mm k X (mm m U (mm k X U)) i j). lia. }
    rewrite mm_assoc. set (W := mm k X U) in *.
    transitivity (2 * W i j - (mm m E E i j + E i j + E i j + delta i j)); [|unfold E; ring].
    f_equal.
    transitivity (sumf (fun a => E i a * E a j + delta i a * E a j + E i a * delta a j + delta i a * delta a j) (seq 0 m)).
    { unfold mm. apply sumf_ext. intros a _. unfold E. ring. }
    rewrite !sumf_plus. fold (mm m E E i j). fold (mm m delta E i j). fold (mm m E delta i j). fold (mm m delta delta i j).
    rewrite !mm_delta_l, mm_delta_r by auto. ring. }
  rewrite Eq. assert (Z0 : cong (P * P) (mm m E E i j) 0).
  { apply cong_trans with (sumf (fun _ => 0) (seq 0 m)); [|apply cong_of_eq; now apply sumf_zero].
    apply cong_eq_sumf. intros a Ha. apply in_seq in Ha. destruct (H i a Hi ltac:(lia)) as [x Hx]. destruct (H a j ltac:(lia) Hj) as [y Hy].
    exists (x * y). unfold E. rewrite Hx, Hy. ring. }
  destruct Z0 as [z Hz]. exists (- z). lia.
Qed.
