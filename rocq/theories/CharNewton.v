(** charpoly computes the monic polynomial determined by the traces of the
    powers of the matrix through Newton's identities. *)
From Coq Require Import ZArith List Bool Lia.
From Verif Require Import Base VecModel MatModel MatProofs CharModel CharSpec CharProofs.
Import ListNotations.
Open Scope Z_scope.

(** trace and powers *)
Definition tr (n : nat) (A : mat) : Z := sumf (fun i => mget A i i) (seq 0 n).
Fixpoint mpow (n : nat) (M : mat) (k : nat) : mat :=
  match k with O => M | S k => mat_mul n (mpow n M k) M end.

Lemma mat_mul_shape n A B r : length A = r -> shape (mat_mul n A B) r n.
Proof.
  intros L. split; [unfold mat_mul; now rewrite map_length|]. apply Forall_forall. intros x I. unfold mat_mul in I.
  apply in_map_iff in I. destruct I as (row & <- & _). now rewrite map_length, seq_length.
Qed.
Lemma mat_mul_get n A B i j : (i < length A)%nat -> (j < n)%nat ->
  mget (mat_mul n A B) i j = sumf (fun k => mget A i k * mget B k j) (seq 0 n).
Proof.
  intros Hi Hj. unfold mget at 1. unfold mat_mul.
  set (F := fun row : list Z => map (fun j => zsum (map (fun k => nth k row 0 * mget B k j) (seq 0 n))) (seq 0 n)).
  rewrite nth_indep with (d' := F []) by now rewrite map_length.
  rewrite (map_nth F). unfold F.
  set (G := fun j => zsum (map (fun k => nth k (nth i A []) 0 * mget B k j) (seq 0 n))).
  rewrite nth_indep with (d' := G 0%nat) by now rewrite map_length, seq_length.
  rewrite (map_nth G), seq_nth by lia. reflexivity.
Qed.
Lemma mpow_shape n M k : shape M n n -> shape (mpow n M k) n n.
Proof. intros S. induction k; cbn [mpow]; auto. apply mat_mul_shape. apply IHk. Qed.

Lemma trace_ok n M : (1 <= n)%nat -> shape M n n -> trace M = OK (tr n M).
Proof.
  intros Hn [L F]. unfold trace, ncols. destruct M as [|row M]; [cbn in L; lia|].
  inversion F; subst. cbn [nth]. rewrite H1, Nat.eqb_refl. cbn [check bind]. f_equal. unfold tr.
  generalize (seq 0 (length (row :: M))) as l. intros l.
  enough (X : forall acc, fold_left (fun acc i => acc + mget (row :: M) i i) l acc = acc + sumf (fun i => mget (row :: M) i i) l).
  { rewrite X. reflexivity. }
  induction l as [|a l IH]; intros acc; cbn [fold_left]; [rewrite sumf_nil; lia|]. rewrite IH, sumf_cons. lia.
Qed.
Lemma power_traces_ok n M k : (1 <= n)%nat -> shape M n n -> forall a,
  power_traces n M (mpow n M a) k = OK (map (fun i => tr n (mpow n M i)) (seq a k)).
Proof.
  intros Hn S. induction k as [|k IH]; intros a; cbn [power_traces]; [reflexivity|].
  rewrite (trace_ok n) by (auto; now apply mpow_shape). cbn [bind]. specialize (IH (Datatypes.S a)). cbn [mpow] in IH.
  rewrite IH. reflexivity.
Qed.

Lemma zsum_filter {A} (f : A -> Z) (g : A -> bool) l : zsum (map f (filter g l)) = sumf (fun i => if g i then f i else 0) l.
Proof.
  induction l as [|a l IH]; [reflexivity|]. cbn [filter]. rewrite sumf_cons. destruct (g a); cbn [map zsum]; lia.
Qed.
Lemma step2_ok e p k : (1 <= k)%nat -> step2_sum e p 1 k - step2_sum e p 2 k =
  sumf (fun i => (if Nat.even i then -1 else 1) * (nth (k - i) e 0 * nth i p 0)) (seq 1 k).
Proof.
  intros Hk. unfold step2_sum. rewrite !zsum_filter.
  replace (S k - 1)%nat with k by lia. replace (S k - 2)%nat with (k - 1)%nat by lia.
  destruct k as [|k]; [lia|]. replace (S k - 1)%nat with k by lia. cbn [seq]. rewrite !sumf_cons.
  cbn [Nat.sub Nat.even].
  assert (H : forall l, (forall i, In i l -> (2 <= i)%nat) ->
    sumf (fun i => if Nat.even (i - 1) then nth (S k - i) e 0 * nth i p 0 else 0) l -
    sumf (fun i => if Nat.even (i - 2) then nth (S k - i) e 0 * nth i p 0 else 0) l =
    sumf (fun i => (if Nat.even i then -1 else 1) * (nth (S k - i) e 0 * nth i p 0)) l).
  { induction l as [|a l IH]; intros Hl; [reflexivity|]. rewrite !sumf_cons. rewrite <- IH by (intros; apply Hl; now right).
    assert (Ha : (2 <= a)%nat) by (apply Hl; now left). destruct a as [|[|a]]; try lia.
    replace (S (S a) - 1)%nat with (S a) by lia. replace (S (S a) - 2)%nat with a by lia.
    rewrite Nat.even_succ, <- Nat.negb_even. cbn [Nat.even]. destruct (Nat.even a); cbn [negb]; ring. }
  specialize (H (seq 2 k)). cbn [Nat.sub] in H. rewrite Nat.sub_0_r in *. rewrite <- H; [|intros i I; apply in_seq in I; lia]. ring.
Qed.

Section NEWTON.
  Variables (n : nat) (P : list Z) (t : nat -> Z) (p : list Z).
  Hypothesis HP : length P = S n.
  Hypothesis HM : nth n P 0 = 1.
  Hypothesis Ht : power_sums n P t.
  Hypothesis Hpt : forall i, (1 <= i <= n)%nat -> nth i p 0 = t i.
  Let E k := alt k (nth (n - k) P 0).

  Lemma charpoly_loop_ok todo : forall k, (1 <= k)%nat -> (k + todo = S n)%nat ->
    charpoly_loop p (map E (seq 0 k)) k todo = OK (map E (seq 0 (S n))).
  Proof.
    induction todo as [|todo IH]; intros k Hk Hn; cbn [charpoly_loop].
    - do 3 f_equal. lia.
    - rewrite step2_ok by auto.
      assert (EN : forall i, (i < k)%nat -> nth i (map E (seq 0 k)) 0 = E i).
      { intros i Hi. rewrite nth_indep with (d' := E 0) by (rewrite map_length, seq_length; lia). now rewrite map_nth, seq_nth. }
      set (s := sumf _ _).
      assert (Hs : s = E k * Z.of_nat k).
      { pose proof (Ht k ltac:(lia)) as NW.
        assert (X : s = - alt k (sumf (fun i => nth (n - (k - i)) P 0 * t i) (seq 1 k))).
        { unfold s. rewrite (sumf_ext _ (fun i => alt k (-1) * (nth (n - (k - i)) P 0 * t i))).
          - rewrite sumf_scal. unfold alt. destruct (Nat.even k); ring.
          - intros i I. apply in_seq in I. rewrite EN, Hpt by lia. unfold E.
            transitivity (alt (k - i) (nth (n - (k - i)) P 0) * ((if Nat.even i then -1 else 1) * t i)); [ring|].
            unfold alt. replace (Nat.even k) with (Bool.eqb (Nat.even (k - i)) (Nat.even i)) by (rewrite <- Nat.even_add; f_equal; lia).
            destruct (Nat.even (k - i)), (Nat.even i); cbn [Bool.eqb]; ring. }
        rewrite X. unfold E. set (T := sumf _ _) in *. unfold alt. destruct (Nat.even k); lia. }
      rewrite Hs, Z.mod_mul, Z.eqb_refl, Z.div_mul by lia. cbn [check bind].
      replace (map E (seq 0 k) ++ [E k]) with (map E (seq 0 (S k))) by (rewrite seq_S, map_app; reflexivity).
      apply IH; lia.
  Qed.
End NEWTON.

Theorem charpoly_newton n M P : (1 <= n)%nat -> shape M n n -> length P = S n -> nth n P 0 = 1 ->
  power_sums n P (fun k => tr n (mpow n M (k - 1))) -> charpoly M = OK P.
Proof.
  intros Hn S LP HM Ht. unfold charpoly. destruct S as [L F]. rewrite L.
  assert (NC : ncols M = n). { unfold ncols. destruct M as [|row M]; [cbn in L; lia|]. inversion F; subst. cbn [nth]. auto. }
  rewrite NC, Nat.eqb_refl. cbn [check bind]. destruct (Nat.ltb_spec 0 n); [|lia]. cbn [check bind].
  pose proof (power_traces_ok n M n Hn (conj L F) 0) as PT. cbn [mpow] in PT. rewrite PT. cbn [bind].
  set (p := 0 :: map _ _).
  pose proof (charpoly_loop_ok n P (fun k => tr n (mpow n M (k - 1))) p LP Ht) as CL.
  assert (Hp : forall i, (1 <= i <= n)%nat -> nth i p 0 = tr n (mpow n M (i - 1))).
  { intros i Hi. destruct i as [|i]; [lia|]. unfold p. cbn [nth].
    set (Fn := fun i => tr n (mpow n M i)). rewrite nth_indep with (d' := Fn 0%nat) by (rewrite map_length, seq_length; lia).
    rewrite (map_nth Fn), seq_nth by lia. unfold Fn. f_equal. f_equal. lia. }
  specialize (CL Hp n 1%nat ltac:(lia) ltac:(lia)). cbn [seq map] in CL.
  replace (alt 0 (nth (n - 0) P 0)) with 1 in CL by (rewrite Nat.sub_0_r, HM; reflexivity).
  rewrite CL. cbn [bind]. f_equal.
  change (1 :: map (fun k => alt k (nth (n - k) P 0)) (seq 1 n)) with ([1] ++ map (fun k => alt k (nth (n - k) P 0)) (seq 1 n)).
  set (e := [1] ++ _).
  assert (He : e = map (fun k => alt k (nth (n - k) P 0)) (seq 0 (Datatypes.S n))).
  { cbn [seq map]. rewrite Nat.sub_0_r, HM. reflexivity. }
  apply (nth_ext _ _ 0 0).
  - now rewrite map_length, seq_length.
  - intros i Hi. rewrite map_length, seq_length in Hi.
    set (G := fun i => let k := (n - i)%nat in if Nat.even k then nth k e 0 else - nth k e 0).
    rewrite nth_indep with (d' := G 0%nat) by now rewrite map_length, seq_length.
    rewrite (map_nth G), seq_nth by lia. cbn [Nat.add]. unfold G. cbv zeta.
    assert (En : nth (n - i) e 0 = alt (n - i) (nth i P 0)).
    { rewrite He. set (Fn := fun k => alt k (nth (n - k) P 0)). rewrite nth_indep with (d' := Fn 0%nat) by (rewrite map_length, seq_length; lia).
      rewrite (map_nth Fn), seq_nth by lia. unfold Fn. cbn [Nat.add]. f_equal. f_equal. lia. }
    rewrite En. unfold alt. destruct (Nat.even (n - i)); lia.
Qed.
