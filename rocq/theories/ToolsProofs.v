From Coq Require Import ZArith List Lia Bool Znumtheory Zpow_facts.
From Verif Require Import Base VecModel VecSpec VecProofs ToolsModel ToolsSpec.
Import ListNotations.
Open Scope Z_scope.

(** * Binomials *)
Lemma choose_0_r n : choose n 0 = 1.
Proof. destruct n; reflexivity. Qed.

Lemma choose_gt n k : (n < k)%nat -> choose n k = 0.
Proof.
  revert k; induction n; intros [|k] H; cbn [choose]; try lia.
  rewrite !IHn by lia. lia.
Qed.

Lemma choose_nonneg n k : 0 <= choose n k.
Proof. revert k; induction n; intros [|k]; cbn [choose]; try lia. pose proof (IHn k). pose proof (IHn (S k)). lia. Qed.

Lemma choose_diag n : choose n n = 1.
Proof. induction n; cbn [choose]; auto. rewrite IHn, choose_gt by lia. lia. Qed.

Lemma choose_pos n k : (k <= n)%nat -> 0 < choose n k.
Proof.
  revert k; induction n; intros [|k] H; cbn [choose]; try lia.
  pose proof (IHn k ltac:(lia)). pose proof (choose_nonneg n (S k)). lia.
Qed.

Lemma choose_fact n k : (k <= n)%nat ->
  choose n k * zfact (Z.of_nat k) * zfact (Z.of_nat (n - k)) = zfact (Z.of_nat n).
Proof.
  revert k; induction n as [|n IH]; intros [|k] H; cbn [choose].
  - reflexivity.
  - lia.
  - rewrite Nat.sub_0_r. change (Z.of_nat 0) with 0. rewrite zfact_0. lia.
  - destruct (Nat.eq_dec k n) as [->|Hk].
    + rewrite Nat.sub_diag, choose_diag, choose_gt by lia. change (Z.of_nat 0) with 0. rewrite zfact_0. lia.
    + pose proof (IH k ltac:(lia)) as H1. pose proof (IH (S k) ltac:(lia)) as H2.
      replace (S n - S k)%nat with (n - k)%nat by lia.
      replace (n - k)%nat with (S (n - S k)) in * by lia.
      rewrite !Nat2Z.inj_succ, <- !Z.add_1_r in *.
      rewrite !zfact_succ in * by lia.
      set (a := zfact (Z.of_nat k)) in *. set (b := zfact (Z.of_nat (n - S k))) in *.
      set (c := choose n k) in *. set (e := choose n (S k)) in *.
      set (F := zfact (Z.of_nat n)) in *.
      replace (Z.of_nat n + 1) with ((Z.of_nat k + 1) + (Z.of_nat (n - S k) + 1)) by lia.
      transitivity ((Z.of_nat k + 1) * F + (Z.of_nat (n - S k) + 1) * F); [|ring].
      rewrite <- H1 at 1. rewrite <- H2. ring.
Qed.

Lemma zprod_seq_fact a b : 0 <= a <= b -> zfact a * zprod (zseq (a + 1) (b + 1)) = zfact b.
Proof.
  intros H. unfold zfact. rewrite (zseq_app 1 (a + 1) (b + 1)) by lia.
  now rewrite zprod_app.
Qed.

Lemma binomial_quot n k : 0 <= k <= n ->
  zprod (zseq (k + 1) (n + 1)) / zprod (zseq 1 (n - k + 1)) = choose (Z.to_nat n) (Z.to_nat k)
  /\ zprod (zseq (k + 1) (n + 1)) mod zprod (zseq 1 (n - k + 1)) = 0.
Proof.
  intros H. change (zprod (zseq 1 (n - k + 1))) with (zfact (n - k)).
  pose proof (zprod_seq_fact k n H) as E.
  pose proof (choose_fact (Z.to_nat n) (Z.to_nat k) ltac:(lia)) as E2.
  rewrite Nat2Z.inj_sub, !Z2Nat.id in E2 by lia.
  pose proof (zfact_pos k). pose proof (zfact_pos (n - k)).
  assert (E3 : zprod (zseq (k + 1) (n + 1)) = choose (Z.to_nat n) (Z.to_nat k) * zfact (n - k)).
  { apply (Z.mul_reg_l _ _ (zfact k)); [lia|]. rewrite E, <- E2. ring. }
  rewrite E3. split; [apply Z.div_mul; lia|apply Z.mod_mul; lia].
Qed.

Lemma binomial_ok n k : 0 <= k <= n -> choose (Z.to_nat n) (Z.to_nat k) < 2 ^ 63 ->
  binomial n k = OK (choose (Z.to_nat n) (Z.to_nat k)).
Proof.
  intros H Hs. unfold binomial. destruct (Z.ltb_spec n k); [lia|].
  cbv zeta. rewrite (proj1 (binomial_quot n k H)).
  pose proof (choose_nonneg (Z.to_nat n) (Z.to_nat k)) as Hn.
  rewrite Z.abs_eq by auto.
  set (c := choose _ _) in *. 
  destruct (Z.ltb_spec c (2 ^ 64)); [|lia].
  unfold wrap64. rewrite Z.mod_small by lia. destruct (Z.ltb_spec c (2 ^ 63)); [auto|lia].
Qed.

Lemma binomial_ZZ_ok n k : 0 <= k <= n ->
  binomial_ZZ n k = OK (choose (Z.to_nat n) (Z.to_nat k)).
Proof.
  intros H. unfold binomial_ZZ. destruct (Z.ltb_spec n k); [lia|].
  now rewrite (proj1 (binomial_quot n k H)).
Qed.

(** beyond 2^63 and below 2^64 the result is wrong *)
Lemma binomial_wraps n k : 0 <= k <= n ->
  2 ^ 63 <= choose (Z.to_nat n) (Z.to_nat k) < 2 ^ 64 ->
  binomial n k = OK (choose (Z.to_nat n) (Z.to_nat k) - 2 ^ 64).
Proof.
  intros H Hs. unfold binomial. destruct (Z.ltb_spec n k); [lia|].
  cbv zeta. rewrite (proj1 (binomial_quot n k H)).
  set (c := choose _ _) in *. rewrite Z.abs_eq by lia.
  destruct (Z.ltb_spec c (2 ^ 64)); [|lia].
  unfold wrap64. rewrite Z.mod_small by lia. destruct (Z.ltb_spec c (2 ^ 63)); [lia|auto].
Qed.

(** * Tuple enumeration *)
Lemma enum_SS n d : enum (S (S n)) d =
  flat_map (fun a => map (cons (Z.of_nat a)) (enum (S n) (d - a))) (seq 0 (S d)).
Proof. reflexivity. Qed.

Lemma enum_In n d t : (0 < n)%nat ->
  (In t (enum n d) <-> is_tuple n (Z.of_nat d) t).
Proof.
  destruct n as [|n]; [lia|]. intros _. revert d t.
  induction n as [|n IH]; intros d t.
  - cbn [enum In]. unfold is_tuple. split.
    + intros [<-|[]]. repeat split; simpl; try lia. repeat constructor. lia.
    + intros (H1 & H2 & H3). destruct t as [|x [|y t]]; simpl in *; try lia. left. f_equal. lia.
  - rewrite enum_SS. rewrite in_flat_map. split.
    + intros (a & Ha & Ht). apply in_seq in Ha. apply in_map_iff in Ht.
      destruct Ht as (r & <- & Hr). apply IH in Hr. destruct Hr as (H1 & H2 & H3).
      repeat split; simpl; try lia. constructor; auto. lia.
    + intros (H1 & H2 & H3). destruct t as [|x t]; cbn [length zsum] in H1, H3; [lia|].
      inversion H2; subst. pose proof (nonneg_zsum t H5).
      exists (Z.to_nat x). split. { apply in_seq. lia. }
      apply in_map_iff. exists t. split. { f_equal. lia. }
      apply IH. repeat split; auto. lia.
Qed.

(** hockey stick *)
Lemma choose_S n k : choose (S n) (S k) = choose n k + choose n (S k).
Proof. reflexivity. Qed.

Lemma zlen_flat_map {A B} (f : A -> list B) l :
  Z.of_nat (length (flat_map f l)) = sumf (fun a => Z.of_nat (length (f a))) l.
Proof. induction l; simpl; auto. rewrite app_length, Nat2Z.inj_add, sumf_cons. lia. Qed.

Lemma sumf_seq_shift f a k : sumf f (seq (S a) k) = sumf (fun i => f (S i)) (seq a k).
Proof. rewrite <- seq_shift, sumf_map. reflexivity. Qed.

Lemma sumf_seq_snoc (f : nat -> Z) a k : sumf f (seq a (S k)) = sumf f (seq a k) + f (a + k)%nat.
Proof. rewrite seq_S, sumf_app, sumf_cons, sumf_nil. lia. Qed.

Lemma enum_length n d : (0 < n)%nat -> Z.of_nat (length (enum n d)) = choose (d + n - 1) (n - 1).
Proof.
  destruct n as [|n]; [lia|]. intros _.
  replace (d + S n - 1)%nat with (d + n)%nat by lia. replace (S n - 1)%nat with n by lia.
  revert d. induction n as [|n IH]; intros d.
  - simpl. now rewrite choose_0_r.
  - rewrite enum_SS, zlen_flat_map.
    rewrite (sumf_ext _ (fun a => choose (d - a + n) n)).
    2:{ intros. rewrite map_length. apply IH. }
    clear IH. induction d as [|d IHd].
    + cbn [seq]. rewrite sumf_cons, sumf_nil. cbn [Nat.sub Nat.add]. rewrite !choose_diag. lia.
    + change (seq 0 (S (S d))) with (0%nat :: seq 1 (S d)). rewrite sumf_cons, sumf_seq_shift.
      rewrite (sumf_ext (fun i => choose (S d - S i + n) n) (fun a => choose (d - a + n) n)) by reflexivity.
      rewrite IHd. replace (S d + S n)%nat with (S (d + S n)) by lia.
      rewrite choose_S. f_equal. f_equal. lia.
Qed.

(** chains of steps *)
Inductive chain : list vec -> Prop :=
| ch_one t : chain [t]
| ch_cons t t' l : tlg_step t = t' -> chain (t' :: l) -> chain (t :: t' :: l).

Definition first_tuple (n d : nat) : vec := repeat 0 (n - 1) ++ [Z.of_nat d].
Definition last_tuple (n d : nat) : vec := Z.of_nat d :: repeat 0 (n - 1).

Lemma chain_app l1 t1 t2 l2 : chain (l1 ++ [t1]) -> tlg_step t1 = t2 -> chain (t2 :: l2) ->
  chain (l1 ++ t1 :: t2 :: l2).
Proof.
  induction l1 as [|t l1 IH]; intros H1 H2 H3.
  - simpl. constructor; auto.
  - destruct l1 as [|t' l1]; simpl in *.
    + inversion H1; subst. repeat (constructor; auto).
    + inversion H1; subst. constructor; auto.
Qed.

Lemma tlg_scan_cons x r k :
  tlg_scan (x :: r) (S k) =
  match tlg_scan r k with
  | Some i => Some (S i)
  | None => if 0 <? nth 0 r 0 then Some 1%nat else None
  end.
Proof.
  induction k as [|k IH].
  - reflexivity.
  - change (tlg_scan (x :: r) (S (S k))) with
      (if 0 <? nth (S k) r 0 then Some (S (S k)) else tlg_scan (x :: r) (S k)).
    rewrite IH. cbn [tlg_scan]. destruct (0 <? nth (S k) r 0); auto.
Qed.

Lemma tlg_scan_range t k i : tlg_scan t k = Some i -> (1 <= i <= k)%nat.
Proof.
  induction k as [|k IH]; cbn [tlg_scan]; [discriminate|].
  destruct (0 <? nth (S k) t 0); intros H; [injection H as <-; lia|]. apply IH in H. lia.
Qed.

Lemma tlg_clear_cons x t i k s :
  tlg_clear (x :: t) (S i) k s = (x :: fst (tlg_clear t i k s), snd (tlg_clear t i k s)).
Proof.
  revert t i s; induction k as [|k IH]; intros; cbn [tlg_clear]; auto.
  cbn [upd nth]. apply IH.
Qed.

Lemma tlg_clear_closed t k s : (k <= length t)%nat ->
  tlg_clear t 0 k s = (repeat 0 k ++ skipn k t, s + zsum (firstn k t)).
Proof.
  revert t s; induction k as [|k IH]; intros t s H.
  - simpl. f_equal. lia.
  - destruct t as [|x t]; simpl in H; [lia|]. cbn [tlg_clear upd nth].
    rewrite tlg_clear_cons, IH by lia. cbn [fst snd repeat skipn firstn zsum app].
    f_equal. lia.
Qed.

Lemma tlg_step_cons x r i : tlg_scan r (length r - 1) = Some i -> tlg_step (x :: r) = x :: tlg_step r.
Proof.
  intros H. pose proof (tlg_scan_range _ _ _ H) as Hi.
  unfold tlg_step. cbn [length].
  destruct (length r) as [|[|m]] eqn:E; try lia.
  replace (S (S (S m)) - 1)%nat with (S (S m)) by lia.
  replace (S (S m) - 1)%nat with (S m) in * by lia.
  rewrite tlg_scan_cons, H.
  destruct i as [|i]; [lia|].
  replace (S (S i) - 1)%nat with (S i) by lia. replace (S i - 1)%nat with i by lia.
  cbn [nth upd].
  replace (S (S m) - S (S i))%nat with (S m - S i)%nat by lia.
  rewrite tlg_clear_cons.
  set (t2 := upd (upd r i (nth i r 0 + 1)) (S i) (nth (S i) (upd r i (nth i r 0 + 1)) 0 - 1)).
  destruct (tlg_clear t2 (S i) (S m - S i) 0) as [t3 sm]. cbn [fst snd].
  reflexivity.
Qed.

Lemma tlg_scan_zeros y m k : (k <= m)%nat -> tlg_scan (y :: repeat 0 m) k = None.
Proof.
  induction k as [|k IH]; intros H; auto. cbn [tlg_scan nth].
  rewrite nth_repeat. cbn. apply IH. lia.
Qed.

Lemma tlg_step_block x y m : 0 < y ->
  tlg_step (x :: y :: repeat 0 m) = (x + 1) :: repeat 0 m ++ [y - 1].
Proof.
  intros Hy. unfold tlg_step. cbn [length]. rewrite repeat_length.
  replace (S (S m) - 1)%nat with (S m) by lia.
  rewrite tlg_scan_cons, tlg_scan_zeros by lia. cbn [nth].
  rewrite (proj2 (Z.ltb_lt 0 y) Hy).
  cbn [Nat.sub upd nth]. rewrite Nat.sub_0_r.
  rewrite tlg_clear_cons, tlg_clear_closed by (simpl; rewrite repeat_length; lia).
  cbn [fst snd upd nth]. f_equal.
  destruct m as [|m].
  - cbn. f_equal. lia.
  - replace (skipn (S m) (y - 1 :: repeat 0 (S m))) with [0].
    2:{ cbn [skipn]. clear. induction m; simpl; auto. }
    replace (zsum (firstn (S m) (y - 1 :: repeat 0 (S m)))) with (y - 1).
    2:{ cbn [firstn zsum]. replace (zsum (firstn m (repeat 0 (S m)))) with 0; [lia|].
        clear. induction m as [|m IH]; auto. }
    rewrite Z.add_0_l.
    assert (G : forall k z w, upd (repeat 0 k ++ [z]) k w = repeat 0 k ++ [w]).
    { clear. induction k; intros; cbn [repeat app upd]; auto. now rewrite IHk. }
    assert (G' : forall k z, nth k (repeat 0 k ++ [z]) 0 = z).
    { clear. intros. rewrite app_nth2; rewrite repeat_length; [|lia]. now rewrite Nat.sub_diag. }
    rewrite G, G'. now rewrite Z.add_0_l.
Qed.

Lemma tlg_scan_not_last r d : is_tuple (length r) d r -> hd 0 r < d ->
  exists i, tlg_scan r (length r - 1) = Some i.
Proof.
  intros (_ & Hn & Hs) Hh. destruct r as [|x r]; [simpl in *; lia|].
  cbn [length hd] in *. replace (S (length r) - 1)%nat with (length r) by lia.
  destruct (tlg_scan (x :: r) (length r)) as [i|] eqn:E; eauto. exfalso.
  assert (forall k, (k <= length r)%nat -> tlg_scan (x :: r) k = None ->
      forall i, (1 <= i <= k)%nat -> nth i (x :: r) 0 <= 0).
  { clear. induction k as [|k IH]; intros Hk E i Hi; [lia|]. cbn [tlg_scan] in E.
    destruct (Z.ltb_spec 0 (nth (S k) (x :: r) 0)); [discriminate|].
    destruct (Nat.eq_dec i (S k)) as [->|]; auto. apply IH; auto; lia. }
  specialize (H _ (le_n _) E).
  assert (zsum r <= 0).
  { assert (forall i, (i < length r)%nat -> nth i r 0 <= 0) by (intros i Hi; apply (H (S i)); lia).
    clear - H0. induction r as [|y r IH]; simpl; [lia|].
    pose proof (H0 0%nat ltac:(simpl; lia)). simpl in H.
    assert (zsum r <= 0); [|lia]. apply IH. intros i Hi. apply (H0 (S i)). simpl. lia. }
  simpl in Hs. lia.
Qed.

(** every enumeration is a chain from the first to the last tuple *)
Lemma chain_map_cons x l : chain l ->
  (forall l1 t l2, l = l1 ++ t :: l2 -> l2 <> [] -> exists i, tlg_scan t (length t - 1) = Some i) ->
  chain (map (cons x) l).
Proof.
  induction 1 as [t|t t' l Hst Hc IH]; intros H; cbn [map].
  - constructor.
  - constructor.
    + destruct (H [] t (t' :: l) eq_refl ltac:(discriminate)) as [i Hi].
      rewrite (tlg_step_cons x t i Hi). now f_equal.
    + apply IH. intros l1 t0 l2 E. apply (H (t :: l1) t0 l2). simpl. now rewrite E.
Qed.

Lemma app_split {A} (x y l1 : list A) tl : x ++ y = l1 ++ tl ->
  (exists l, l1 = x ++ l /\ y = l ++ tl) \/ (exists l, x = l1 ++ l /\ tl = l ++ y).
Proof.
  revert l1; induction x as [|a x IH]; intros l1 E.
  - left. exists l1. auto.
  - destruct l1 as [|b l1].
    + right. exists (a :: x). auto.
    + injection E as <- E. destruct (IH _ E) as [(l & -> & ->)|(l & -> & ->)].
      * left. exists l. auto.
      * right. exists l. auto.
Qed.

Lemma enum_chain n d : (0 < n)%nat ->
  chain (enum n d) /\
  (exists l, enum n d = first_tuple n d :: l) /\
  (exists l, enum n d = l ++ [last_tuple n d]) /\
  (forall l1 t l2, enum n d = l1 ++ t :: l2 -> l2 <> [] -> hd 0 t < Z.of_nat d).
Proof.
  destruct n as [|n]; [lia|]. intros _. revert d.
  induction n as [|n IH]; intros d.
  - cbn [enum]. repeat split.
    + constructor.
    + exists []. reflexivity.
    + exists []. reflexivity.
    + intros [|? l1] t l2 E Hne.
      * simpl in E. inversion E. subst l2. exfalso. apply Hne. reflexivity.
      * simpl in E. inversion E. destruct l1; discriminate.
  - rewrite enum_SS.
    assert (G : forall k a, (a + k = S d)%nat -> (0 < k)%nat ->
      let E := flat_map (fun a => map (cons (Z.of_nat a)) (enum (S n) (d - a))) (seq a k) in
      chain E /\
      (exists l, E = (Z.of_nat a :: first_tuple (S n) (d - a)) :: l) /\
      (exists l, E = l ++ [last_tuple (S (S n)) d]) /\
      (forall l1 t l2, E = l1 ++ t :: l2 -> l2 <> [] -> hd 0 t < Z.of_nat d)).
    { induction k as [|k IHk]; intros a Ha Hk; [lia|].
      cbn [seq flat_map]. cbv zeta.
      destruct (IH (d - a)%nat) as (C1 & (lf & C2) & (ll & C3) & C4).
      assert (CM : chain (map (cons (Z.of_nat a)) (enum (S n) (d - a)))).
      { apply chain_map_cons; auto. intros l1 t l2 E Hne.
        assert (Ht : In t (enum (S n) (d - a))) by (rewrite E; apply in_elt).
        apply enum_In in Ht; [|lia]. destruct Ht as (H1 & H2 & H3).
        apply (tlg_scan_not_last t (Z.of_nat (d - a))).
        - repeat split; auto.
        - eapply C4; eauto. }
      destruct k as [|k].
      - cbn [seq flat_map]. rewrite app_nil_r. assert (a = d) by lia. subst a.
        rewrite Nat.sub_diag in *. repeat split; auto.
        + exists (map (cons (Z.of_nat d)) lf). rewrite C2. reflexivity.
        + rewrite C3, map_app. cbn [map]. exists (map (cons (Z.of_nat d)) ll). f_equal.
          unfold last_tuple. simpl. now rewrite Nat.sub_0_r.
        + intros l1 t l2 E Hne. exfalso.
          assert (L : length (enum (S n) 0) = 1%nat).
          { apply Nat2Z.inj. rewrite enum_length by lia. cbn [Nat.add]. now rewrite choose_diag. }
          apply (f_equal (@length _)) in E. rewrite map_length, L, app_length in E. simpl in E.
          destruct l2; [congruence|simpl in E; lia].
      - destruct (IHk (S a) ltac:(lia) ltac:(lia)) as (D1 & (df & D2) & (dl & D3) & D4).
        clear IHk. cbv zeta in *.
        set (E' := flat_map (fun a => map (cons (Z.of_nat a)) (enum (S n) (d - a))) (seq (S a) (S k))) in *.
        repeat split.
        + rewrite D2. rewrite C3, map_app. cbn [map]. rewrite <- app_assoc. cbn [app].
          apply chain_app.
          * rewrite C3, map_app in CM. exact CM.
          * unfold last_tuple, first_tuple. replace (S n - 1)%nat with n by lia.
            rewrite tlg_step_block by lia. f_equal; [lia|]. f_equal. f_equal. lia.
          * rewrite D2 in D1. exact D1.
        + eexists. rewrite C2. cbn [map app]. reflexivity.
        + eexists. rewrite D3, app_assoc. reflexivity.
        + intros l1 t l2 E Hne.
          destruct (app_split _ _ _ _ E) as [(l & E1 & E2)|([|t0 l] & E1 & E2)].
          * apply (D4 l t l2); auto.
          * apply (D4 [] t l2); auto.
          * injection E2 as <- E2. assert (Hin : In t (map (cons (Z.of_nat a)) (enum (S n) (d - a)))).
            { rewrite E1. apply in_elt. }
            apply in_map_iff in Hin. destruct Hin as (r & <- & _). cbn [hd]. lia. }
    destruct (G (S d) 0%nat ltac:(lia) ltac:(lia)) as (G1 & (l & G2) & G3 & G4).
    repeat split; auto.
    exists l. rewrite G2. f_equal. unfold first_tuple. rewrite Nat.sub_0_r. cbn [Nat.sub repeat app].
    now rewrite Nat.sub_0_r.
Qed.

Lemma tlg_loop_chain d len l t fuel j acc :
  chain (t :: l) ->
  (forall l1 s l2, t :: l = l1 ++ s :: l2 -> l2 <> [] -> nth 0 s 0 < d) ->
  (forall l1 s, t :: l = l1 ++ [s] -> nth 0 s 0 >= d) ->
  (length l < fuel)%nat -> j + zlen l < len ->
  tlg_loop fuel d len j t acc = OK (j + zlen l, acc ++ l).
Proof.
  revert t fuel j acc. induction l as [|t' l IH]; intros t fuel j acc Hc Hlt Hlast Hf Hj.
  - destruct fuel; [simpl in Hf; lia|]. cbn [tlg_loop].
    pose proof (Hlast [] t eq_refl). destruct (Z.ltb_spec (nth 0 t 0) d); [lia|].
    rewrite app_nil_r. unfold zlen. simpl. f_equal. f_equal. lia.
  - destruct fuel; [simpl in Hf; lia|]. cbn [tlg_loop].
    pose proof (Hlt [] t (t' :: l) eq_refl ltac:(discriminate)).
    destruct (Z.ltb_spec (nth 0 t 0) d); [|lia].
    inversion Hc; subst.
    unfold zlen in *. cbn [length] in *.
    destruct (Z.ltb_spec (j + 1) len); [|lia].
    rewrite IH; auto; try lia.
    + f_equal. f_equal; [lia|]. now rewrite <- app_assoc.
    + intros l1 s l2 E. apply (Hlt (t :: l1)). simpl. now rewrite E.
    + intros l1 s E. apply (Hlast (t :: l1)). simpl. now rewrite E.
Qed.

Lemma nth0_hd (t : vec) : nth 0 t 0 = hd 0 t.
Proof. destruct t; reflexivity. Qed.

Lemma tlg_ok d n : 0 <= d -> 1 <= n ->
  choose (Z.to_nat (d + n - 1)) (Z.to_nat (n - 1)) < 2 ^ 63 ->
  tuple_list_generator d n = OK (enum (Z.to_nat n) (Z.to_nat d)).
Proof.
  intros Hd Hn Hs. unfold tuple_list_generator.
  rewrite binomial_ok by (auto; lia). cbn [bind].
  destruct (Z.leb_spec n 0); [lia|].
  pose proof (enum_length (Z.to_nat n) (Z.to_nat d) ltac:(lia)) as EL.
  replace (Z.to_nat d + Z.to_nat n - 1)%nat with (Z.to_nat (d + n - 1)) in EL by lia.
  replace (Z.to_nat n - 1)%nat with (Z.to_nat (n - 1)) in EL by lia.
  pose proof (choose_pos (Z.to_nat (d + n - 1)) (Z.to_nat (n - 1)) ltac:(lia)) as Hp.
  set (len := choose _ _) in *.
  destruct (Z.ltb_spec len 0); [lia|]. destruct (Z.eqb_spec len 0); [lia|].
  destruct (enum_chain (Z.to_nat n) (Z.to_nat d) ltac:(lia)) as (C1 & (lf & C2) & (ll & C3) & C4).
  cbv zeta.
  replace (repeat 0 (Z.to_nat (n - 1)) ++ [d]) with (first_tuple (Z.to_nat n) (Z.to_nat d)).
  2:{ unfold first_tuple. rewrite Z2Nat.id by lia. f_equal. f_equal. lia. }
  rewrite C2 in EL, C1, C4, C3. cbn [length] in EL.
  rewrite (tlg_loop_chain d len lf).
  - cbn [bind fst snd]. unfold zlen. destruct (Z.eqb_spec (0 + Z.of_nat (length lf) + 1) len); [|lia].
    rewrite C2. reflexivity.
  - auto.
  - intros l1 s l2 E Hne. rewrite nth0_hd. rewrite <- (Z2Nat.id d) by lia. eapply C4; eauto.
  - intros l1 s E. rewrite E in C3. apply app_inj_tail in C3. destruct C3 as [_ ->].
    unfold last_tuple. cbn [nth]. lia.
  - lia.
  - unfold zlen. lia.
Qed.

From Coq Require Import Sorted.

Lemma lex_lt_cons x a b : lex_lt a b -> lex_lt (x :: a) (x :: b).
Proof.
  intros (k & H1 & H2 & H3 & H4). exists (S k). simpl. repeat split; try lia.
  intros [|i] Hi; auto. apply H3. lia.
Qed.

Lemma lex_lt_head x y a b : x < y -> lex_lt (x :: a) (y :: b).
Proof. intros. exists 0%nat. simpl. repeat split; try lia. Qed.

Lemma SSorted_app {A} (R : A -> A -> Prop) l1 l2 :
  StronglySorted R l1 -> StronglySorted R l2 ->
  (forall a b, In a l1 -> In b l2 -> R a b) -> StronglySorted R (l1 ++ l2).
Proof.
  induction 1 as [|a l1 H1 IH H2]; intros Hl2 Hx; simpl; auto.
  constructor.
  - apply IH; auto. intros; apply Hx; simpl; auto.
  - apply Forall_app. split; auto. apply Forall_forall. intros; apply Hx; simpl; auto.
Qed.

Lemma SSorted_map_cons x l : StronglySorted lex_lt l -> StronglySorted lex_lt (map (cons x) l).
Proof.
  induction 1 as [|a l1 H1 IH H2]; simpl; constructor; auto.
  apply Forall_map. eapply Forall_impl; [|exact H2]. intros. now apply lex_lt_cons.
Qed.

Lemma enum_sorted n d : StronglySorted lex_lt (enum n d).
Proof.
  destruct n as [|n]. { destruct d; repeat constructor. }
  revert d. induction n as [|n IH]; intros d. { repeat constructor. }
  rewrite enum_SS. generalize 0%nat at 1. generalize (S d) as k.
  induction k as [|k IHk]; intros a; cbn [seq flat_map]; [constructor|].
  apply SSorted_app; auto using SSorted_map_cons.
  intros x y Hx Hy. apply in_map_iff in Hx. destruct Hx as (r & <- & _).
  apply in_flat_map in Hy. destruct Hy as (b & Hb & Hy). apply in_seq in Hb.
  apply in_map_iff in Hy. destruct Hy as (r' & <- & _).
  apply lex_lt_head. lia.
Qed.

Lemma SSorted_NoDup {A} (R : A -> A -> Prop) l : (forall a, ~ R a a) -> StronglySorted R l -> NoDup l.
Proof.
  intros Hi. induction 1 as [|a l1 H1 IH H2]; constructor; auto.
  intros Hin. rewrite Forall_forall in H2. apply (Hi a). auto.
Qed.

Lemma enum_NoDup n d : NoDup (enum n d).
Proof. apply (SSorted_NoDup lex_lt); [apply lex_lt_irrefl|apply enum_sorted]. Qed.

(** * Legendre *)
Lemma vof_loop_digits p : 2 <= p -> forall fuel tmp sum, 0 <= tmp < 2 ^ Z.of_nat fuel ->
  exists s, vof_loop fuel p tmp sum = OK (sum + s) /\ forall fuel' sum', tmp < 2 ^ Z.of_nat fuel' ->
    vof_loop fuel' p tmp sum' = OK (sum' + s).
Proof.
  intros Hp. induction fuel as [|fuel IH]; intros tmp sum Ht.
  - change (2 ^ Z.of_nat 0) with 1 in Ht. assert (tmp = 0) by lia. subst.
    exists 0. split. { simpl. f_equal. lia. }
    intros [|f] s' _; simpl; f_equal; lia.
  - destruct (Z.eq_dec tmp 0) as [->|Hne].
    { exists 0. split. { simpl. f_equal. lia. } intros [|f] s' _; simpl; f_equal; lia. }
    assert (Hd : 0 <= tmp / p < 2 ^ Z.of_nat fuel).
    { split. { apply Z.div_pos; lia. }
      rewrite Nat2Z.inj_succ, Z.pow_succ_r in Ht by lia.
      apply Z.div_lt_upper_bound; [lia|]. nia. }
    destruct (IH (tmp / p) (sum + tmp mod p) Hd) as (s & E1 & E2).
    exists (tmp mod p + s). split.
    + cbn [vof_loop]. destruct (Z.eqb_spec tmp 0); [lia|]. rewrite E1. f_equal. lia.
    + intros [|f'] s' Hf.
      { change (2 ^ Z.of_nat 0) with 1 in Hf. lia. }
      cbn [vof_loop]. destruct (Z.eqb_spec tmp 0); [lia|].
      rewrite E2. { f_equal. lia. }
      rewrite Nat2Z.inj_succ, Z.pow_succ_r in Hf by lia.
      apply Z.div_lt_upper_bound; [lia|]. nia.
Qed.

(** digit sum as a function *)
Definition digsum (p n : Z) : Z :=
  match vof_loop (S (Z.to_nat (Z.log2 n))) p n 0 with OK s => s | Err _ => 0 end.

Lemma fuel_enough n : 0 <= n -> n < 2 ^ Z.of_nat (S (Z.to_nat (Z.log2 n))).
Proof.
  intros. rewrite Nat2Z.inj_succ, Z2Nat.id by apply Z.log2_nonneg.
  destruct (Z.eq_dec n 0) as [->|]; [reflexivity|]. apply Z.log2_spec. lia.
Qed.

Lemma digsum_spec p n fuel sum : 2 <= p -> 0 <= n < 2 ^ Z.of_nat fuel ->
  vof_loop fuel p n sum = OK (sum + digsum p n).
Proof.
  intros Hp Hn. destruct (vof_loop_digits p Hp fuel n sum Hn) as (s & E1 & E2).
  rewrite E1. f_equal. f_equal. unfold digsum. rewrite E2 by (apply fuel_enough; lia). lia.
Qed.

Lemma digsum_0 p : digsum p 0 = 0.
Proof. reflexivity. Qed.

Lemma digsum_step p n : 2 <= p -> 0 < n -> digsum p n = n mod p + digsum p (n / p).
Proof.
  intros Hp Hn. unfold digsum at 1.
  cbn [vof_loop]. destruct (Z.eqb_spec n 0); [lia|].
  assert (Hn0 : 0 <= n) by lia. pose proof (fuel_enough n Hn0) as F. rewrite Nat2Z.inj_succ, Z.pow_succ_r in F by lia.
  rewrite digsum_spec; [lia|auto|].
  split. { apply Z.div_pos; lia. } apply Z.div_lt_upper_bound; [lia|]. nia.
Qed.

(** exponent of p in i, by repeated division (spec level) *)
Fixpoint vp_f (fuel : nat) (p i : Z) : Z :=
  match fuel with
  | O => 0
  | S f => if i mod p =? 0 then 1 + vp_f f p (i / p) else 0
  end.
Definition vp (p i : Z) : Z := vp_f (S (Z.to_nat (Z.log2 i))) p i.

Lemma vp_f_irrel p : 2 <= p -> forall f f' i, 0 < i -> i < 2 ^ Z.of_nat f -> i < 2 ^ Z.of_nat f' ->
  vp_f f p i = vp_f f' p i.
Proof.
  intros Hp. induction f as [|f IH]; intros [|f'] i Hi H1 H2;
    try (change (2 ^ Z.of_nat 0) with 1 in *; lia).
  cbn [vp_f]. destruct (Z.eqb_spec (i mod p) 0) as [E|E]; auto. f_equal.
  rewrite Nat2Z.inj_succ, Z.pow_succ_r in * by lia.
  assert (i = p * (i / p)) by (rewrite (Z.div_mod i p) at 1; lia).
  apply IH; nia.
Qed.

Lemma vp_nondiv p i : i mod p <> 0 -> vp p i = 0.
Proof. intros. unfold vp. cbn [vp_f]. destruct (Z.eqb_spec (i mod p) 0); [lia|auto]. Qed.

Lemma vp_mul p i : 2 <= p -> 0 < i -> vp p (p * i) = 1 + vp p i.
Proof.
  intros Hp Hi. unfold vp at 1. cbn [vp_f].
  rewrite Z.mul_comm, Z.mod_mul by lia. rewrite Z.eqb_refl. rewrite Z.div_mul by lia.
  f_equal. unfold vp. apply vp_f_irrel; auto.
  - assert (H0 : 0 <= i * p) by nia. pose proof (fuel_enough (i * p) H0) as F.
    rewrite Nat2Z.inj_succ, Z.pow_succ_r in F by lia. nia.
  - apply fuel_enough. lia.
Qed.

Lemma vp_nonneg p i : 0 <= vp p i.
Proof. unfold vp. generalize (S (Z.to_nat (Z.log2 i))) as f. intros f. revert i.
  induction f; intros i; cbn [vp_f]; try lia. destruct (i mod p =? 0); [specialize (IHf (i/p)); lia|lia]. Qed.

Lemma digsum_succ p : 2 <= p -> forall n, 0 <= n ->
  digsum p (n + 1) + (p - 1) * vp p (n + 1) = digsum p n + 1.
Proof.
  intros Hp n Hn. revert n Hn. apply (Zlt_0_ind (fun n => digsum p (n + 1) + (p - 1) * vp p (n + 1) = digsum p n + 1)).
  intros n IH Hn.
  destruct (Z.eq_dec ((n + 1) mod p) 0) as [E|E].
  - pose proof (Z.div_mod (n + 1) p ltac:(lia)) as D. rewrite E in D.
    set (m := (n + 1) / p) in *.
    assert (Hm : 0 < m) by nia.
    assert (Hm2 : m - 1 < n) by nia.
    pose proof (IH (m - 1) ltac:(lia)) as I. replace (m - 1 + 1) with m in I by lia.
    replace (vp p (n + 1)) with (1 + vp p m).
    2:{ rewrite D, Z.add_0_r, vp_mul by lia. reflexivity. }
    rewrite (digsum_step p (n + 1)) by lia. rewrite E.
    replace ((n + 1) / p) with m by reflexivity.
    assert (Hn' : 0 < n) by nia.
    rewrite (digsum_step p n) by lia.
    assert (Em : n mod p = p - 1 /\ n / p = m - 1).
    { apply and_comm. assert (n = p * (m - 1) + (p - 1)) by lia.
      split; symmetry; [eapply Z.div_unique with (r := p - 1)|eapply Z.mod_unique with (q := m - 1)]; try lia. }
    destruct Em as [-> ->]. nia.
  - rewrite vp_nondiv by auto.
    assert (Em : (n + 1) mod p = n mod p + 1 /\ (n + 1) / p = n / p).
    { pose proof (Z.mod_pos_bound n p ltac:(lia)). pose proof (Z.div_mod n p ltac:(lia)).
      assert (n mod p <> p - 1).
      { intros Hc. apply E. replace (n + 1) with ((n / p + 1) * p) by lia. apply Z.mod_mul. lia. }
      apply and_comm.
      split; symmetry; [eapply Z.div_unique with (r := n mod p + 1)|eapply Z.mod_unique with (q := n / p)]; lia. }
    rewrite (digsum_step p (n + 1)) by lia. destruct Em as [-> ->].
    destruct (Z.eq_dec n 0) as [->|].
    + rewrite Z.mod_0_l, Z.div_0_l by lia. rewrite digsum_0. lia.
    + rewrite (digsum_step p n) by lia. lia.
Qed.

Lemma legendre_sum p n : 2 <= p -> 0 <= n ->
  (p - 1) * sumf (vp p) (zseq 1 (n + 1)) = n - digsum p n.
Proof.
  intros Hp Hn. rewrite <- (Z2Nat.id n) by auto. induction (Z.to_nat n) as [|k IH].
  - change (zseq 1 (Z.of_nat 0 + 1)) with (@nil Z). change (Z.of_nat 0) with 0.
    rewrite sumf_nil, digsum_0. lia.
  - rewrite Nat2Z.inj_succ, <- Z.add_1_r. rewrite zseq_snoc by lia.
    rewrite sumf_app, sumf_cons, sumf_nil.
    pose proof (digsum_succ p Hp (Z.of_nat k) ltac:(lia)). lia.
Qed.

Lemma vof_sum p n : 2 <= p -> 0 <= n ->
  valuation_of_factorial n p = OK (sumf (vp p) (zseq 1 (n + 1))).
Proof.
  intros Hp Hn. unfold valuation_of_factorial. destruct (Z.ltb_spec p 2); [lia|].
  rewrite digsum_spec by (auto using fuel_enough). cbn [bind]. f_equal.
  rewrite Z.add_0_l, <- (legendre_sum p n) by auto. rewrite Z.mul_comm. apply Z.div_mul. lia.
Qed.

(** prime to p part *)
Lemma vp_split p i : 2 <= p -> 0 < i -> exists u, i = p ^ vp p i * u /\ u mod p <> 0.
Proof.
  intros Hp Hi0. assert (Hi00 : 0 <= i) by lia. revert Hi0. revert i Hi00.
  apply (Zlt_0_ind (fun i => 0 < i -> exists u, i = p ^ vp p i * u /\ u mod p <> 0)).
  intros i IH _ Hi. destruct (Z.eq_dec (i mod p) 0) as [E|E].
  - pose proof (Z.div_mod i p ltac:(lia)) as D. rewrite E in D. set (m := i / p) in *.
    assert (Hm : 0 < m) by nia. destruct (IH m ltac:(nia) Hm) as (u & U1 & U2).
    exists u. split; auto. replace i with (p * m) by lia. rewrite vp_mul by lia.
    pose proof (vp_nonneg p m).
    rewrite Z.add_comm, Z.pow_add_r by lia. rewrite Z.pow_1_r. rewrite U1 at 1. ring.
  - exists i. rewrite vp_nondiv by auto. split; auto. rewrite Z.pow_0_r. lia.
Qed.

Lemma prime_nondiv_mul p a b : prime p -> a mod p <> 0 -> b mod p <> 0 -> (a * b) mod p <> 0.
Proof.
  intros Hp Ha Hb H. assert (Hp0 : 1 < p) by (destruct Hp; auto).
  apply Z.mod_divide in H; [|lia]. apply prime_mult in H; auto.
  destruct H as [H|H]; apply Z.mod_divide in H; lia.
Qed.

(** strip loop *)
Lemma fpa_strip_ok p : 2 <= p -> forall fuel i val, 0 < i -> i < 2 ^ Z.of_nat fuel ->
  exists u, fpa_strip fuel p i val = OK (u, val + vp p i) /\ i = p ^ vp p i * u /\ u mod p <> 0.
Proof.
  intros Hp. induction fuel as [|f IH]; intros i val Hi Hf.
  - change (2 ^ Z.of_nat 0) with 1 in Hf. lia.
  - cbn [fpa_strip]. destruct (Z.eqb_spec (i mod p) 0) as [E|E].
    + pose proof (Z.div_mod i p ltac:(lia)) as D. rewrite E in D. set (m := i / p) in *.
      assert (Hm : 0 < m) by nia.
      rewrite Nat2Z.inj_succ, Z.pow_succ_r in Hf by lia.
      destruct (IH m (val + 1) Hm ltac:(nia)) as (u & U1 & U2 & U3).
      assert (Hv : vp p i = 1 + vp p m) by (replace i with (p * m) by lia; apply vp_mul; lia).
      exists u. rewrite Hv. repeat split; auto.
      * rewrite U1. f_equal. f_equal. lia.
      * pose proof (vp_nonneg p m). rewrite Z.add_comm, Z.pow_add_r by lia. rewrite Z.pow_1_r.
        rewrite D, U2 at 1. ring.
    + exists i. rewrite vp_nondiv by auto. repeat split; auto.
      * now rewrite Z.add_0_r.
      * rewrite Z.pow_0_r. lia.
Qed.

Lemma fpa_loop_ok q p fuel : 2 <= p -> forall is r R val,
  (forall i, In i is -> 0 < i < 2 ^ Z.of_nat fuel) -> cong q r R ->
  exists u r', fpa_loop fuel q p is r val = OK (r', val + sumf (vp p) is) /\
    zprod is = p ^ (sumf (vp p) is) * u /\ cong q r' (R * u) /\
    (r = r mod q -> r' = r' mod q) /\ (prime p -> u mod p <> 0).
Proof.
  intros Hp. induction is as [|i is IH]; intros r R val Hi Hr.
  - exists 1, r. cbn [fpa_loop zprod]. rewrite sumf_nil. repeat split; auto.
    + now rewrite Z.add_0_r.
    + now rewrite Z.mul_1_r.
    + intros Hpr. rewrite Z.mod_1_l by lia. lia.
  - assert (Hi1 := Hi i (or_introl eq_refl)).
    assert (Hi2 : forall j, In j is -> 0 < j < 2 ^ Z.of_nat fuel) by (intros; apply Hi; simpl; auto).
    assert (Hsn : 0 <= sumf (vp p) is).
    { clear. induction is; rewrite ?sumf_nil, ?sumf_cons; try lia. pose proof (vp_nonneg p a). lia. }
    assert (Hmm : forall x, (x mod q) mod q = x mod q).
    { intros x. destruct (Z.eq_dec q 0) as [->|]; [now rewrite !Zmod_0_r|]. now apply Z.mod_mod. }
    cbn [fpa_loop zprod]. rewrite sumf_cons.
    destruct (Z.eqb_spec (i mod p) 0) as [E|E]; cbn [negb].
    + destruct (fpa_strip_ok p Hp fuel i val ltac:(lia) ltac:(lia)) as (u0 & U1 & U2 & U3).
      rewrite U1. cbn [bind fst snd].
      destruct (IH ((r * u0) mod q) (R * u0) (val + vp p i) Hi2) as (u & r' & I1 & I2 & I3 & I4 & I5).
      { rewrite cong_mod, Hr. reflexivity. }
      exists (u0 * u), r'. rewrite I1. repeat split.
      * f_equal. f_equal. lia.
      * rewrite I2. pose proof (vp_nonneg p i). rewrite Z.pow_add_r by lia. rewrite U2 at 1. ring.
      * rewrite I3. apply cong_of_eq. ring.
      * intros _. apply I4. now rewrite Hmm.
      * intros Hpr. apply prime_nondiv_mul; auto.
    + destruct (IH ((r * i) mod q) (R * i) val Hi2) as (u & r' & I1 & I2 & I3 & I4 & I5).
      { rewrite cong_mod, Hr. reflexivity. }
      exists (i * u), r'. rewrite I1, vp_nondiv by auto. repeat split.
      * rewrite I2. rewrite Z.add_0_l. ring.
      * rewrite I3. apply cong_of_eq. ring.
      * intros _. apply I4. now rewrite Hmm.
      * intros Hpr. apply prime_nondiv_mul; auto.
Qed.
