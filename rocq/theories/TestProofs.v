(** Proofs about the self-tests: path independence. *)
From Coq Require Import ZArith List Bool Lia Znumtheory.
From Verif Require Import Base VecModel VecSpec VecProofs ToolsModel ToolsSpec ToolsProofs MatModel MatProofs DRModel DRSpec DRProofs DRRed DRStep DRFinal DRPath
  NDModel NDSpec NDRed NDStep NDBasis FrobModel TestModel UniqCode.
Import ListNotations.
Open Scope Z_scope.

(** ** computations that use random numbers: for every list of numbers the run
    either returns a value with P (and leaves the unused numbers), or it runs out
    of numbers and some further numbers make it return such a value *)
Definition live {A} (P : A -> Prop) (L : draws A) : Prop := forall rs,
  (exists x used rest, P x /\ rs = used ++ rest /\ L rs = OK (x, rest) /\ forall tail, L (rs ++ tail) = OK (x, rest ++ tail)) \/
  (L rs = Err EFuel /\ exists more x, P x /\ forall tail, L (rs ++ more ++ tail) = OK (x, tail)).

Lemma live_mono {A} (P Q : A -> Prop) L : (forall x, P x -> Q x) -> live P L -> live Q L.
Proof.
  intros H HL rs. destruct (HL rs) as [(x & us & re & X)|(E & mo & x & X)]; [left; exists x, us, re|right; split; auto; exists mo, x]; intuition.
Qed.
Lemma live_ret {A} (P : A -> Prop) a : P a -> live P (dret a).
Proof. intros H rs. left. exists a, [], rs. repeat split; auto. Qed.
Lemma live_lift {A} (P : A -> Prop) r a : r = OK a -> P a -> live P (dlift r).
Proof. intros -> H rs. left. exists a, [], rs. repeat split; auto. Qed.
Lemma live_bind {A B} (P : A -> Prop) (Q : B -> Prop) m k : live P m -> (forall a, P a -> live Q (k a)) -> live Q (dbind m k).
Proof.
  intros Hm Hk rs. unfold dbind. destruct (Hm rs) as [(x & us & re & X1 & X2 & X3 & X4)|(E & mo & x & X1 & X2)].
  - destruct (Hk x X1 re) as [(y & us' & re' & Y1 & Y2 & Y3 & Y4)|(E' & mo & y & Y1 & Y2)].
    + left. exists y, (us ++ us'), re'. split; auto. split; [rewrite <- app_assoc, <- Y2; auto|]. split.
      * rewrite X3. cbn [bind fst snd]. exact Y3.
      * intros tail. rewrite X4. cbn [bind fst snd]. apply Y4.
    + right. split; [rewrite X3; cbn [bind fst snd]; exact E'|]. exists mo, y. split; auto. intros tail. rewrite X4. cbn [bind fst snd]. apply Y2.
  - right. split; [rewrite E; reflexivity|].
    destruct (Hk x X1 []) as [(y & us' & re' & Y1 & Y2 & Y3 & Y4)|(E' & mo' & y & Y1 & Y2)].
    + symmetry in Y2. apply app_eq_nil in Y2. destruct Y2 as [-> ->]. exists mo, y. split; auto. intros tail. rewrite X2. cbn [bind fst snd]. apply (Y4 tail).
    + exists (mo ++ mo'), y. split; auto. intros tail. rewrite <- app_assoc. rewrite X2. cbn [bind fst snd]. apply (Y2 tail).
Qed.
(** the outcome of a live computation *)
Lemma live_outcome {A} (P : A -> Prop) L : live P L -> forall rs, (exists x rest, P x /\ L rs = OK (x, rest)) \/
  (L rs = Err EFuel /\ exists more x, P x /\ L (rs ++ more) = OK (x, [])).
Proof.
  intros H rs. destruct (H rs) as [(x & us & re & X1 & _ & X3 & _)|(E & mo & x & X1 & X2)]; [left; eauto|right]. split; auto. exists mo, x. split; auto.
  specialize (X2 []). now rewrite app_nil_r in X2.
Qed.

Section Loop.
  Context {St A : Type} (stop : St -> bool) (out : St -> A) (next : St -> Z -> St).
  Fixpoint gloop (s : St) (rs : list Z) : res (A * list Z) :=
    if stop s then OK (out s, rs) else match rs with [] => Err EFuel | x :: rs => gloop (next s x) rs end.
  Variables (I : St -> Prop) (P : A -> Prop) (mu : St -> nat).
  Hypothesis H1 : forall s, I s -> stop s = true -> P (out s).
  Hypothesis H2 : forall s x, I s -> stop s = false -> I (next s x).
  Hypothesis H3 : forall s, I s -> stop s = false -> exists x, (mu (next s x) < mu s)%nat.
  Lemma gloop_reach k : forall s, (mu s <= k)%nat -> I s -> exists more x, P x /\ forall tail, gloop s (more ++ tail) = OK (x, tail).
  Proof.
    induction k as [|k IH]; intros s Hk Is; destruct (stop s) eqn:E.
    - exists [], (out s). split; auto. intros tail. destruct tail; cbn [app gloop]; now rewrite E.
    - destruct (H3 s Is E) as (x & Hx). lia.
    - exists [], (out s). split; auto. intros tail. destruct tail; cbn [app gloop]; now rewrite E.
    - destruct (H3 s Is E) as (x & Hx). destruct (IH (next s x) ltac:(lia) (H2 s x Is E)) as (mo & a & Pa & R). exists (x :: mo), a. split; auto.
      intros tail. cbn [app gloop]. rewrite E. apply R.
  Qed.
  Lemma gloop_live s : I s -> live P (gloop s).
  Proof.
    intros Is rs. revert s Is. induction rs as [|x rs IH]; intros s Is; destruct (stop s) eqn:E.
    - left. exists (out s), [], []. split; auto. split; auto. split; [cbn [gloop]; now rewrite E|]. intros tail. destruct tail; cbn [app gloop]; now rewrite E.
    - right. split; [cbn [gloop]; now rewrite E|]. apply (gloop_reach (mu s) s (le_n _) Is).
    - left. exists (out s), [], (x :: rs). split; auto. split; auto. cbn [app gloop]. rewrite E. auto.
    - destruct (IH (next s x) (H2 s x Is E)) as [(a & us & re & X1 & X2 & X3 & X4)|(E' & mo & a & X1 & X2)].
      + left. exists a, (x :: us), re. split; auto. split; [cbn [app]; now rewrite X2|]. cbn [app gloop]. rewrite E. auto.
      + right. cbn [app gloop]. rewrite E. split; auto. exists mo, a. auto.
  Qed.
End Loop.

(** ** random vectors *)
Lemma random_live b : 0 < b -> live (fun x => 0 <= x < b) (random_bnd b).
Proof.
  intros Hb rs. destruct rs as [|x rs].
  - right. split; [reflexivity|]. exists [0], (0 mod b). split; [apply Z.mod_pos_bound; lia|reflexivity].
  - left. exists (x mod b), [x], rs. split; [apply Z.mod_pos_bound; lia|]. repeat split.
Qed.
Lemma draw_vec_live lo k : live (fun u => length u = k /\ forall x, In x u -> lo <= x) (draw_vec lo k).
Proof.
  induction k as [|k IH]; cbn [draw_vec].
  - apply live_ret. split; auto. intros x [].
  - eapply live_bind; [apply (random_live 20); lia|]. intros x Hx. cbv beta in Hx. eapply live_bind; [apply IH|]. intros l (L1 & L2). apply live_ret.
    split; [cbn [length]; lia|]. intros y [<-|Hy]; [lia|auto].
Qed.

Lemma mod_index (k : nat) (l : list Z) : (k < length l)%nat -> Z.to_nat (Z.of_nat k mod zlen l) = k.
Proof. intros H. unfold zlen. rewrite Z.mod_small by lia. lia. Qed.
Lemma mod_index_lt x (l : list Z) : (0 < length l)%nat -> (Z.to_nat (x mod zlen l) < length l)%nat.
Proof. intros H. unfold zlen. pose proof (Z.mod_pos_bound x (Z.of_nat (length l)) ltac:(lia)). lia. Qed.

Lemma bump_live d t u : 1 <= d -> 0 <= t < d -> (0 < length u)%nat -> nonneg u ->
  live (fun w => length w = length u /\ (forall i, nth i u 0 <= nth i w 0) /\ zsum w mod d = t) (bump d t u (zsum u)).
Proof.
  intros Hd Ht Hl Hu.
  set (I := fun s : vec * Z => length (fst s) = length u /\ (forall i, nth i u 0 <= nth i (fst s) 0) /\ snd s = zsum (fst s) /\ 0 <= snd s).
  set (nx := fun (s : vec * Z) x => let k := Z.to_nat (x mod zlen (fst s)) in (upd (fst s) k (nth k (fst s) 0 + 1), snd s + 1)).
  assert (E : forall rs w s, bump d t w s rs = gloop (fun s => Z.rem (snd s) d =? t) fst nx (w, s) rs).
  { induction rs as [|x rs IH]; intros w s; cbn [bump gloop fst snd]; [reflexivity|]. destruct (Z.rem s d =? t); auto. rewrite IH. reflexivity. }
  assert (L : live (fun w => length w = length u /\ (forall i, nth i u 0 <= nth i w 0) /\ zsum w mod d = t) (gloop (fun s => Z.rem (snd s) d =? t) fst nx (u, zsum u))).
  { apply (gloop_live _ _ _ I _ (fun s => Z.to_nat ((t - snd s) mod d))).
    - intros s (I1 & I2 & I3 & I4) X. split; auto. split; auto. apply Z.eqb_eq in X. rewrite Z.rem_mod_nonneg in X by lia. rewrite <- I3. exact X.
    - intros [w s] x (I1 & I2 & I3 & I4) X. unfold I, nx. cbn [fst snd] in *. set (k := Z.to_nat _). assert (Hk : (k < length w)%nat) by (apply mod_index_lt; lia).
      split; [rewrite upd_length; lia|]. split.
      + intros i. rewrite nth_upd. destruct (Nat.eqb_spec k i) as [->|]; auto. destruct (Nat.ltb_spec i (length w)); [|lia]. specialize (I2 i). lia.
      + rewrite zsum_upd by auto. lia.
    - intros [w s] (I1 & I2 & I3 & I4) X. exists 0. unfold nx. cbn [fst snd] in *. apply Z.eqb_neq in X. rewrite Z.rem_mod_nonneg in X by lia.
      pose proof (Z.mod_pos_bound (t - s) d ltac:(lia)) as B.
      assert (N0 : (t - s) mod d <> 0).
      { intros C. apply X. rewrite <- (Z.mod_small t d Ht). apply Z.mod_divide in C; [|lia]. destruct C as (z & C). replace t with (s + z * d) by lia. symmetry. apply Z.mod_add. lia. }
      replace (t - (s + 1)) with (t - s - 1) by lia.
      assert (E1 : (t - s - 1) mod d = (t - s) mod d - 1).
      { rewrite (Z.div_mod (t - s) d) at 1 by lia. replace (d * ((t - s) / d) + (t - s) mod d - 1) with ((t - s) mod d - 1 + (t - s) / d * d) by lia.
        rewrite Z.mod_add by lia. apply Z.mod_small. lia. }
      rewrite E1. lia.
    - unfold I. cbn [fst snd]. repeat split; auto; try lia. now apply nonneg_zsum. }
  intros rs. specialize (L rs). rewrite !E. destruct L as [(x & us & re & X)|(X0 & mo & x & X1 & X2)]; [left; exists x, us, re|right; split; auto; exists mo, x; split; auto].
  - destruct X as (X1 & X2 & X3 & X4). repeat split; auto; try apply X1. intros tail. rewrite E. apply X4.
  - intros tail. rewrite E. apply X2.
Qed.

Lemma live_ext {A} (P : A -> Prop) L L' : (forall rs, L rs = L' rs) -> live P L' -> live P L.
Proof.
  intros E H rs. rewrite E. destruct (H rs) as [(x & us & re & X1 & X2 & X3 & X4)|(X0 & mo & x & X1 & X2)]; [left; exists x, us, re|right; split; auto; exists mo, x; split; auto].
  - repeat split; auto. intros tail. rewrite E. apply X4.
  - intros tail. rewrite E. apply X2.
Qed.

Lemma zsum_le_nth (v u : list Z) : length v = length u -> (forall k, (k < length u)%nat -> nth k u 0 <= nth k v 0) -> zsum u <= zsum v.
Proof.
  revert v. induction u as [|x u IH]; intros [|y v] HL H; cbn [length zsum] in *; try lia.
  pose proof (H O ltac:(lia)) as H0. cbn [nth] in H0. specialize (IH v ltac:(lia)). assert (zsum u <= zsum v); [|lia]. apply IH. intros k Hk. apply (H (S k)). lia.
Qed.
Lemma exists_or_all (P : nat -> bool) k : (exists i, (i < k)%nat /\ P i = true) \/ forall i, (i < k)%nat -> P i = false.
Proof.
  induction k as [|k [(i & Hi & E)|IH]]; [right; intros; lia|left; exists i; split; [lia|auto]|].
  destruct (P k) eqn:E; [left; exists k; split; auto|right]. intros i Hi. destruct (Nat.eq_dec i k) as [->|]; auto. apply IH. lia.
Qed.

Definition fill_post (d : Z) (u v : vec) : Prop :=
  length v = length u /\ zsum v = d /\ (forall i, 0 <= nth i v 0 <= nth i u 0) /\ forall i, (i < length u)%nat -> 0 < nth i u 0 -> 0 < nth i v 0.
Lemma fill_J_live d u v : nonneg u -> length v = length u -> (forall i, 0 <= nth i v 0 <= nth i u 0) -> (forall i, (i < length u)%nat -> 0 < nth i u 0 -> 0 < nth i v 0) ->
  zsum v <= d <= zsum u -> live (fill_post d u) (fill_J d u v (zsum v)).
Proof.
  intros Hu Lv Bv Pv Hd.
  set (I := fun s : vec * Z => length (fst s) = length u /\ (forall i, 0 <= nth i (fst s) 0 <= nth i u 0) /\ (forall i, (i < length u)%nat -> 0 < nth i u 0 -> 0 < nth i (fst s) 0) /\
    snd s = zsum (fst s) /\ snd s <= d).
  set (nx := fun (s : vec * Z) x => let k := Z.to_nat (x mod zlen u) in
    if (0 <? nth k u 0) && (nth k (fst s) 0 <? nth k u 0) then (upd (fst s) k (nth k (fst s) 0 + 1), snd s + 1) else s).
  apply (live_ext _ _ (gloop (fun s => negb (snd s <? d)) fst nx (v, zsum v))).
  { intros rs. generalize (zsum v) as s. generalize v as w. clear - nx. induction rs as [|x rs IH]; intros w s; cbn [fill_J gloop fst snd]; destruct (s <? d); cbn [negb]; auto.
    rewrite !IH. unfold nx at 4. cbn [fst snd]. cbv zeta. destruct ((0 <? _) && _); reflexivity. }
  apply (gloop_live _ _ _ I _ (fun s => Z.to_nat (d - snd s))).
  - intros [w s] (I1 & I2 & I3 & I4 & I5) X. cbn [fst snd] in *. apply negb_true_iff, Z.ltb_ge in X. repeat split; auto; try apply I2. lia.
  - intros [w s] x (I1 & I2 & I3 & I4 & I5) X. cbn [fst snd] in *. apply negb_false_iff, Z.ltb_lt in X. unfold I, nx. cbn [fst snd]. cbv zeta. set (k := Z.to_nat _).
    destruct ((0 <? nth k u 0) && (nth k w 0 <? nth k u 0)) eqn:E; cbn [fst snd]; [|repeat split; auto; apply I2].
    apply andb_true_iff in E. destruct E as [E1 E2]. apply Z.ltb_lt in E1, E2.
    assert (Hk : (k < length w)%nat). { destruct (Nat.lt_ge_cases k (length w)); auto. rewrite (nth_overflow u) in E1 by lia. lia. }
    split; [rewrite upd_length; auto|]. split; [|split; [|split; [rewrite zsum_upd by auto; lia|lia]]].
    + intros i. rewrite nth_upd. destruct (Nat.eqb_spec k i) as [->|]; auto. destruct (Nat.ltb_spec i (length w)); [|lia]. specialize (I2 i). lia.
    + intros i Hi Hu'. rewrite nth_upd. destruct (Nat.eqb_spec k i) as [->|]; auto. destruct (Nat.ltb_spec i (length w)); [|lia]. specialize (I2 i). lia.
  - intros [w s] (I1 & I2 & I3 & I4 & I5) X. cbn [fst snd] in *. apply negb_false_iff, Z.ltb_lt in X.
    destruct (exists_or_all (fun i => (0 <? nth i u 0) && (nth i w 0 <? nth i u 0)) (length u)) as [(k & Hk & E)|A].
    + exists (Z.of_nat k). unfold nx. cbn [fst snd]. cbv zeta. rewrite mod_index by auto. rewrite E. cbn [snd]. lia.
    + exfalso. assert (zsum u <= zsum w); [|lia]. apply zsum_le_nth; auto. intros k Hk. specialize (A k Hk). cbv beta in A. apply andb_false_iff in A.
      destruct A as [A|A]; apply Z.ltb_ge in A; auto. specialize (I2 k). lia.
  - unfold I. cbn [fst snd]. repeat split; auto; try apply Bv. lia.
Qed.

Lemma ones_where_nth u i : nth i (ones_where u) 0 = if 0 <? nth i u 0 then 1 else 0.
Proof. apply (map_nth (fun x => if 0 <? x then 1 else 0) u 0 i). Qed.
Lemma ones_where_zsum u : zsum (ones_where u) <= Z.of_nat (length u).
Proof. induction u as [|x u IH]; cbn [ones_where map zsum length]; [lia|]. fold (ones_where u). destruct (0 <? x); lia. Qed.

Definition fill_post_ND (d : Z) (u v : vec) : Prop := length v = length u /\ zsum v = d /\ forall i, (i < length u)%nat -> 0 <= nth i v 0 /\ nth i v 0 + 1 <= nth i u 0.
Lemma fill_ND_live d u : (forall i, (i < length u)%nat -> 1 <= nth i u 0) -> 0 <= d -> d + Z.of_nat (length u) <= zsum u ->
  live (fill_post_ND d u) (fill_ND d u (repeat 0 (length u)) 0).
Proof.
  intros Hu Hd Hs.
  set (I := fun s : vec * Z => length (fst s) = length u /\ (forall i, (i < length u)%nat -> 0 <= nth i (fst s) 0 /\ nth i (fst s) 0 + 1 <= nth i u 0) /\ snd s = zsum (fst s) /\ snd s <= d).
  set (nx := fun (s : vec * Z) x => let k := Z.to_nat (x mod zlen u) in
    if nth k (fst s) 0 + 1 <? nth k u 0 then (upd (fst s) k (nth k (fst s) 0 + 1), snd s + 1) else s).
  apply (live_ext _ _ (gloop (fun s => negb (snd s <? d)) fst nx (repeat 0 (length u), 0))).
  { enough (G : forall rs w s, fill_ND d u w s rs = gloop (fun s => negb (snd s <? d)) fst nx (w, s) rs) by (intros rs; apply G).
    clear - nx. induction rs as [|x rs IH]; intros w s; cbn [fill_ND gloop fst snd]; destruct (s <? d); cbn [negb]; auto.
    rewrite !IH. unfold nx at 4. cbn [fst snd]. cbv zeta. destruct (_ <? _); reflexivity. }
  apply (gloop_live _ _ _ I _ (fun s => Z.to_nat (d - snd s))).
  - intros [w s] (I1 & I2 & I4 & I5) X. cbn [fst snd] in *. apply negb_true_iff, Z.ltb_ge in X. repeat split; auto; try (apply I2; auto). lia.
  - intros [w s] x (I1 & I2 & I4 & I5) X. cbn [fst snd] in *. apply negb_false_iff, Z.ltb_lt in X. unfold I, nx. cbn [fst snd]. cbv zeta. set (k := Z.to_nat _).
    destruct (nth k w 0 + 1 <? nth k u 0) eqn:E2; cbn [fst snd]; [|repeat split; auto; apply I2; auto].
    apply Z.ltb_lt in E2.
    assert (Hk : (k < length w)%nat). { destruct (Nat.lt_ge_cases k (length w)); auto. rewrite (nth_overflow u), (nth_overflow w) in E2 by lia. lia. }
    split; [rewrite upd_length; auto|]. split; [|split; [rewrite zsum_upd by auto; lia|lia]].
    intros i Hi. rewrite nth_upd. destruct (Nat.eqb_spec k i) as [->|]; auto. destruct (Nat.ltb_spec i (length w)); [|lia]. specialize (I2 i Hi). lia.
  - intros [w s] (I1 & I2 & I4 & I5) X. cbn [fst snd] in *. apply negb_false_iff, Z.ltb_lt in X.
    destruct (exists_or_all (fun i => nth i w 0 + 1 <? nth i u 0) (length u)) as [(k & Hk & E)|A].
    + exists (Z.of_nat k). unfold nx. cbn [fst snd]. cbv zeta. rewrite mod_index by auto. rewrite E. cbn [snd]. lia.
    + exfalso. assert (X1 : zsum (map (fun x => x - 1) u) <= zsum w).
      { apply zsum_le_nth; [rewrite map_length; auto|]. rewrite map_length. intros k Hk. specialize (A k Hk). cbv beta in A. apply Z.ltb_ge in A.
        rewrite (nth_map_lt _ _ _ _ 0) by auto. lia. }
      assert (X2 : zsum (map (fun x => x - 1) u) = zsum u - Z.of_nat (length u)). { clear. induction u as [|x u IH]; cbn [map zsum length]; lia. }
      lia.
  - unfold I. cbn [fst snd]. split; [apply repeat_length|]. split; [|split; [|lia]].
    + intros i Hi. rewrite nth_repeat. specialize (Hu i Hi). lia.
    + clear. induction (length u); cbn [repeat zsum]; lia.
Qed.

(** ** products of matrices, by columns *)
Definition col (B : mat) (j : nat) : list Z := map (fun b => nth j b 0) B.
Definition mreduced (q : Z) (M : mat) : Prop := forall row x, In row M -> In x row -> 0 <= x < q.

Lemma mat_prod_ok q c A B r : 0 < q -> shape A r (length B) ->
  exists P, mat_prod q c A B = OK P /\ shape P r c /\ mreduced q P /\ forall j, (j < c)%nat -> mat_vec q A (col B j) = OK (col P j).
Proof.
  intros Hq [S1 S2]. unfold mat_prod.
  assert (E : forall k, k = length B -> forallb (fun r => Nat.eqb (length r) k) A = true).
  { intros k ->. apply forallb_forall. intros row Hin. rewrite Forall_forall in S2. apply Nat.eqb_eq. now apply S2. }
  rewrite E by reflexivity. eexists. split; [reflexivity|]. split; [|split].
  - split; [now rewrite map_length|]. apply Forall_forall. intros row Hin. apply in_map_iff in Hin. destruct Hin as (x & <- & _). now rewrite map_length, seq_length.
  - intros row x Hin Hx. apply in_map_iff in Hin. destruct Hin as (y & <- & _). apply in_map_iff in Hx. destruct Hx as (j & <- & _). apply Z.mod_pos_bound. lia.
  - intros j Hj. unfold mat_vec. rewrite E by (unfold col; now rewrite map_length). f_equal. unfold col at 2. rewrite map_map. apply map_ext. intros row.
    rewrite (nth_map_lt _ _ _ _ O) by (now rewrite seq_length). rewrite seq_nth by auto. reflexivity.
Qed.
Lemma col_length B j : length (col B j) = length B.
Proof. apply map_length. Qed.
Lemma mats_eq q r c P P' : shape P r c -> shape P' r c -> mreduced q P -> mreduced q P' -> (forall j, (j < c)%nat -> vcong q (col P j) (col P' j)) -> P = P'.
Proof.
  intros [L1 S1] [L2 S2] R1 R2 H. apply nth_ext with (d := []) (d' := []); [congruence|]. intros i Hi.
  rewrite Forall_forall in S1, S2. assert (I1 : In (nth i P []) P) by (now apply nth_In). assert (I2 : In (nth i P' []) P') by (apply nth_In; congruence).
  pose proof (S1 _ I1) as X1. pose proof (S2 _ I2) as X2. apply nth_ext with (d := 0) (d' := 0); [congruence|]. intros j Hj. rewrite X1 in Hj.
  destruct (H j Hj) as [_ H']. specialize (H' i). rewrite col_length in H'. specialize (H' Hi). unfold col in H'. rewrite !(nth_map_lt _ _ _ _ []) in H' by lia.
  assert (B1 := R1 _ _ I1 (nth_In (nth i P []) 0 (eq_ind_r (fun k => (j < k)%nat) Hj X1))). assert (B2 := R2 _ _ I2 (nth_In (nth i P' []) 0 (eq_ind_r (fun k => (j < k)%nat) Hj X2))).
  apply cong_iff_mod in H'; [|lia]. rewrite !Z.mod_small in H' by assumption. exact H'.
Qed.
Lemma ident_shape q k : shape (ident q k) k k.
Proof.
  unfold ident. split; [now rewrite map_length, seq_length|]. apply Forall_forall. intros row Hin. apply in_map_iff in Hin. destruct Hin as (i & <- & _). now rewrite map_length, seq_length.
Qed.

(** ** the loops of the test *)
Lemma paths_loop_live (one : draws mat) (P : mat -> Prop) : live P one -> (forall M M', P M -> P M' -> M = M') ->
  forall k prev, (forall M, prev = Some M -> P M) -> live (fun b => b = true) (paths_loop one k prev).
Proof.
  intros HL HU. induction k as [|k IH]; intros prev Hp; cbn [paths_loop]; [now apply live_ret|].
  eapply live_bind; [exact HL|]. intros M HM. destruct prev as [M0|].
  - destruct (list_eq_dec _ M0 M) as [_|N]; [apply IH; now intros ? [= <-]|]. exfalso. apply N, HU; auto.
  - apply IH. now intros ? [= <-].
Qed.
Lemma trials_loop_live st one (S : vec -> Prop) paths : live S st -> (forall u, S u -> live (fun b => b = true) (paths_loop (one u) paths None)) ->
  forall k, live (fun b => b = true) (trials_loop st one k paths).
Proof.
  intros H1 H2. induction k as [|k IH]; cbn [trials_loop]; [now apply live_ret|].
  eapply live_bind; [exact H1|]. intros u Hu. eapply live_bind; [now apply H2|]. intros b ->. exact IH.
Qed.

Lemma eplus_vsub_l u v : length u = length v -> eplus (vsub u v) v = u.
Proof. intros H. rewrite eplus_vadd. apply nth_ext with (d := 0) (d' := 0); [unfold vadd, vsub; rewrite !map2_length; rewrite ?map2_length; congruence|]. intros i _. rewrite vadd_nth, vsub_nth; [lia|auto|rewrite (vsub_length _ _ (length u)); congruence]. Qed.

(** ** the method that uses the Jacobian ideal *)
Section J.
  Variables (slv : solver) (D : dR).
  Hypothesis inv : dr_inv slv D.
  Hypothesis Hslv : solver_ok (r_q D) slv.
  Notation n := (r_n D).
  Notation d := (r_d D).
  Notation q := (r_q D).
  Notation zn := (Z.of_nat (r_n D)).
  Notation LG := (enum (S n) (Z.to_nat (degG D))).
  Notation g := (length LG).
  Notation bas := (r_basis D).
  Hypothesis Hq : 2 <= q.
  Hypothesis Hn : (1 <= n)%nat.

  Lemma walk_J_live fuel : forall u t M, is_tuple (S n) (zn + d * t) u -> 0 <= t -> (Z.to_nat t <= fuel)%nat -> shape M g g ->
    live (fun x => is_tuple (S n) zn (fst x) /\ shape (snd x) g g /\
      forall j, (j < g)%nat -> forall phi, GD q n d (r_f D) phi -> cong q (ev phi zn (fst x) LG (col (snd x) j)) (ev phi (zn + t) u LG (col M j)))
      (walk_J slv D fuel u (zn + d * t) M).
  Proof.
    pose proof (inv_nd _ _ inv) as ND.
    induction fuel as [|fuel IH]; intros u t M Hu Ht Hf HM; cbn [walk_J].
    - assert (t = 0) by lia. subst t. rewrite Z.mul_0_r, Z.add_0_r in *. rewrite Z.ltb_irrefl. apply live_ret. cbn [fst snd]. split; auto. split; auto. intros; apply cong_refl.
    - destruct (Z.ltb_spec zn (zn + d * t)) as [Hlt|Hge].
      2: { assert (t = 0) by nia. subst t. rewrite Z.mul_0_r, Z.add_0_r in *. apply live_ret. cbn [fst snd]. split; auto. split; auto. intros; apply cong_refl. }
      assert (Ht' : 1 <= t) by nia. destruct Hu as (U1 & U2 & U3).
      eapply live_bind.
      { apply fill_J_live; auto.
        - unfold ones_where. apply map_length.
        - intros i. rewrite ones_where_nth. destruct (Nat.lt_ge_cases i (length u)); [|rewrite nth_overflow by auto; cbn; lia].
          pose proof (nonneg_nth u i U2). destruct (Z.ltb_spec 0 (nth i u 0)); lia.
        - intros i Hi Hp. rewrite ones_where_nth. destruct (Z.ltb_spec 0 (nth i u 0)); lia.
        - pose proof (ones_where_zsum u). rewrite U1 in *. nia. }
      intros v (V1 & V2 & V3 & V4).
      set (u' := vsub u v).
      assert (Lu' : length u' = S n) by (apply vsub_length; congruence).
      assert (Hu' : is_tuple (S n) (zn + d * (t - 1)) u').
      { split; auto. split; [apply nonneg_iff; intros i _; unfold u'; rewrite vsub_nth by auto; specialize (V3 i); lia|unfold u'; rewrite zsum_vsub by auto; lia]. }
      assert (Huv : forall i, (i <= n)%nat -> nth i u' 0 = 0 \/ 0 < nth i v 0).
      { intros i Hi. unfold u'. rewrite vsub_nth by auto. specialize (V3 i). specialize (V4 i ltac:(lia)). lia. }
      assert (Hum : is_tuple (S n) (d * (zn + (t - 1)) - degG D) u') by (replace (d * (zn + (t - 1)) - degG D) with (zn + d * (t - 1)) by (unfold degG; ring); exact Hu').
      pose proof (fun phi Hphi => reduction_matrix_class slv D inv Hslv q (Z.divide_refl _) u' v ltac:(congruence) V2 Huv phi Hphi (zn + (t - 1)) Hum) as RC.
      destruct (RC _ (zero_GD D)) as (R & R1 & R2 & _).
      destruct (mat_prod_ok q (length M) R M g ltac:(lia)) as (M' & P1 & P2 & P3 & P4); [now rewrite (proj1 HM)|].
      eapply live_bind.
      { apply (live_lift (fun x => x = (u', M')) _ (u', M')); [|reflexivity]. rewrite vec_sub_ok by auto. cbn [bind]. fold u'. rewrite R1. cbn [bind]. rewrite P1. reflexivity. }
      intros x ->. cbn [fst snd]. rewrite (proj1 HM) in *. replace (zn + d * t - d) with (zn + d * (t - 1)) by ring.
      eapply live_mono; [|apply (IH u' (t - 1) M' Hu' ltac:(lia) ltac:(lia) P2)]. intros [w W] (W1 & W2 & W3). cbn [fst snd] in *. split; auto. split; auto.
      intros j Hj phi Hphi. rewrite (W3 j Hj phi Hphi). destruct (RC phi Hphi) as (R' & R1' & _ & R3). rewrite R1 in R1'. injection R1' as <-.
      destruct (R3 (col M j)) as (w' & E1 & E2 & E3); [now rewrite col_length, (proj1 HM)|]. rewrite (P4 j Hj) in E1. injection E1 as <-. rewrite E3.
      unfold u'. rewrite eplus_vsub_l by auto. replace (zn + (t - 1) + 1) with (zn + t) by ring. apply cong_refl.
  Qed.

  Definition path_val (u : vec) (t : Z) (P : mat) : Prop := shape P (length bas) g /\ mreduced q P /\
    forall j, (j < g)%nat -> forall phi psi, GD q n d (r_f D) phi -> basis_val q n d bas phi psi ->
      cong q (ev_basis psi bas (col P j)) (ev phi (zn + t) u LG (col (ident q g) j)).
  Lemma path_J_live u t : is_tuple (S n) (zn + d * t) u -> 0 <= t -> live (path_val u t) (path_J slv D u).
  Proof.
    pose proof (inv_nd _ _ inv) as ND. intros Hu Ht. unfold path_J.
    eapply live_bind; [apply (live_lift (fun x => x = LG) _ LG); [exact (LG_at slv D inv)|reflexivity]|]. intros ? ->.
    destruct Hu as (U1 & U2 & U3). rewrite U3. eapply live_bind; [apply walk_J_live; auto using ident_shape; [split; auto|nia]|].
    intros [w M] ((W1 & W2 & W3) & MS & MC). cbn [fst snd] in *.
    pose proof (inclusion_class slv D inv Hn w W1 W3) as IC.
    destruct (IC (fun _ _ => 0) (repeat 0 g) (repeat_length _ _)) as (I & _ & I1 & I2 & _).
    destruct (mat_prod_ok q g I M (length (enum (S n) (Z.to_nat (degG D - 1)))) ltac:(lia)) as (M1 & P1 & P2 & P3 & P4); [now rewrite (proj1 MS)|].
    destruct (final_class_all slv D inv Hslv Hq zn ltac:(lia)) as (F & F1 & F2 & F3).
    assert (EH : zn * d - (zn + 1) = degG D - 1) by (unfold degG; ring). rewrite EH in F2, F3.
    destruct (mat_prod_ok q g F M1 (length bas) ltac:(lia)) as (P & Q1 & Q2 & Q3 & Q4); [now rewrite (proj1 P2)|].
    apply (live_lift _ _ P).
    - rewrite I1. cbn [bind]. rewrite P1. cbn [bind]. rewrite F1. exact Q1.
    - split; auto. split; auto. intros j Hj phi psi Hphi Hpsi. rewrite <- (MC j Hj phi Hphi).
      destruct (IC phi (col M j)) as (I' & x & I1' & _ & X1 & X2 & X3); [now rewrite col_length, (proj1 MS)|]. rewrite I1 in I1'. injection I1' as <-.
      rewrite (P4 j Hj) in X1. injection X1 as <-. rewrite <- X3.
      destruct (F3 (col M1 j)) as (y & Y1 & Y2 & Y3); [rewrite col_length; apply P2|]. rewrite (Q4 j Hj) in Y1. injection Y1 as <-. now apply Y3.
  Qed.
End J.

Lemma start_live n d lo t : 0 <= lo -> 0 <= t < d -> live (fun u => length u = S n /\ (forall i, (i <= n)%nat -> lo <= nth i u 0) /\ zsum u mod d = t) (start n d lo t).
Proof.
  intros Hlo Ht. unfold start. eapply live_bind; [apply draw_vec_live|]. intros u (U1 & U2).
  eapply live_mono; [|apply bump_live; [lia|auto|lia|]].
  - intros w (W1 & W2 & W3). split; [lia|]. split; auto. intros i Hi. specialize (W2 i). assert (lo <= nth i u 0) by (apply U2, nth_In; lia). lia.
  - apply nonneg_iff. intros i Hi. assert (lo <= nth i u 0) by (now apply U2, nth_In). lia.
Qed.

Section TestJ.
  Variables (p prec : Z) (slv : solver) (D : dR).
  Hypothesis Pp : prime p.
  Hypothesis Hprec : 1 <= prec.
  Hypothesis inv : dr_inv slv D.
  Hypothesis Eq : r_q D = p ^ prec.
  Hypothesis Hslv : solver_ok (p ^ prec) slv.
  Hypothesis Hn : (1 <= r_n D)%nat.
  Lemma q_two : 2 <= r_q D.
  Proof using Pp Hprec Eq. clear Hn. rewrite Eq. pose proof (prime_ge_2 p Pp). assert (p ^ 1 <= p ^ prec) by (apply Z.pow_le_mono_r; lia). lia. Qed.
  Lemma path_val_unique u t P P' : path_val D u t P -> path_val D u t P' -> P = P'.
  Proof.
    intros (S1 & R1 & H1) (S2 & R2 & H2). apply (mats_eq _ _ _ _ _ S1 S2 R1 R2). intros j Hj. rewrite Eq.
    apply (coords_unique p prec slv D Pp Hprec inv Eq Hslv Hn); [rewrite col_length; apply S1|rewrite col_length; apply S2|].
    rewrite <- Eq. intros phi psi Hphi Hpsi. rewrite (H1 j Hj phi psi Hphi Hpsi). symmetry. now apply H2.
  Qed.
  Lemma test_paths_J_live trials paths : 0 < trials -> 0 < paths -> live (fun b => b = true) (test_paths_J slv D trials paths).
  Proof.
    intros H1 H2. unfold test_paths_J. pose proof (inv_nd _ _ inv) as ND. assert (Hs : solver_ok (r_q D) slv) by (now rewrite Eq).
    eapply live_bind; [apply (live_lift (fun _ => True) _ tt); auto; unfold check; now rewrite (proj2 (Z.ltb_lt _ _) H1)|]. intros _ _.
    eapply live_bind; [apply (live_lift (fun _ => True) _ tt); auto; unfold check; now rewrite (proj2 (Z.ltb_lt _ _) H2)|]. intros _ _.
    eapply trials_loop_live; [apply start_live; lia|]. intros u (U1 & U2 & U3).
    set (t := zsum u / r_d D). assert (Nu : nonneg u) by (apply nonneg_iff; intros i Hi; apply U2; lia).
    assert (Hu : is_tuple (S (r_n D)) (Z.of_nat (r_n D) + r_d D * t) u) by (split; auto; split; auto; unfold t; rewrite <- U3; pose proof (Z.div_mod (zsum u) (r_d D) ltac:(lia)); lia).
    apply (paths_loop_live _ (path_val D u t)); [|intros M M'; apply path_val_unique|discriminate].
    apply path_J_live; auto using q_two. apply Z.div_pos; [now apply nonneg_zsum|lia].
  Qed.
End TestJ.

(** ** the method for non-degenerate polynomials *)
Section ND.
  Variables (slv : solver) (N : dND).
  Notation D := (nd_dr N).
  Hypothesis ninv : nd_inv slv N.
  Hypothesis Hslv : solver_ok (r_q D) slv.
  Notation n := (r_n D).
  Notation d := (r_d D).
  Notation q := (r_q D).
  Notation nbas := (nd_basis N).
  Notation dp := (length nbas).
  Notation bas := (r_basis D).
  Hypothesis Hq : 2 <= q.
  Hypothesis Hn : (1 <= n)%nat.

  Lemma walk_ND_live fuel : forall u m M, length u = S n -> positive u = true -> zsum u = d * m -> 1 <= m -> (Z.to_nat (m - 1) <= fuel)%nat -> shape M dp dp ->
    live (fun x => length (fst x) = S n /\ positive (fst x) = true /\ zsum (fst x) = d /\ shape (snd x) dp dp /\
      forall j, (j < dp)%nat -> forall phi, GD q n d (r_f D) phi ->
        cong q (ev_ND (log_of d phi) (fst x) nbas (col (snd x) j)) (ev_ND (log_of d phi) u nbas (col M j)))
      (walk_ND slv N fuel u (d * m) M).
  Proof.
    pose proof (ni_dr _ _ ninv) as inv. pose proof (inv_nd _ _ inv) as ND.
    induction fuel as [|fuel IH]; intros u m M Lu Pu Su Hm Hf HM; cbn [walk_ND].
    - assert (m = 1) by lia. subst m. rewrite Z.mul_1_r in *. rewrite Z.ltb_irrefl. apply live_ret. cbn [fst snd]. repeat (split; [assumption|]). intros; apply cong_refl.
    - destruct (Z.ltb_spec d (d * m)) as [Hlt|Hge].
      2: { assert (m = 1) by nia. subst m. rewrite Z.mul_1_r in *. apply live_ret. cbn [fst snd]. repeat (split; [assumption|]). intros; apply cong_refl. }
      assert (Hm' : 2 <= m) by nia. pose proof (proj1 (positive_iff _) Pu) as Pu'.
      eapply live_bind; [rewrite <- Lu; apply fill_ND_live; [intros i Hi; specialize (Pu' i Hi); lia|lia|rewrite Lu; nia]|].
      intros v (V1 & V2 & V3).
      set (u' := vsub u v).
      assert (Lu' : length u' = S n) by (apply vsub_length; congruence).
      assert (Su' : zsum u' = d * (m - 1)) by (unfold u'; rewrite zsum_vsub by auto; lia).
      assert (Pu1 : positive u' = true) by (apply positive_iff; intros i Hi; unfold u'; rewrite vsub_nth by auto; specialize (V3 i ltac:(lia)); lia).
      assert (Tv : is_tuple (S n) d v) by (split; [congruence|]; split; auto; apply nonneg_iff; intros i Hi; apply V3; lia).
      destruct (get_reduction_matrix_ND_class slv N ninv Hslv v Tv Hn u' Lu' ltac:(rewrite Su'; apply Z.divide_factor_l) q (Z.divide_refl _)) as (R & R1 & R2 & R3).
      destruct (mat_prod_ok q (length M) R M dp ltac:(lia)) as (M' & P1 & P2 & P3 & P4); [now rewrite (proj1 HM)|].
      eapply live_bind.
      { apply (live_lift (fun x => x = (u', M')) _ (u', M')); [|reflexivity]. rewrite vec_sub_ok by auto. cbn [bind]. fold u'. rewrite R1. cbn [bind]. rewrite P1. reflexivity. }
      intros x ->. cbn [fst snd]. rewrite (proj1 HM) in *. replace (d * m - d) with (d * (m - 1)) by ring.
      eapply live_mono; [|apply (IH u' (m - 1) M' Lu' Pu1 Su' ltac:(lia) ltac:(lia) P2)]. intros [w W] (W1 & W2 & W3 & W4 & W5). cbn [fst snd] in *. repeat (split; [assumption|]).
      intros j Hj phi Hphi. rewrite (W5 j Hj phi Hphi).
      destruct (R3 (col M j)) as (w' & E1 & E2 & E3); [now rewrite col_length, (proj1 HM)|]. rewrite (P4 j Hj) in E1. injection E1 as <-.
      rewrite (E3 _ (GD_LGD q n d (r_f D) u' phi ltac:(lia) (inv_h _ _ inv) Lu' Pu1 Hphi)).
      unfold u'. rewrite eplus_vsub_l by auto. apply cong_refl.
  Qed.

  Definition path_val_ND (u : vec) (P : mat) : Prop := shape P (length bas) dp /\ mreduced q P /\
    forall j, (j < dp)%nat -> forall phi psi, GD q n d (r_f D) phi -> basis_val q n d bas phi psi ->
      cong q (ev_basis psi bas (col P j)) (ev_ND (log_of d phi) u nbas (col (ident q dp) j)).
  Lemma path_ND_live u m : length u = S n -> positive u = true -> zsum u = d * m -> 1 <= m -> live (path_val_ND u) (path_ND slv N u).
  Proof.
    pose proof (ni_dr _ _ ninv) as inv. pose proof (inv_nd _ _ inv) as ND. intros Lu Pu Su Hm. unfold path_ND. cbv zeta.
    rewrite Su. eapply live_bind; [apply walk_ND_live; auto using ident_shape; nia|].
    intros [w M] (W1 & W2 & W3 & MS & MC). cbn [fst snd] in *.
    destruct (ckn_ok slv N ninv Hslv Hq Hn w W1 W2 W3) as (F & F1 & F2 & F3).
    destruct (mat_prod_ok q dp F M (length bas) ltac:(lia)) as (P & Q1 & Q2 & Q3 & Q4); [now rewrite (proj1 MS)|].
    apply (live_lift _ _ P).
    - rewrite F1. exact Q1.
    - split; auto. split; auto. intros j Hj phi psi Hphi Hpsi. rewrite <- (MC j Hj phi Hphi).
      destruct (F3 (col M j)) as (y & Y1 & Y2 & Y3); [rewrite col_length; apply MS|]. rewrite (Q4 j Hj) in Y1. injection Y1 as <-. now apply Y3.
  Qed.
End ND.

Section TestND.
  Variables (p prec : Z) (slv : solver) (N : dND).
  Notation D := (nd_dr N).
  Hypothesis Pp : prime p.
  Hypothesis Hprec : 1 <= prec.
  Hypothesis ninv : nd_inv slv N.
  Hypothesis Eq : r_q D = p ^ prec.
  Hypothesis Hslv : solver_ok (p ^ prec) slv.
  Hypothesis Hn : (1 <= r_n D)%nat.
  Lemma path_val_ND_unique u P P' : path_val_ND N u P -> path_val_ND N u P' -> P = P'.
  Proof.
    intros (S1 & R1 & H1) (S2 & R2 & H2). apply (mats_eq _ _ _ _ _ S1 S2 R1 R2). intros j Hj. rewrite Eq.
    apply (coords_unique p prec slv D Pp Hprec (ni_dr _ _ ninv) Eq Hslv Hn); [rewrite col_length; apply S1|rewrite col_length; apply S2|].
    rewrite <- Eq. intros phi psi Hphi Hpsi. rewrite (H1 j Hj phi psi Hphi Hpsi). symmetry. now apply H2.
  Qed.
  Lemma test_paths_ND_live trials paths : 0 < trials -> 0 < paths -> live (fun b => b = true) (test_paths_ND slv N trials paths).
  Proof.
    intros H1 H2. unfold test_paths_ND. cbv zeta. pose proof (ni_dr _ _ ninv) as inv. pose proof (inv_nd _ _ inv) as ND. assert (Hs : solver_ok (r_q D) slv) by (now rewrite Eq).
    eapply live_bind; [apply (live_lift (fun _ => True) _ tt); auto; unfold check; destruct (Z.eqb_spec trials 0); [lia|reflexivity]|]. intros _ _.
    eapply live_bind; [apply (live_lift (fun _ => True) _ tt); auto; unfold check; destruct (Z.eqb_spec paths 0); [lia|reflexivity]|]. intros _ _.
    eapply live_bind; [apply (live_lift (fun _ => True) _ tt); auto; unfold check; rewrite (proj2 (Z.ltb_lt _ _) H2), orb_true_r; reflexivity|]. intros _ _.
    eapply trials_loop_live; [apply start_live; lia|]. intros u (U1 & U2 & U3).
    assert (Pu : positive u = true) by (apply positive_iff; intros i Hi; specialize (U2 i ltac:(lia)); lia).
    assert (Su : zsum u = r_d D * (zsum u / r_d D)) by (pose proof (Z.div_mod (zsum u) (r_d D) ltac:(lia)); lia).
    apply (paths_loop_live _ (path_val_ND N u)); [|intros M M'; apply path_val_ND_unique|discriminate].
    apply (path_ND_live slv N ninv Hs (q_two p prec D Pp Hprec Eq) Hn u (zsum u / r_d D)); auto.
    assert (0 < zsum u); [|nia].
    assert (nth 0 u 0 <= zsum u) by (apply nth_le_zsum; apply nonneg_iff; intros i Hi; specialize (U2 i ltac:(lia)); lia).
    specialize (U2 O ltac:(lia)). lia.
  Qed.
End TestND.
