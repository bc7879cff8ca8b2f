(** C16: the number of terms N in the table of default_args is large enough for
    charpoly_prec.  A column of the Frobenius matrix that belongs to pole order k + 1
    is divisible by p^(n-1-k); with N_k terms it is known modulo p^N_k, with N_k = 0 it
    is taken to be 0 modulo p^(n-1-k).  A coefficient of the characteristic polynomial
    is a sum of minors; an error in one column is multiplied by entries of the others. *)
From Coq Require Import ZArith List Bool Lia.
From Verif Require Import Base ArgsModel ArgsProofs.
Import ListNotations.
Open Scope Z_scope.

(** the number of basis elements of pole order 1, ..., n (tools/default_args.cc 16-171:
    the lists charpoly_prec have one entry more than there are basis elements) *)
Definition columns (n d : Z) : list Z :=
  if n =? 2 then [(d - 1) * (d - 2) / 2; (d - 1) * (d - 2) / 2]
  else if d =? 4 then [1; 19; 1] else if d =? 5 then [4; 44; 4] else [10; 85; 10].
Definition known (n : Z) (N : list Z) (k : nat) : Z := if nth k N 0 =? 0 then n - 1 - Z.of_nat k else nth k N 0.

(** a choice of m0, m1, m2 further columns of the pole orders 1, 2, 3 beside one of pole
    order k + 1 *)
Definition choice (h : list Z) (k : nat) (m : list Z) : Prop :=
  length m = length h /\ forall j, (j < length h)%nat -> 0 <= nth j m 0 <= nth j h 0 - (if Nat.eqb j k then 1 else 0).
Definition digits (n : Z) (N : list Z) (k : nat) (m : list Z) : Z :=
  known n N k + fold_right Z.add 0 (map (fun j => nth j m 0 * (n - 1 - Z.of_nat j)) (seq 0 (length m))).

Definition least (n : Z) (h : list Z) (k : nat) (t : Z) : Z :=
  let u j := nth j h 0 - (if Nat.eqb j k then 1 else 0) in
  if n =? 2 then Z.max 0 (t - u 1%nat) else Z.max 0 (t - u 2%nat) + Z.max 0 (t - u 2%nat - u 1%nat).
Definition row_fine (n : Z) (h : list Z) (a : args) : bool :=
  let '(_, N, c) := a in let deg := fold_right Z.add 0 h in
  (Z.of_nat (length c) =? deg + 1) && forallb (fun i => forallb (fun k => nth i c 0 <=? known n N k + least n h k (deg - Z.of_nat i - 1)) (seq 0 (length h))) (seq 1 (length c - 2)).

Lemma least_ok n h k m : (n = 2 /\ length h = 2%nat) \/ (n = 3 /\ length h = 3%nat) -> choice h k m ->
  least n h k (fold_right Z.add 0 m) <= fold_right Z.add 0 (map (fun j => nth j m 0 * (n - 1 - Z.of_nat j)) (seq 0 (length m))).
Proof.
  intros H (L & B). unfold least. destruct H as [(-> & H)|(-> & H)]; rewrite H in *.
  - do 2 (destruct m as [|? m]; [discriminate|]). destruct m; [|discriminate].
    pose proof (B 0%nat ltac:(lia)) as B0. pose proof (B 1%nat ltac:(lia)) as B1. cbn [nth] in B0, B1.
    cbn [length seq map fold_right nth]. change (2 =? 2) with true. cbv iota. change (Z.of_nat 0) with 0. change (Z.of_nat 1) with 1. lia.
  - do 3 (destruct m as [|? m]; [discriminate|]). destruct m; [|discriminate].
    pose proof (B 0%nat ltac:(lia)) as B0. pose proof (B 1%nat ltac:(lia)) as B1. pose proof (B 2%nat ltac:(lia)) as B2. cbn [nth] in B0, B1, B2.
    cbn [length seq map fold_right nth]. change (3 =? 2) with false. cbv iota. change (Z.of_nat 0) with 0. change (Z.of_nat 1) with 1. change (Z.of_nat 2) with 2. lia.
Qed.

Lemma table_fine p n d a : default_args p n d = OK a -> (n = 2 \/ n = 3) /\ row_fine n (columns n d) a = true.
Proof.
  intros E. apply default_args_cases in E.
  repeat (destruct E as [E|E]; [|]); destruct E as (-> & -> & ->); (split; [lia|]);
    unfold args_2_3, args_2_4, args_2_5, args_2_6, args_2_7, args_2_8, args_2_9, args_3_4, args_3_5, args_3_6;
    repeat match goal with |- context [if ?b then _ else _] => match b with context [p] => destruct b end end; vm_compute; reflexivity.
Qed.

(** coefficient i is the sum of the minors of degree - i columns *)
Theorem C16_N_suffices : forall p n d prec N cprec, default_args p n d = OK (prec, N, cprec) ->
  let h := columns n d in let degree := fold_right Z.add 0 h in
  Z.of_nat (length cprec) = degree + 1 /\
  forall i k m, 1 <= Z.of_nat i < degree -> (k < length h)%nat -> choice h k m -> fold_right Z.add 0 m = degree - Z.of_nat i - 1 ->
    nth i cprec 0 <= digits n N k m.
Proof.
  intros p n d prec N cprec E h degree. destruct (table_fine _ _ _ _ E) as (Hn & R). fold h in R. unfold row_fine in R. fold degree in R.
  apply andb_prop in R. destruct R as (R1 & R2). apply Z.eqb_eq in R1. split; [exact R1|]. intros i k m Hi Hk C S.
  rewrite forallb_forall in R2. specialize (R2 i). rewrite in_seq in R2. specialize (R2 ltac:(lia)). rewrite forallb_forall in R2.
  specialize (R2 k). rewrite in_seq in R2. specialize (R2 ltac:(lia)). apply Z.leb_le in R2. rewrite <- S in R2.
  assert (L : (n = 2 /\ length h = 2%nat) \/ (n = 3 /\ length h = 3%nat)).
  { unfold h, columns. destruct Hn as [->| ->]; [left|right]; (split; [reflexivity|]); cbn [Z.eqb Pos.eqb]; [reflexivity|]. destruct (d =? 4); [reflexivity|]. destruct (d =? 5); reflexivity. }
  pose proof (least_ok n h k m L C). unfold digits. lia.
Qed.
Print Assumptions C16_N_suffices.

(** the bound is reached: quartic curves, p >= 17, coefficient 1: an error of the first
    column of pole order 1 is multiplied by three columns of pole order 2 and one of pole
    order 1.  For coefficient 0 it fails for cubic curves, p >= 17, whose matrix is known
    modulo p only. *)
Example C16_N_suffices_ex : default_args 17 2 4 = OK (3, [2; 2], [4; 3; 2; 2; 2; 2; 2]) /\ choice (columns 2 4) 0 [1; 3] /\ digits 2 [2; 2] 0 [1; 3] = 3.
Proof.
  split; [reflexivity|]. split; [|reflexivity]. split; [reflexivity|]. intros j Hj. change (length (columns 2 4)) with 2%nat in Hj.
  do 2 (destruct j as [|j]; [cbn; lia|]). lia.
Qed.
Theorem C16_constant_refuted : exists prec N cprec m, default_args 17 2 3 = OK (prec, N, cprec) /\ choice (columns 2 3) 0 m /\
  fold_right Z.add 0 m = fold_right Z.add 0 (columns 2 3) - 1 /\ digits 2 N 0 m < nth 0 cprec 0.
Proof.
  exists 1, [0; 1], [3; 1; 1], [0; 1]. split; [reflexivity|]. split; [|split; reflexivity]. split; [reflexivity|]. intros j Hj.
  change (length (columns 2 3)) with 2%nat in Hj. do 2 (destruct j as [|j]; [cbn; lia|]). lia.
Qed.
Print Assumptions C16_constant_refuted.
