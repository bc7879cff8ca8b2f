(** C69: the precision assertion of charpoly_frob, computed in floating point, decides
    the exact inequality unless both sides are equal; with the built-in tables it
    always holds. *)
From Coq Require Import ZArith QArith Qreals List Bool Lia Reals Lra.
From Verif Require Import Base VecModel MatModel CharModel CharSpec ArgsModel ArgsProofs FlModel FlSpec FlProofs FlIeee PicardSpec FlPicard.
Import ListNotations.
Open Scope Z_scope.

Theorem C69_test : forall A p degree dim pr k, double_like A -> 2 <= p < 2 ^ 63 ->
  (1 <= k <= degree)%nat -> (degree <= 1024)%nat -> (dim * k <= 2048)%nat -> 0 <= pr <= 1024 ->
  left_side k p pr <> right_side degree dim k p ->
  (fl_test A p degree dim pr k = true <-> right_side degree dim k p < left_side k p pr).
Proof.
  intros A p degree dim pr k DA Hp Hk Hd Hm Hr N. rewrite (fl_test_ok A p degree dim pr k DA Hp Hk Hd Hm Hr N).
  unfold prec_test. apply Z.ltb_lt.
Qed.
Print Assumptions C69_test.

(** hence the program with doubles computes what the model with the exact test does *)
Theorem C69_charpoly_frob : forall A M prec p dim, double_like A -> 2 <= p < 2 ^ 63 ->
  (length M <= 1024)%nat -> (dim * length M <= 2048)%nat ->
  (forall j, (j <= length M)%nat -> 0 <= full_prec (length M) dim prec j <= 1024) ->
  (forall k, (1 <= k <= length M)%nat ->
     left_side k p (full_prec (length M) dim prec (length M - k)) <> right_side (length M) dim k p) ->
  charpoly_frob_fl A M prec p dim = charpoly_frob M prec p dim.
Proof.
  intros A M prec p dim DA Hp Hd Hm Hf Ht. change (charpoly_frob M prec p dim) with (charpoly_frob_test prec_test M prec p dim).
  unfold charpoly_frob_fl. apply test_ext. intros k Hk _. apply fl_test_ok; auto; [nia|]. apply Hf. lia.
Qed.
Print Assumptions C69_charpoly_frob.

(** the built-in tables: the assertion is never the reason of a failure *)
Theorem C69_default : forall A p n d prec N cprec M, double_like A -> 3 <= p < 2 ^ 63 ->
  default_args p n d = OK (prec, N, cprec) ->
  charpoly_frob_fl A M cprec p (Z.to_nat (n - 1)) = charpoly_frob M cprec p (Z.to_nat (n - 1)) /\
  charpoly_frob M cprec p (Z.to_nat (n - 1)) = charpoly_frob_test (fun _ _ _ _ _ => true) M cprec p (Z.to_nat (n - 1)).
Proof.
  intros A p n d prec N cprec M DA Hp E. destruct (default_args_ok p n d _ ltac:(lia) E) as (_ & _ & _ & _ & Hc & En).
  assert (B : (length cprec - 1 <= 1024)%nat /\ (Z.to_nat (n - 1) * (length cprec - 1) <= 2048)%nat /\
    forallb (fun j => full_prec (length cprec - 1) (Z.to_nat (n - 1)) cprec j <=? 1024) (seq 0 (length cprec)) = true /\
    forallb (fun j => 0 <=? full_prec (length cprec - 1) (Z.to_nat (n - 1)) cprec j) (seq 0 (length cprec)) = true).
  { apply default_args_cases in E. repeat destruct E as [E|E]; destruct E as (-> & _ & E);
      unfold args_2_3, args_2_4, args_2_5, args_2_6, args_2_7, args_2_8, args_2_9, args_3_4, args_3_5, args_3_6 in E;
      repeat match type of E with _ = if ?b then _ else _ => destruct b end; injection E as -> -> ->;
      (split; [apply Nat.leb_le; vm_compute; reflexivity|]); (split; [apply Nat.leb_le; vm_compute; reflexivity|]); split; vm_compute; reflexivity. }
  destruct B as (B1 & B2 & B3 & B4). rewrite forallb_forall in B3, B4.
  change (charpoly_frob M cprec p (Z.to_nat (n - 1))) with (charpoly_frob_test prec_test M cprec p (Z.to_nat (n - 1))).
  split; (unfold charpoly_frob_fl; apply test_ext; intros k Hk L; replace (length cprec - 1)%nat with (length M) in * by lia);
    specialize (En k Hk).
  - apply fl_test_ok; auto; [lia|nia| |].
    + specialize (B3 (length M - k)%nat). specialize (B4 (length M - k)%nat). rewrite in_seq in B3, B4. specialize (B3 ltac:(lia)). specialize (B4 ltac:(lia)).
      apply Z.leb_le in B3, B4. lia.
    + unfold left_side, right_side. lia.
  - unfold prec_test. now apply Z.ltb_lt.
Qed.
Print Assumptions C69_default.

(** the specification is met by IEEE double precision, rounding to nearest *)
Theorem C69_ieee : double_like ieee_arith.
Proof. exact ieee_double_like. Qed.
Print Assumptions C69_ieee.

(** The loop conditions of geometric_picard: the IEEE double of k/(log(k)/log(2) + 1) is a
    rational number with the properties on which C46 and C49 rely. *)
Theorem C69_picard : exists x : Z -> Q, (forall k, Q2R (x k) = fl_bound ieee_arith k) /\ double_ok x.
Proof. exists x_ieee. split; [exact x_ieee_ok|exact x_ieee_double_ok]. Qed.
Print Assumptions C69_picard.
(** 60/(log2 60 + 1) = 8.68...; the totient of 60 is 16 *)
Example C69_picard_ex : (7 < fl_bound ieee_arith 60 <= 10)%R.
Proof.
  destruct x_ieee_double_ok as [_ _ L G]. rewrite <- x_ieee_ok. split.
  - rewrite <- (Q2R_inject 7). apply Qlt_Rlt, G; [lia|lia|vm_compute; reflexivity].
  - rewrite <- (Q2R_inject 10). apply Qle_Rle, L; [lia|lia|vm_compute; discriminate].
Qed.

(** ** other arithmetic that meets the specification: exact, and with one logarithm a little too large *)
Definition exact_arith : arith :=
  mk_arith (fun x => ln (IZR x)) Rplus Rmult Rdiv (fun x y => if Rgt_dec x y then true else false).
Definition tilted_arith : arith :=
  mk_arith (fun x => if x =? 2 then (ln 2 * (1 + ulp))%R else ln (IZR x)) Rplus Rmult Rdiv (fun x y => if Rgt_dec x y then true else false).
Lemma exact_like (L : Z -> R) : (forall x, 1 <= x < 2 ^ 63 -> (Rabs (L x - ln (IZR x)) <= ulp * ln (IZR x))%R) ->
  double_like (mk_arith L Rplus Rmult Rdiv (fun x y => if Rgt_dec x y then true else false)).
Proof.
  intros H. pose proof ulp_small as (U0 & _).
  assert (M : forall z, moderate z -> (Rabs (z - z) <= ulp * z)%R).
  { intros z Hz. rewrite Rminus_diag_eq, Rabs_R0 by reflexivity. destruct Hz as [->|Hz]; [lra|]. apply Rmult_le_pos; lra. }
  split; cbn [a_log a_add a_mul a_div a_gt]; auto. intros x y. destruct (Rgt_dec x y); split; auto; try discriminate; try contradiction.
Qed.
Example C69_exact_ex : double_like exact_arith.
Proof. apply exact_like. intros x Hx. rewrite Rminus_diag_eq, Rabs_R0 by reflexivity. pose proof ulp_small. apply Rmult_le_pos; [lra|apply ln_int_pos; lia]. Qed.
Lemma tilted_like : double_like tilted_arith.
Proof.
  apply exact_like. intros x Hx. pose proof ulp_small as (U0 & _). pose proof ln2_bounds as (L1 & _). destruct (Z.eqb_spec x 2) as [->|N].
  - replace (ln 2 * (1 + ulp) - ln 2)%R with (ulp * ln 2)%R by ring. rewrite Rabs_right; [lra|]. apply Rle_ge, Rmult_le_pos; lra.
  - rewrite Rminus_diag_eq, Rabs_R0 by reflexivity. apply Rmult_le_pos; [lra|apply ln_int_pos; lia].
Qed.
(** a Frobenius matrix with the table for plane cubics *)
Example C69_default_ex : default_args 17 2 3 = OK (args_2_3 17) /\
  charpoly_frob [[6; -1]; [17; 0]] (snd (args_2_3 17)) 17 1 = OK [17; -6; 1].
Proof. split; vm_compute; reflexivity. Qed.

(** When both sides are equal the answer depends on the rounding. *)
Theorem C69_tie_refuted : ~ forall A B p degree dim pr k, double_like A -> double_like B -> 2 <= p < 2 ^ 63 ->
  (1 <= k <= degree)%nat -> (degree <= 1024)%nat -> (dim * k <= 2048)%nat -> 0 <= pr <= 1024 ->
  fl_test A p degree dim pr k = fl_test B p degree dim pr k.
Proof.
  intros H. specialize (H exact_arith tilted_arith 3 9%nat 2%nat 4 2%nat C69_exact_ex tilted_like ltac:(lia) ltac:(lia) ltac:(lia) ltac:(lia) ltac:(lia)).
  assert (L : (ln 18 = ln 2 + 2 * ln 3)%R).
  { replace 18%R with (2 * (3 * 3))%R by ring. rewrite !ln_mult by lra. ring. }
  assert (L3 : (0 < ln 3)%R) by (rewrite <- ln_1; apply ln_increasing; lra).
  pose proof ulp_small as (U0 & _). pose proof ln2_bounds as (L1 & _).
  unfold fl_test, exact_arith, tilted_arith in H. cbn [a_log a_add a_mul a_div a_gt] in H.
  change (2 * Z.of_nat 9) with 18 in H. change (Z.of_nat 2) with 2 in H. change (3 =? 2) with false in H. change (18 =? 2) with false in H. change (2 =? 2) with true in H. cbv iota in H.
  rewrite L in H.
  assert (E : ((ln 2 + 2 * ln 3) / ln 3 = ln 2 / ln 3 + 2)%R) by (field; lra). rewrite E in H.
  destruct (Rgt_dec (ln 2 / ln 3 + 4) (ln 2 / ln 3 + 2 + / 2 * 2 * 2)) as [G|G]; [lra|].
  destruct (Rgt_dec (ln 2 * (1 + ulp) / ln 3 + 4) (ln 2 / ln 3 + 2 + / 2 * 2 * 2)) as [G2|G2]; [discriminate|]. apply G2.
  replace (ln 2 * (1 + ulp) / ln 3)%R with (ln 2 / ln 3 + ulp * ln 2 / ln 3)%R by (field; lra).
  assert (0 < ulp * ln 2 / ln 3)%R by (apply Rdiv_lt_0_compat; [apply Rmult_lt_0_compat; lra|lra]). lra.
Qed.
Print Assumptions C69_tie_refuted.
Example C69_tie_ex : left_side 2 3 4 = right_side 9 2 2 3.
Proof. vm_compute; reflexivity. Qed.
