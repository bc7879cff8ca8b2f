(** The model's charpoly is MathComp's characteristic polynomial. *)
From Coq Require Import ZArith List Lia.
From mathcomp Require Import all_ssreflect all_fingroup all_algebra.
From mathcomp Require Import zify ssrZ.
From Verif Require Import Base VecModel MatModel MatProofs CharModel CharSpec CharNewton NewtonMC.
Set Implicit Arguments.
Unset Strict Implicit.
Unset Printing Implicit Defensive.
Import GRing.Theory.
Local Open Scope ring_scope.

(** the matrix of the entries *)
Definition mx_of (n : nat) (M : mat) : 'M[Z]_n := \matrix_(i, j) mget M i j.

Lemma sumf_seq (f : nat -> Z) n a : sumf f (List.seq a n) = \sum_(i < n) f (a + i)%N.
Proof.
elim: n a => [|n IH] a; first by rewrite big_ord0.
rewrite big_ord_recl /= sumf_cons IH addn0; congr Z.add.
by apply: eq_bigr => i _; rewrite /bump /= addnA addn1.
Qed.

Lemma tr_mx n M : tr n M = \tr (mx_of n M).
Proof. by rewrite /tr sumf_seq; apply: eq_bigr => i _; rewrite mxE. Qed.

Lemma mul_mx n A B : length A = n -> mx_of n (mat_mul n A B) = mx_of n A *m mx_of n B.
Proof.
move=> L; apply/matrixP => i j; rewrite !mxE mat_mul_get ?L; try by apply/ltP.
by rewrite sumf_seq; apply: eq_bigr => k _; rewrite !mxE.
Qed.

Lemma mpow_mx m M k : shape M m.+1 m.+1 -> mx_of m.+1 (mpow m.+1 M k) = mx_of m.+1 M ^+ k.+1.
Proof.
move=> S; elim: k => [|k IH]; first by rewrite expr1.
have [L _] := mpow_shape m.+1 M k S.
rewrite [mpow _ _ _]/= (mul_mx _ L) IH; exact: (esym (exprSr _ _)).
Qed.

Lemma nth_coefs (P : {poly Z}) n i : (i <= n)%N ->
  List.nth i (List.map (fun i => P`_i) (List.seq 0 n.+1)) Z0 = P`_i.
Proof.
move=> Hi; rewrite (List.nth_indep _ _ (P`_0)); last by rewrite List.map_length List.seq_length; lia.
by rewrite (List.map_nth (fun i => P`_i)) List.seq_nth //; lia.
Qed.

Lemma charpoly_sums m M : shape M m.+1 m.+1 ->
  power_sums m.+1 (List.map (fun i => (char_poly (mx_of m.+1 M))`_i) (List.seq 0 m.+2))
    (fun k => tr m.+1 (mpow m.+1 M (k - 1))).
Proof.
move=> S k Hk; set A := mx_of _ _; set chi := char_poly A.
have kn : (k <= m.+1)%N by lia.
have := newton A kn; rewrite -/chi => N.
rewrite sumf_seq nth_coefs; last by lia.
rewrite -[RHS]N; congr Z.add.
  rewrite -mulr_natl; congr Z.mul.
  by elim: k {Hk kn N} => // k IH; rewrite Nat2Z.inj_succ -Z.add_1_l IH mulrS.
apply: eq_bigr => j _; have Hj := ltn_ord j.
rewrite nth_coefs; last by lia.
rewrite tr_mx mpow_mx // -/A.
have -> : (m.+1 - (k - (1 + j)) = m.+1 - k + j.+1)%coq_nat by lia.
by have -> : ((1 + j - 1).+1 = j.+1)%coq_nat by lia.
Qed.

Theorem charpoly_ok m M : shape M m.+1 m.+1 ->
  charpoly M = OK (List.map (fun i => (char_poly (mx_of m.+1 M))`_i) (List.seq 0 m.+2)).
Proof.
move=> S; apply: (@charpoly_newton m.+1) => //.
- by apply/leP.
- by rewrite List.map_length List.seq_length.
- rewrite nth_coefs //; have := char_poly_monic (mx_of m.+1 M).
  by rewrite monicE lead_coefE size_char_poly => /eqP.
- exact: charpoly_sums.
Qed.
