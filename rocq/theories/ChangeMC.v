(** Determinants modulo p (MathComp). *)
From Coq Require Import ZArith List Lia.
From mathcomp Require Import all_ssreflect all_fingroup all_algebra.
From mathcomp Require Import zify ssrZ.
From Verif Require Import Base ToolsSpec DRSpec LinAlg ChangeSpec NewtonMC CharMC.
Set Implicit Arguments.
Unset Strict Implicit.
Unset Printing Implicit Defensive.
Import GRing.Theory.
Local Open Scope ring_scope.

Definition mxf (n : nat) (A : nat -> nat -> Z) : 'M[Z]_n := \matrix_(i, j) A i j.

Lemma sgn_pow j : Z.pow (-1) (Z.of_nat j) = (-1 : Z) ^+ j.
Proof.
elim: j => [|j IH]; first by rewrite expr0.
by rewrite Nat2Z.inj_succ Z.pow_succ_r; [rewrite IH exprS | lia].
Qed.

Lemma detf_S n A : detf n.+1 A =
  sumf (fun j => Z.mul (Z.mul (Z.pow (-1) (Z.of_nat j)) (A O j)) (detf n (fun i k => A (S i) (if Nat.ltb k j then k else S k)))) (List.seq 0 n.+1).
Proof. by []. Qed.

Lemma detf_det n A : detf n A = \det (mxf n A).
Proof.
elim: n A => [|n IH] A; first by rewrite det_mx00.
rewrite (expand_det_row _ ord0).
rewrite detf_S sumf_seq; apply: eq_bigr => j _.
rewrite add0n mxE /cofactor add0n IH sgn_pow.
have -> : mxf n (fun i k : nat => A i.+1 (if Nat.ltb k j then k else k.+1)) = row' ord0 (col' j (mxf n.+1 A)).
  apply/matrixP => a b; rewrite !mxE /= /bump leq0n add1n; congr (A _ _).
  by case: (Nat.ltb_spec b j) => H; [have -> : (j <= b)%N = false by lia | have -> : (j <= b)%N by lia]; rewrite ?add0n ?add1n.
set x := A _ _; set y := \det _. 
by rewrite -[Z.mul _ y]/(_ * y) -[Z.mul _ x]/(_ * x) mulrA [X in X * y]mulrC.
Qed.

Lemma cong_prod (p : Z) (I : finType) (F G : I -> Z) : (forall i, cong p (F i) (G i)) -> cong p (\prod_i F i) (\prod_i G i).
Proof. by move=> H; apply: (big_rec2 (fun a b => cong p a b)) => [|i a b _ C]; [apply: cong_refl | apply: cong_mul]. Qed.

Lemma detf_cong p n A B : mmeq p n n A B -> cong p (detf n A) (detf n B).
Proof.
move=> H; rewrite !detf_det /determinant.
apply: (big_rec2 (fun a b => cong p a b)) => [|s a b _ C]; first by apply: cong_refl.
apply: cong_add => //; apply: cong_mul; first by apply: cong_refl.
by apply: cong_prod => i; rewrite !mxE; apply: H; apply/ltP.
Qed.

Lemma detf_mul n A B : detf n (mm n A B) = Z.mul (detf n A) (detf n B).
Proof.
rewrite !detf_det; apply: etrans (det_mulmx (mxf n A) (mxf n B)); congr (\det _).
by apply/matrixP => i j; rewrite !mxE /mm sumf_seq; apply: eq_bigr => k _; rewrite !mxE.
Qed.

Lemma detf_delta n : detf n delta = Zpos xH.
Proof.
rewrite detf_det; apply: etrans (det1 _ n); congr (\det _); apply/matrixP => i j; rewrite !mxE /delta.
case: eqP => [->|N]; first by rewrite Nat.eqb_refl.
by case: Nat.eqb_spec => // E; case: N; apply: ord_inj.
Qed.

Lemma detf_row n A (r : nat) c : Peano.lt r n ->
  detf n (fun i j => if Nat.eqb i r then Z.mul c (A i j) else A i j) = Z.mul c (detf n A).
Proof.
move=> /ltP Hr; rewrite !detf_det.
pose i0 := Ordinal Hr.
have E := @determinant_multilinear _ n (mxf n (fun i j => if Nat.eqb i r then Z.mul c (A i j) else A i j)) (mxf n A) (mxf n A) i0 c 0.
rewrite E; first by rewrite mul0r addr0.
- by apply/rowP => j; rewrite !mxE /= Nat.eqb_refl mul0r addr0.
- apply/matrixP => i j; rewrite !mxE; case: Nat.eqb_spec => // Q; exfalso.
  by move/eqP: (neq_lift i0 i); apply; apply: ord_inj.
- apply/matrixP => i j; rewrite !mxE; case: Nat.eqb_spec => // Q; exfalso.
  by move/eqP: (neq_lift i0 i); apply; apply: ord_inj.
Qed.
