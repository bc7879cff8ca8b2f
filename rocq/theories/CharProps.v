(** Properties C13, C14 and C15. *)
From Coq Require Import ZArith List Lia.
From mathcomp Require Import all_ssreflect all_fingroup all_algebra.
From mathcomp Require Import zify ssrZ.
From Verif Require Import Base VecModel MatModel MatProofs CharModel CharSpec CharProofs CharMC.
Set Implicit Arguments.
Unset Strict Implicit.
Unset Printing Implicit Defensive.
Local Open Scope Z_scope.

(** coefficients 0..degree of det(x I - M), constant term first *)
Definition char_coefs (degree : nat) (M : mat) : list Z :=
  List.map (fun i => ((char_poly (mx_of degree M))`_i)%R) (List.seq 0 (S degree)).

Lemma charpoly_coefs degree M : (1 <= degree)%coq_nat -> shape M degree degree -> charpoly M = OK (char_coefs degree M).
Proof. by case: degree => [|m] H Sh; [lia|exact: charpoly_ok]. Qed.

(** C13: charpoly returns the coefficients of det(x I - M); no assertion fails *)
Theorem C13_charpoly : forall degree M, (1 <= degree)%coq_nat -> shape M degree degree ->
  charpoly M = OK (char_coefs degree M).
Proof. exact charpoly_coefs. Qed.
Print Assumptions C13_charpoly.

Example C13_ex : shape [:: [:: 1; 2; 0]; [:: 3; 4; 1]; [:: 0; 5; -2]] 3%nat 3%nat /\
  charpoly [:: [:: 1; 2; 0]; [:: 3; 4; 1]; [:: 0; 5; -2]] = OK [:: 1; -17; -3; 1].
Proof. split; [split; [reflexivity|]; repeat constructor|reflexivity]. Qed.

(** ... and the empty matrix is outside its contract *)
Theorem C13_empty_refuted : charpoly nil = Err EUB.
Proof. reflexivity. Qed.
Print Assumptions C13_empty_refuted.

(** the hypotheses of C14 and C15: P satisfies the functional equation with sign
    eps and the bound, and det(x I - M) agrees with P to the given precision *)
Record frob_input (p : Z) (degree dim : nat) (eps : Z) (P prec : list Z) (M : mat) : Prop := {
  fi_prime : 3 <= p; fi_odd : Z.odd p = true; fi_degree : (1 <= degree)%coq_nat;
  fi_weil : weil p degree dim eps P;
  fi_shape : shape M degree degree;
  fi_len : length prec = S degree;
  fi_prec : forall i, 0 <= List.nth i prec 0;
  fi_enough : enough p degree dim prec;
  fi_cong : forall i, (i <= degree)%coq_nat ->
    (p ^ List.nth i prec 0 | List.nth i P 0 - ((char_poly (mx_of degree M))`_i)%R) }.

Lemma frob_hyp p degree dim eps P prec M : frob_input p degree dim eps P prec M ->
  charpoly_frob M prec p dim = charpoly_frob_from (char_coefs degree M) prec p dim /\
  length (char_coefs degree M) = S degree /\
  forall i, (i <= degree)%coq_nat -> cong (p ^ List.nth i prec 0) (List.nth i (char_coefs degree M) 0) (List.nth i P 0).
Proof.
case=> Hp Ho Hd W Sh Ln Hpr He Hc; split; last split.
- by rewrite /charpoly_frob (charpoly_coefs Hd Sh).
- by rewrite List.map_length List.seq_length.
- move=> i Hi; have [x Hx] := Hc i Hi; rewrite nth_coefs; last by lia.
  exists (- x); lia.
Qed.

Lemma frob_right p degree dim eps P prec M : frob_input p degree dim eps P prec M ->
  (if Nat.even dim then eps = 1 \/ exists i, detects p degree dim prec P i else eps = 1) ->
  charpoly_frob M prec p dim = OK P.
Proof. move=> F G; have [-> [L C]] := frob_hyp F; case: F => *; exact: (@frob_ok p degree dim eps). Qed.

(** a matrix whose characteristic polynomial is exactly P *)
Lemma frob_input_exact p degree dim eps P prec M : 3 <= p -> Z.odd p = true -> (1 <= degree)%coq_nat ->
  weil p degree dim eps P -> shape M degree degree -> length prec = S degree ->
  (forall i, 0 <= List.nth i prec 0) -> enough p degree dim prec -> charpoly M = OK P ->
  frob_input p degree dim eps P prec M.
Proof.
move=> Hp Ho Hd W Sh L Hpr He Hc; split=> // i Hi.
move: Hc; rewrite (charpoly_coefs Hd Sh) => -[<-]; rewrite nth_coefs; last by lia.
by rewrite Z.sub_diag; exact: Z.divide_0_r.
Qed.

(** (T-3)(T+3)^2 *)
Definition M3 : mat := [:: [:: 3; 0; 0]; [:: 0; -3; 0]; [:: 0; 0; -3]].
Definition P3 : list Z := [:: -27; -9; 3; 1].
Lemma M3_input : frob_input 3 3 2 (-1) P3 [:: 5; 5; 5; 5] M3.
Proof.
apply: frob_input_exact; try reflexivity; try lia.
- split=> //; first by right.
  + move=> i Hi; have : (i = 0 \/ i = 1)%nat by lia.
    by case=> ->; vm_compute.
  + exists (fun k => List.nth k [:: 3; -3; 27; -27] 0); split=> k Hk.
      have : (k = 1 \/ k = 2 \/ k = 3)%nat by lia.
      by case=> [|[]] ->; vm_compute.
    have : (k = 1 \/ k = 2 \/ k = 3)%nat by lia.
    by case=> [|[]] ->; vm_compute.
- by split=> //; repeat constructor.
- by case=> [|[|[|[|[|i]]]]]; vm_compute.
- move=> k Hk; have : (k = 1 \/ k = 2 \/ k = 3)%nat by lia.
  by case=> [|[]] ->; vm_compute.
Qed.

(** C14 *)
Theorem C14_charpoly_frob : forall p degree dim eps P prec M, frob_input p degree dim eps P prec M ->
  (if Nat.even dim then eps = 1 \/ exists i, detects p degree dim prec P i else eps = 1) ->
  charpoly_frob M prec p dim = OK P.
Proof. exact frob_right. Qed.
Print Assumptions C14_charpoly_frob.

Example C14_ex : charpoly_frob M3 [:: 5; 5; 5; 5] 3 2 = OK P3.
Proof.
apply: (C14_charpoly_frob M3_input); right; exists 1%nat; split; first by lia.
split; first by lia.
by split; case=> x; [change (-9 = x * 243 -> False)|change (3 = x * 243 -> False)]; lia.
Qed.

Lemma frob_iff p degree dim eps P prec M : frob_input p degree dim eps P prec M -> Nat.even dim = true ->
  (charpoly_frob M prec p dim = OK P <-> (eps = 1 \/ exists i, detects p degree dim prec P i)).
Proof.
move=> F E; split; last by move=> G; apply: (frob_right F); rewrite E.
have [-> [L C]] := frob_hyp F; case: F => Hp Ho Hd W Sh Ln Hpr He _ R.
have SL := @sign_list degree prec _ Hd Ln L.
have De := @detects_dec p degree dim eps P prec _ Hp Hd W Ln L Hpr C _ (fun i => proj1 (SL i)).
have [G|G] := Z.eq_dec eps 1; first by left.
case: De => D.
- by right; case: D => i [_ D]; exists i.
- exfalso; apply: (@wrong_sign p degree dim eps P prec _ Hp Ho Hd W Ln L Hpr C He _ E R).
  case=> // -[i Di]; apply: D; exists i; split=> //; apply/SL; by case: Di => ? [].
Qed.

(** C15: in even dimension the result is right exactly if the sign is +1 or
    visible in one of the middle coefficients; otherwise it is silently wrong *)
Theorem C15_sign_exactly_when : forall p degree dim eps P prec M,
  frob_input p degree dim eps P prec M -> Nat.even dim = true ->
  (charpoly_frob M prec p dim = OK P <-> (eps = 1 \/ exists i, detects p degree dim prec P i)).
Proof. exact frob_iff. Qed.
Print Assumptions C15_sign_exactly_when.

(** T^2 - 9: all hypotheses hold, the sign is -1, and the answer is T^2 + 9 *)
Definition M2 : mat := [:: [:: 3; 0]; [:: 0; -3]].
Lemma M2_input : frob_input 3 2 2 (-1) [:: -9; 0; 1] [:: 5; 5; 5] M2.
Proof.
apply: frob_input_exact; try reflexivity; try lia.
- split=> //; first by right.
  + move=> i Hi; have : (i = 0 \/ i = 1)%nat by lia.
    by case=> ->; vm_compute.
  + exists (fun k => List.nth k [:: 0; 0; 18] 0); split=> k Hk.
      have : (k = 1 \/ k = 2)%nat by lia.
      by case=> ->; vm_compute.
    have : (k = 1 \/ k = 2)%nat by lia.
    by case=> ->; vm_compute.
- by split=> //; repeat constructor.
- by case=> [|[|[|[|i]]]]; vm_compute.
- move=> k Hk; have : (k = 1 \/ k = 2)%nat by lia.
  by case=> ->; vm_compute.
Qed.

Theorem C15_sign_refuted :
  ~ (forall p degree dim eps P prec M, frob_input p degree dim eps P prec M ->
       Nat.even dim = true -> charpoly_frob M prec p dim = OK P) /\
  charpoly_frob M2 [:: 5; 5; 5] 3 2 = OK [:: 9; 0; 1].
Proof.
split; last by vm_compute.
move/(_ _ _ _ _ _ _ _ M2_input erefl); by vm_compute.
Qed.
Print Assumptions C15_sign_refuted.
