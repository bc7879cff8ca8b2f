(** Properties C16 and C43. *)
From Coq Require Import ZArith List Bool Lia Znumtheory.
From Verif Require Import Base VecModel ToolsModel ToolsSpec ToolsProofs MatModel MatProofs CharModel CharSpec CharProofs ArgsModel ArgsProofs ZetaModel ZetaProofs.
From mathcomp Require ssrnat.
From Verif Require Import CharMC CharProps.
Import ListNotations.
Open Scope Z_scope.

(** C16: for every p >= 3 and every supported (n, d) the table has n entries in
    N, dim H + 1 precisions, all non-negative, and after the symmetry step the
    precision test of charpoly_frob holds for every k *)
Theorem C16_table_consistent : forall p n d prec N cprec, 3 <= p ->
  default_args p n d = OK (prec, N, cprec) ->
  1 <= prec /\ Z.of_nat (length N) = n /\ Z.of_nat (length cprec) = dim_H n d + 1 /\
  (forall x, In x N -> 0 <= x) /\ (forall x, In x cprec -> 0 <= x) /\
  enough p (length cprec - 1) (Z.to_nat (n - 1)) cprec.
Proof. intros p n d prec N cprec Hp E. exact (default_args_ok p n d _ Hp E). Qed.
Print Assumptions C16_table_consistent.

(** every plane curve of degree 3..9 and every surface of degree 4..6 is
    supported, for every p *)
Theorem C16_supported : forall p n d, (exists a, default_args p n d = OK a) <->
  (n = 2 /\ 3 <= d <= 9) \/ (n = 3 /\ 4 <= d <= 6).
Proof.
  intros p n d. split.
  - intros (a & E). apply default_args_cases in E. repeat destruct E as [E|E]; destruct E as (-> & -> & _); lia.
  - intros H. assert (C : (n = 2 /\ (d = 3 \/ d = 4 \/ d = 5 \/ d = 6 \/ d = 7 \/ d = 8 \/ d = 9)) \/ (n = 3 /\ (d = 4 \/ d = 5 \/ d = 6))) by lia.
    destruct C as [[-> C]|[-> C]]; repeat destruct C as [C|C]; subst d; eexists; reflexivity.
Qed.
Print Assumptions C16_supported.

(** with the table's precisions the answer is unambiguous *)
Theorem C16_lift_unambiguous : forall p n d prec N cprec degree eps P M, 3 <= p -> Z.odd p = true ->
  default_args p n d = OK (prec, N, cprec) -> Z.of_nat degree = dim_H n d ->
  weil p degree (Z.to_nat (n - 1)) eps P -> shape M degree degree ->
  (forall i, (i <= degree)%nat -> (p ^ nth i cprec 0 | nth i P 0 - nth i (char_coefs degree M) 0)) ->
  eps = 1 ->
  charpoly_frob M cprec p (Z.to_nat (n - 1)) = OK P.
Proof.
  intros p n d prec N cprec degree eps P M Hp Ho D Hd W Sh Hc He.
  destruct (default_args_ok p n d _ Hp D) as (R1 & R2 & R3 & R4 & R5 & R6).
  assert (Ld : (length cprec - 1 = degree)%nat) by lia. rewrite Ld in R6.
  assert (D1 : (1 <= degree)%nat).
  { apply default_args_cases in D. repeat destruct D as [D|D]; destruct D as (-> & -> & _); match type of Hd with _ = ?r => let v := eval vm_compute in r in change r with v in Hd end; lia. }
  apply (C14_charpoly_frob (degree := degree) (eps := eps)).
  - split; auto; [lia| |].
    + intros i. destruct (Nat.lt_ge_cases i (length cprec)); [apply R5, nth_In; auto|rewrite nth_overflow; lia].
    + intros i Hi. specialize (Hc i Hi). unfold char_coefs in Hc. rewrite nth_coefs in Hc; auto.
      clear -Hi. destruct (@ssrnat.leP i degree); [reflexivity|contradiction].
  - destruct (Nat.even _); auto.
Qed.
Print Assumptions C16_lift_unambiguous.

Example C16_ex : default_args 1000003 3 4 = OK (4, [3; 3; 2], [22; 21; 20; 19; 18; 17; 16; 15; 14; 13; 12; 11; 10; 9; 8; 7; 6; 5; 4; 3; 2; 2]) /\
  dim_H 3 4 = 21 /\ dim_H 2 3 = 2.
Proof. repeat split. Qed.

(** C43: the precision logic.  [rel_new] is the relative precision required of
    column k, [covers p pr k r N] says that pr is at least
    r + max(0, v_p((p(k+N)-1)!) - k). *)
Theorem C43_precision_logic : forall p n d abs increase prec N cprec,
  prime p -> 3 <= p -> 0 < abs -> default_args p n d = OK (prec, N, cprec) ->
  exists prec' N' lift m,
    In m (map (rel_new increase n abs N) (seq 0 (Z.to_nat n))) /\
    (forall x, In x (map (rel_new increase n abs N) (seq 0 (Z.to_nat n))) -> x <= m) /\
    zeta_args p n d abs increase = (if p <? 2 * n + m then Err EAbort else OK (prec', N', cprec, lift)) /\
    abs <= prec' /\ Z.of_nat (length N') = n /\
    (forall k, (k < Z.to_nat n)%nat ->
       nth k N' 0 = (if increase then Z.max (nth k N 0) abs else if abs <=? n - 1 - Z.of_nat k then 0 else abs) /\
       (nth k N' 0 <> 0 -> covers p prec' (Z.of_nat k) (rel_new increase n abs N k) (nth k N' 0))) /\
    (increase = true -> lift = true /\ prec <= prec') /\
    (increase = false -> (lift = true <-> forall k, (k < Z.to_nat n)%nat -> nth k N 0 <= abs)).
Proof. intros. now apply zeta_args_ok. Qed.
Print Assumptions C43_precision_logic.

Example C43_ex : zeta_args 101 3 4 7 false = OK (13, [7; 7; 7], snd (args_3_4 101), true) /\
  zeta_args 101 3 4 2 false = OK (3, [0; 2; 2], snd (args_3_4 101), false) /\
  zeta_args 101 3 4 2 true = OK (4, [3; 3; 2], snd (args_3_4 101), true) /\
  zeta_args 7 3 4 7 true = Err EAbort.
Proof. repeat split; vm_compute; reflexivity. Qed.

(** without abs_precision the table is used as it is; in the range in which the
    option is supported its working precision obeys the same formula *)
Theorem C43_default : forall p n d abs increase prec N cprec,
  prime p -> 3 <= p -> default_args p n d = OK (prec, N, cprec) ->
  (abs <= 0 -> zeta_args p n d abs increase = OK (prec, N, cprec, true)) /\
  ((forall k, (k < Z.to_nat n)%nat -> 2 * n + (nth k N 0 + (Z.of_nat k + 1) - n) <= p) ->
   forall k, (k < Z.to_nat n)%nat -> nth k N 0 <> 0 ->
     covers p prec (Z.of_nat k) (nth k N 0 + (Z.of_nat k + 1) - n) (nth k N 0)).
Proof.
  intros p n d abs increase prec N cprec Pr Hp D. split.
  - intros H. unfold zeta_args. rewrite D. cbn [bind]. now destruct (Z.ltb_spec 0 abs); [lia|].
  - exact (table_prec_ok p n d _ Pr Hp D).
Qed.
Print Assumptions C43_default.
