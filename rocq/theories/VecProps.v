(** Properties C01 and C08. *)
From Coq Require Import ZArith List Lia.
From Verif Require Import Base VecModel VecSpec VecProofs.
Import ListNotations.
Open Scope Z_scope.

(** C01: operator< is the lexicographic order ... *)
Theorem C01_less_is_lexicographic : forall a b : list Z,
  length a = length b -> a <> [] ->
  exists r, vec_less a b = OK r /\ (r = true <-> lex_lt a b).
Proof. exact vec_less_lex. Qed.
Print Assumptions C01_less_is_lexicographic.

Example C01_ex : vec_less [1; 2; 3] [1; 3; 0] = OK true /\ vec_less [1; 3; 0] [1; 2; 3] = OK false.
Proof. split; reflexivity. Qed.

(** ... a strict total order on vectors of a fixed positive length ... *)
Theorem C01_strict_total_order : forall n : nat, (0 < n)%nat ->
  (forall a, length a = n -> vec_less a a = OK false) /\
  (forall a b c, length a = n -> length b = n -> length c = n ->
     vec_less a b = OK true -> vec_less b c = OK true -> vec_less a c = OK true) /\
  (forall a b, length a = n -> length b = n ->
     (vec_less a b = OK true /\ a <> b /\ vec_less b a = OK false) \/
     (vec_less a b = OK false /\ a = b /\ vec_less b a = OK false) \/
     (vec_less a b = OK false /\ a <> b /\ vec_less b a = OK true)).
Proof. exact vec_less_strict_total. Qed.
Print Assumptions C01_strict_total_order.

(** ... outside its contract it is an error (different lengths) or undefined
    (length zero) ... *)
Theorem C01_outside_contract : forall a b : list Z,
  (length a <> length b -> vec_less a b = Err EAbort) /\ vec_less [] [] = Err EUB.
Proof. exact vec_less_outside. Qed.
Print Assumptions C01_outside_contract.

(** ... hence a map keyed by monomials returns, after any history of writes and
    deletions (newest first), the last value written. *)
Theorem C01_map_history : forall (V : Type) (n : nat) (h : list (mop (list Z) V)),
  Forall (fun o => length (mop_key o) = n) h ->
  let m := fold_right (fun o m => run_op m o) [] h in
  vsorted n m /\
  forall k, length k = n -> vfind k m = last_write vec_eq_dec h k.
Proof. exact @run_ops_find. Qed.
Print Assumptions C01_map_history.

Example C01_map_ex :
  let h := [Put [1; 2] 7; Del [2; 1]; Put [0; 3] 5; Put [2; 1] 4; Put [1; 2] 1] in
  Forall (fun o => length (mop_key o) = 2%nat) h /\
  vfind [1; 2] (fold_right (fun o m => run_op m o) [] h) = Some 7 /\
  vfind [2; 1] (fold_right (fun o m => run_op m o) [] h) = None.
Proof. repeat split; repeat constructor. Qed.

(** C08: tweak removes r units, from the left, and nothing else *)
Theorem C08_tweak : forall v r, nonneg v -> 0 <= r ->
  exists w, tweak v r = OK w /\ length w = length v /\ nonneg w /\
    zsum w = zsum v - Z.min r (zsum v) /\
    (forall i, nth i w 0 <= nth i v 0) /\
    (forall i, removed_before v w i = Z.min r (zsum (firstn i v))).
Proof. exact tweak_ok. Qed.
Print Assumptions C08_tweak.

Example C08_tweak_ex : tweak [2; 0; 5] 3 = OK [0; 0; 4].
Proof. reflexivity. Qed.

Theorem C08_tweak_add : forall a b r w, length a = length b -> nonneg a -> nonneg b -> 0 <= r ->
  tweak b r = OK w -> (forall i, 0 < nth i a 0 -> 0 < nth i w 0) ->
  tweak (vadd a b) r = OK (vadd a w).
Proof. exact tweak_add. Qed.
Print Assumptions C08_tweak_add.

Example C08_tweak_add_ex :
  tweak [2; 0; 5] 3 = OK [0; 0; 4] /\ tweak (vadd [0; 0; 9] [2; 0; 5]) 3 = OK (vadd [0; 0; 9] [0; 0; 4]).
Proof. split; reflexivity. Qed.

(** a negative count never terminates *)
Theorem C08_tweak_negative_diverges : forall v r, r < 0 -> tweak v r = Err EFuel.
Proof. exact tweak_neg. Qed.
Print Assumptions C08_tweak_negative_diverges.

Theorem C08_diff : forall v i, (i < length v)%nat ->
  (0 < nth i v 0 -> exists w, vec_diff v i = OK w /\ length w = length v /\
      nth i w 0 = nth i v 0 - 1 /\ forall j, j <> i -> nth j w 0 = nth j v 0) /\
  (nth i v 0 <= 0 -> vec_diff v i = Err EAssert).
Proof. exact vec_diff_ok. Qed.
Print Assumptions C08_diff.

Example C08_diff_ex : vec_diff [2; 1; 5] 1 = OK [2; 0; 5] /\ vec_diff [2; 0; 5] 1 = Err EAssert.
Proof. split; reflexivity. Qed.
