(** Independent specification of orders and finite maps. *)
From Coq Require Import ZArith List.
Import ListNotations.
Open Scope Z_scope.

(** lexicographic order, stated by the first difference *)
Definition lex_lt (a b : list Z) : Prop :=
  exists k, (k < length a)%nat /\ (k < length b)%nat /\
    (forall i, (i < k)%nat -> nth i a 0 = nth i b 0) /\ nth k a 0 < nth k b 0.

(** abstract content of a finite map: a partial function; two association
    lists represent the same map if they look up the same *)
Definition pointwise_upd {K V : Type} (eqd : forall a b : K, {a = b} + {a <> b})
  (F : K -> option V) (k : K) (v : option V) : K -> option V :=
  fun k' => if eqd k k' then v else F k'.

Definition nonneg (v : list Z) : Prop := Forall (fun x => 0 <= x) v.

(** a history of writes and deletions on a finite map, and what a lookup must
    return after it *)
Inductive mop (K V : Type) := Put (k : K) (v : V) | Del (k : K).
Arguments Put {K V}. Arguments Del {K V}.

Definition mop_key {K V} (o : mop K V) : K := match o with Put k _ => k | Del k => k end.

(** lookup in a history given newest-first *)
Fixpoint last_write {K V : Type} (eqd : forall a b : K, {a = b} + {a <> b})
  (h : list (mop K V)) (k : K) : option V :=
  match h with
  | [] => None
  | Put k' v :: h => if eqd k' k then Some v else last_write eqd h k
  | Del k' :: h => if eqd k' k then None else last_write eqd h k
  end.

(** amount removed from the first i entries *)
Definition removed_before (v w : list Z) (i : nat) : Z :=
  (fold_right Z.add 0 (firstn i v)) - (fold_right Z.add 0 (firstn i w)).
