(** Model of /repo/vec_int64.h, /repo/vec_int64/*.cc and of the std::map
    containers keyed by exponent vectors. *)
From Coq Require Import ZArith List Bool.
From Verif Require Import Base.
Import ListNotations.
Open Scope Z_scope.

(** Vec<int64_t> is [list Z].  64-bit overflow of exponents is not modelled. *)
Notation vec := (list Z).

(** vec_int64.h 28-40, loop and final comparison of operator<:
    all entries but the last decide by > / <, the last one by <. *)
Fixpoint vltb (a b : vec) : bool :=
  match a, b with
  | [x], [y] => x <? y
  | x :: a', y :: b' => if y <? x then false else if x <? y then true else vltb a' b'
  | _, _ => false
  end.

(** vec_int64.h 28-40, operator<: NTL::Error on a length mismatch; for length 0
    the final comparison reads a[-1] (undefined behaviour). *)
Definition vec_less (a b : vec) : res bool :=
  if negb (Nat.eqb (length a) (length b)) then Err EAbort
  else match a with
       | [] => Err EUB
       | _ => OK (vltb a b)
       end.

(** vec_int64.h 43-49: c * v *)
Definition vscale (c : Z) (v : vec) : vec := map (fun x => c * x) v.

Fixpoint map2 {A B C} (f : A -> B -> C) (l1 : list A) (l2 : list B) : list C :=
  match l1, l2 with
  | x :: r1, y :: r2 => f x y :: map2 f r1 r2
  | _, _ => []
  end.

(** vec_int64.h 52-59: v + w for equal lengths (the assert is [vec_add]) *)
Definition vadd (v w : vec) : vec := map2 Z.add v w.
(** vec_int64.h 61-68: v - w *)
Definition vsub (v w : vec) : vec := map2 Z.sub v w.
(** vec_int64.h 71-77: dot product *)
Definition vdot (v w : vec) : Z := zsum (map2 Z.mul v w).
(** vec_int64.h 81-88: A * v *)
Definition vmatvec (A : list vec) (v : vec) : vec := map (fun r => vdot r v) A.

(** vec_int64.h 52-59 with its assertion *)
Definition vec_add (v w : vec) : res vec :=
  if Nat.eqb (length v) (length w) then OK (vadd v w) else Err EAssert.
(** vec_int64.h 61-68 with its assertion *)
Definition vec_sub (v w : vec) : res vec :=
  if Nat.eqb (length v) (length w) then OK (vsub v w) else Err EAssert.

(** vec_int64/diff.cc 13-18: assert r[i] > 0, then decrement.
    An index out of range is undefined behaviour. *)
Definition vec_diff (v : vec) (i : nat) : res vec :=
  if Nat.ltb i (length v)
  then if 0 <? nth i v 0 then OK (upd v i (nth i v 0 - 1)) else Err EAssert
  else Err EUB.

(** vec_int64/tweak_step.cc 12-22: decrement the first positive entry *)
Fixpoint tweak_step (v : vec) : vec :=
  match v with
  | [] => []
  | x :: r => if 0 <? x then (x - 1) :: r else x :: tweak_step r
  end.

(** vec_int64/tweak.cc 11-19: r applications of tweak_step; the C++ recursion
    on r only stops at r == 0, so a negative r never terminates ([EFuel]). *)
Fixpoint tweak_n (v : vec) (r : nat) : vec :=
  match r with
  | O => v
  | S r => tweak_n (tweak_step v) r
  end.
Definition tweak (v : vec) (r : Z) : res vec :=
  if r <? 0 then Err EFuel else OK (tweak_n v (Z.to_nat r)).

(** ** std::map as a sorted association list (used throughout /repo).
    Key equivalence is, as in std::map, neither k < k' nor k' < k. *)
Section MAP.
  Context {K V : Type}.
  Variable ltb : K -> K -> bool.

  (** m[k] = v *)
  Fixpoint minsert (k : K) (v : V) (m : list (K * V)) : list (K * V) :=
    match m with
    | [] => [(k, v)]
    | (k', v') :: r =>
        if ltb k k' then (k, v) :: m
        else if ltb k' k then (k', v') :: minsert k v r
        else (k', v) :: r
    end.

  (** m.find(k) *)
  Fixpoint mfind (k : K) (m : list (K * V)) : option V :=
    match m with
    | [] => None
    | (k', v') :: r =>
        if ltb k k' then None
        else if ltb k' k then mfind k r
        else Some v'
    end.

  (** m.erase(k) *)
  Fixpoint merase (k : K) (m : list (K * V)) : list (K * V) :=
    match m with
    | [] => []
    | (k', v') :: r =>
        if ltb k k' then m
        else if ltb k' k then (k', v') :: merase k r
        else r
    end.
End MAP.

(** map< Vec<int64_t>, V, vi64less > (vec_int64.h 20-26) *)
Definition vmap (V : Type) := list (vec * V).
Definition vinsert {V} : vec -> V -> vmap V -> vmap V := minsert vltb.
Definition vfind {V} : vec -> vmap V -> option V := mfind vltb.
Definition verase {V} : vec -> vmap V -> vmap V := merase vltb.

(** "find; if absent insert x else += x" - the accumulation idiom used in
    tools.h 98-103, 110-116, change_of_variables_monomial.cc 49-55,
    compute_fpow.cc 40-49. *)
Definition vaccum (plus : Z -> Z -> Z) (k : vec) (x : Z) (m : vmap Z) : vmap Z :=
  match vfind k m with
  | None => vinsert k x m
  | Some y => vinsert k (plus y x) m
  end.
