(** Model of the parallel loop of dr/compute_reduction_matrix_J.cc 55-106: the
    iterations run concurrently and each "M[k][row][col] += x" is a load into a
    register of the thread followed later by a store. *)
From Coq Require Import ZArith List Bool.
From Verif Require Import Base VecModel MatModel DRModel.
Import ListNotations.
Open Scope Z_scope.

(** dr/compute_reduction_matrix_J.cc 101-102: the two memory accesses of += *)
Inductive pev :=
| PLoad (k r c : nat)
| PStore (k r c : nat) (x : Z).

(** the accesses of one iteration, whose updates are [ups] (red_column) *)
Definition accesses (ups : list (nat * (nat * nat * Z))) : list pev :=
  flat_map (fun u => let '(k, (r, c, x)) := u in [PLoad k r c; PStore k r c x]) ups.

Definition get3 (Ms : list mat) (k r c : nat) : Z := mget (nth k Ms []) r c.

(** shared matrices, one register per iteration, remaining accesses of every
    iteration; dr/compute_reduction_matrix_J.cc 57-106 *)
Record pstate := mk_pstate { ps_M : list mat; ps_reg : list Z; ps_todo : list (list pev) }.

Definition par_step (q : Z) (i : nat) (s : pstate) : pstate :=
  match nth_error (ps_todo s) i with
  | Some (PLoad k r c :: rest) =>
      mk_pstate (ps_M s) (upd (ps_reg s) i (get3 (ps_M s) k r c)) (upd (ps_todo s) i rest)
  | Some (PStore k r c x :: rest) =>
      mk_pstate (upd (ps_M s) k (mset (nth k (ps_M s) []) r c ((nth i (ps_reg s) 0 + x) mod q)))
        (ps_reg s) (upd (ps_todo s) i rest)
  | _ => s
  end.

(** a schedule lists which iteration makes the next access *)
Definition par_run (q : Z) (sched : list nat) (s : pstate) : pstate :=
  fold_left (fun s i => par_step q i s) sched s.

Definition par_done (s : pstate) : Prop := Forall (fun l => l = []) (ps_todo s).

(** dr/compute_reduction_matrix_J.cc 45-53: M[0..n+1] of size g x g, zero *)
Definition par_start (n g : nat) (ups : list (list (nat * (nat * nat * Z)))) : pstate :=
  mk_pstate (repeat (mzero g g) (S (S n))) (repeat 0 (length ups)) (map accesses ups).
