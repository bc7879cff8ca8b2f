(** The parallel loop over the columns in compute_reduction_matrix_ND,
    dr_nd.cc 907-1057.  All columns write to the same map [result]; the accesses
    are in critical sections (1022-1034, 1042-1054).  A step below is one
    statement result[key][row][col] += x with the lookup before it, including the
    creation of a missing entry; a critical section is a run of such steps, so
    the schedules of critical sections are among the schedules below.
    Everything else a column touches is local to it or only read. *)
From Coq Require Import ZArith List Bool.
From Verif Require Import Base VecModel ToolsModel MatModel DRModel NDModel.
Import ListNotations.
Open Scope Z_scope.

Definition rupdate : Type := vec * (nat * nat * Z).

(** dr_nd.cc 900-904 and, for each column, the accesses in 1022-1034 and
    1042-1054 in program order *)
Definition column_updates (slv : solver) (N : dND) (v : vec) : res (list (list rupdate)) :=
  let D := nd_dr N in
  solves <- nd_solves slv D ;;
  top <- get_solve_ND slv D (top_ND D) ;;
  mapM (fun cb =>
      us <- nd_column N solves top v (snd cb) ;;
      OK (map (fun u => (fst u, (fst (snd u), fst cb, snd (snd u)))) us))
    (combine (seq 0 (length (nd_basis N))) (nd_basis N)).

(** dr_nd.cc 907-1057: [cs_result] is *result, [cs_todo] what each column has
    still to do *)
Record cstate := mk_cstate { cs_result : vmap mat; cs_todo : list (list rupdate) }.
Definition col_step (q : Z) (dp : nat) (i : nat) (s : cstate) : cstate :=
  match nth_error (cs_todo s) i with
  | Some (u :: rest) => mk_cstate (radd q dp (cs_result s) u) (upd (cs_todo s) i rest)
  | _ => s
  end.
Definition col_run (q : Z) (dp : nat) (sched : list nat) (s : cstate) : cstate :=
  fold_left (fun s i => col_step q dp i s) sched s.
Definition col_done (s : cstate) : bool := forallb (fun t => Nat.eqb (length t) 0) (cs_todo s).
(** dr_nd.cc 1058-1069: after the loop *)
Definition col_result (s : cstate) : vmap mat :=
  filter (fun kM => negb (mat_is_zero (snd kM))) (cs_result s).
