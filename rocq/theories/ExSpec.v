(** The input files examples/frob.cc documents (45-50), and what its data mean;
    independent of the code. *)
From Coq Require Import ZArith List Ascii.
From Verif Require Import Base VecModel ToolsModel ToolsSpec MatModel DRModel DRSpec DRProofs ChangeSpec IoModel.
Import ListNotations.
Open Scope Z_scope.

Definition newline : text := [c_nl].
(** p, precision, n, d, f, N, absolute precision, separated by newlines; there is no
    newline after the last entry *)
Definition general_file (p prec n d : Z) (f N cprec : list Z) : text :=
  print_Z p ++ newline ++ print_Z prec ++ newline ++ print_Z n ++ newline ++ print_Z d ++ newline ++
  print_vec print_Z f ++ newline ++ print_vec print_Z N ++ newline ++ print_vec print_Z cprec.
(** p and f, for a quartic surface *)
Definition short_file (p : Z) (f : list Z) : text := print_Z p ++ newline ++ print_vec print_Z f.

(** v lists the coefficients of f at the monomials td *)
Definition lists (td : list vec) (v : list Z) (f : poly) : Prop :=
  length v = length td /\ forall j, (j < length td)%nat -> coef f (nth j td []) = nth j v 0.
