(** Points with coordinates in an arbitrary field: what it means that a polynomial
    has a singular point.  Independent of the model. *)
From Coq Require Import ZArith List Setoid Ring_theory.
Import ListNotations.
Open Scope Z_scope.

(** A field, with its own equality.  The last axiom says that a non-zero element
    cannot fail to have an inverse; with the law of excluded middle this is the
    usual axiom. *)
Record fld := mk_fld {
  car : Type; feq : car -> car -> Prop; f0 : car; f1 : car;
  fadd : car -> car -> car; fmul : car -> car -> car; fopp : car -> car;
  feq_equiv : Equivalence feq;
  fadd_ext : forall a a' b b', feq a a' -> feq b b' -> feq (fadd a b) (fadd a' b');
  fmul_ext : forall a a' b b', feq a a' -> feq b b' -> feq (fmul a b) (fmul a' b');
  fopp_ext : forall a a', feq a a' -> feq (fopp a) (fopp a');
  f_ring : ring_theory f0 f1 fadd fmul (fun a b => fadd a (fopp b)) fopp feq;
  f_one : ~ feq f1 f0;
  f_inv : forall a, ~ feq a f0 -> ~ ~ exists b, feq (fmul a b) f1 }.
(** every non-zero element has an inverse *)
Definition has_inverses (F : fld) : Prop := forall a, ~ feq F a (f0 F) -> exists b, feq F (fmul F a b) (f1 F).

(** an integer, a power, a monomial and a polynomial with integer coefficients (a
    list of exponents and coefficients) in a field *)
Definition fofZ (F : fld) (z : Z) : car F :=
  let pos k := Nat.iter (Pos.to_nat k) (fadd F (f1 F)) (f0 F) in
  match z with Z0 => f0 F | Zpos k => pos k | Zneg k => fopp F (pos k) end.
Definition fpow (F : fld) (a : car F) (k : nat) : car F := Nat.iter k (fmul F a) (f1 F).
Fixpoint fmono (F : fld) (x : list (car F)) (e : list Z) : car F :=
  match x, e with
  | a :: x, k :: e => fmul F (fpow F a (Z.to_nat k)) (fmono F x e)
  | _, _ => f1 F
  end.
Fixpoint feval (F : fld) (g : list (list Z * Z)) (x : list (car F)) : car F :=
  match g with
  | [] => f0 F
  | (e, c) :: g => fadd F (fmul F (fofZ F c) (fmono F x e)) (feval F g x)
  end.

(** the exponents with the i-th lowered by one *)
Fixpoint lower (e : list Z) (i : nat) : list Z :=
  match e, i with
  | [], _ => []
  | k :: e, O => (k - 1) :: e
  | k :: e, S i => k :: lower e i
  end.
(** df/dx_i and x_i df/dx_i, term by term *)
Definition partial (f : list (list Z * Z)) (i : nat) : list (list Z * Z) := map (fun t => (lower (fst t) i, nth i (fst t) 0 * snd t)) f.
Definition log_partial (f : list (list Z * Z)) (i : nat) : list (list Z * Z) := map (fun t => (fst t, nth i (fst t) 0 * snd t)) f.

(** x, not zero, is a common zero of the polynomials gs 0, ..., gs n in n+1 variables *)
Definition common_zero (F : fld) (n : nat) (gs : nat -> list (list Z * Z)) (x : list (car F)) : Prop :=
  length x = S n /\ (exists i, (i <= n)%nat /\ ~ feq F (nth i x (f0 F)) (f0 F)) /\ forall i, (i <= n)%nat -> feq F (feval F (gs i) x) (f0 F).
(** there is none with coordinates in any field of characteristic p *)
Definition no_common_zero (p : Z) (n : nat) (gs : nat -> list (list Z * Z)) : Prop :=
  forall F, feq F (fofZ F p) (f0 F) -> forall x, ~ common_zero F n gs x.
(** a singular point of the hypersurface f = 0, with coordinates in F *)
Definition singular_point (F : fld) (n : nat) (f : list (list Z * Z)) (x : list (car F)) : Prop :=
  common_zero F n (partial f) x /\ feq F (feval F f x) (f0 F).
