(** Specification of the reduction of differential forms, independent of the
    code.

    A form (m-1)! x^a Omega / f^m is represented only through the linear
    functionals that vanish on exact forms.  [phi m a] is the value of such a
    functional on (m-1)! x^a Omega / f^m; that it vanishes on exact forms is the
    Griffiths-Dwork relation [GD]: for every monomial x^h,
      m! x^h (df/dx_i) Omega / f^(m+1)  ~  (m-1)! (d x^h/dx_i) Omega / f^m.
    Two combinations of forms on which all functionals agree (with values in
    Z/q) represent the same class modulo q. *)
From Coq Require Import ZArith List.
From Verif Require Import Base VecSpec ToolsSpec.
Import ListNotations.
Open Scope Z_scope.

(** pointwise operations on exponents *)
Fixpoint eplus (a b : list Z) : list Z :=
  match a, b with x :: a, y :: b => (x + y) :: eplus a b | _, _ => [] end.
Fixpoint eminus (a : list Z) (i : nat) : list Z :=      (* a - e_i *)
  match a, i with
  | [], _ => []
  | x :: a, O => (x - 1) :: a
  | x :: a, S i => x :: eminus a i
  end.
Definition epred (a : list Z) : list Z := map (fun x => x - 1) a.   (* a - (1,..,1) *)
Definition positive (a : list Z) : bool := forallb (fun x => 0 <? x) a.

(** coefficient of x^e in a sparse polynomial *)
Definition coef (f : list (list Z * Z)) (e : list Z) : Z :=
  sumf (fun t => if list_eq_dec Z.eq_dec (fst t) e then snd t else 0) f.

(** phi_m kills exact forms (f homogeneous of degree d in n+1 variables);
    the sum is phi_(m+1) (x^h df/dx_i) *)
Definition GD (q : Z) (n : nat) (d : Z) (f : list (list Z * Z)) (phi : Z -> list Z -> Z) : Prop :=
  forall m i h, (i <= n)%nat -> is_tuple (S n) (d * m - Z.of_nat n) h ->
    cong q (sumf (fun t => nth i (fst t) 0 * snd t * phi (m + 1) (eminus (eplus h (fst t)) i)) f)
           (nth i h 0 * phi m (eminus h i)).

(** value of the functional on (m-1)! x^w Omega / (x0...xn f^m); exponents that
    are not all positive do not define a form and never count *)
Definition phi_div (phi : Z -> list Z -> Z) (m : Z) (w : list Z) : Z :=
  if positive w then phi m (epred w) else 0.

(** value on (m-1)! x^u G Omega / (x0...xn f^m), G a vector of coefficients
    indexed by [ms] *)
Definition ev (phi : Z -> list Z -> Z) (m : Z) (u : list Z) (ms : list (list Z)) (G : list Z) : Z :=
  sumf (fun c => nth c G 0 * phi_div phi m (eplus u (nth c ms []))) (seq 0 (length ms)).

(** value on (m-1)! H Omega / f^m, H a vector of coefficients indexed by [ms] *)
Definition ev_poly (phi : Z -> list Z -> Z) (m : Z) (ms : list (list Z)) (H : list Z) : Z :=
  sumf (fun c => nth c H 0 * phi m (nth c ms [])) (seq 0 (length ms)).

(** value on the combination of basis elements x^b Omega / f^(m_b) with
    coordinates F, where psi b is the value on x^b Omega / f^(m_b) *)
Definition ev_basis (psi : list Z -> Z) (bs : list (list Z)) (F : list Z) : Z :=
  sumf (fun i => nth i F 0 * psi (nth i bs [])) (seq 0 (length bs)).

(** pole order of the basis element x^b Omega / f^m : m d = |b| + n + 1 *)
Definition pole_of (n : nat) (d : Z) (b : list Z) : Z := (zsum b + Z.of_nat n + 1) / d.

Definition basis_val (q : Z) (n : nat) (d : Z) (bs : list (list Z))
    (phi : Z -> list Z -> Z) (psi : list Z -> Z) : Prop :=
  forall b, In b bs -> cong q (phi (pole_of n d b) b) (zfact (pole_of n d b - 1) * psi b).

(** [B] and [U] solve the system T (r rows, c columns): B is a strictly
    increasing list of rows, and (T | unit vectors e_b, b in B) U = identity *)
Definition solves (q : Z) (r c : nat) (T : nat -> nat -> Z) (B : list nat) (U : nat -> nat -> Z) : Prop :=
  (forall i j, (i < j < length B)%nat -> (nth i B O < nth j B O)%nat) /\
  (forall b, In b B -> (b < r)%nat) /\
  forall i j, (i < r)%nat -> (j < r)%nat ->
    cong q (sumf (fun k => T i k * U k j) (seq 0 c) +
            sumf (fun k => if Nat.eqb (nth k B O) i then U (c + k)%nat j else 0) (seq 0 (length B)))
           (if Nat.eqb i j then 1 else 0).

(** vectors congruent entry by entry *)
Definition vcong (q : Z) (a b : list Z) : Prop :=
  length a = length b /\ forall i, (i < length a)%nat -> cong q (nth i a 0) (nth i b 0).

(** coefficient of x^t in x^s (df/dx_i) *)
Definition coef_dx (f : list (list Z * Z)) (i : nat) (s t : list Z) : Z :=
  sumf (fun ac => if list_eq_dec Z.eq_dec (eminus (eplus s (fst ac)) i) t
                  then nth i (fst ac) 0 * snd ac else 0) f.
