(** Specification for the non-degenerate routines, independent of the code.

    [Phi w] is the value of a functional on the form
      (m-1)! x^w Omega / (x0...xn f^m),  m = |w|/d.
    That it vanishes on exact logarithmic forms is the relation [LGD]: for every
    exponent w and every i,
      m! x^w (x_i df/dx_i) Omega / (x0...xn f^(m+1)) ~ (m-1)! w_i x^w Omega / (x0...xn f^m). *)
From Coq Require Import ZArith List.
From Verif Require Import Base VecSpec ToolsSpec DRSpec.
Import ListNotations.
Open Scope Z_scope.

(** the relations for all exponents w >= u (entry by entry) whose sum is a
    multiple of d *)
Definition LGD (q : Z) (n : nat) (d : Z) (f : list (list Z * Z)) (u : list Z) (Phi : list Z -> Z) : Prop :=
  forall i w, (i <= n)%nat -> length w = S n -> (d | zsum w) ->
    (forall k, (k <= n)%nat -> nth k u 0 <= nth k w 0) ->
    cong q (sumf (fun t => nth i (fst t) 0 * snd t * Phi (eplus w (fst t))) f)
           (nth i w 0 * Phi w).

(** value on x^u G / (x0...xn): G a vector of coefficients indexed by the
    monomials [bs] *)
Definition ev_ND (Phi : list Z -> Z) (u : list Z) (bs : list (list Z)) (G : list Z) : Z :=
  sumf (fun c => nth c G 0 * Phi (eplus u (nth c bs []))) (seq 0 (length bs)).

(** coefficient of x^t in x^s x_i df/dx_i *)
Definition coef_xdx (f : list (list Z * Z)) (i : nat) (s t : list Z) : Z :=
  sumf (fun ac => if list_eq_dec Z.eq_dec (eplus s (fst ac)) t
                  then nth i (fst ac) 0 * snd ac else 0) f.

(** the functional on logarithmic forms given by one on forms with poles along
    f only; exponents that are not all positive do not define such a form *)
Definition log_of (d : Z) (phi : Z -> list Z -> Z) (w : list Z) : Z :=
  phi_div phi (zsum w / d) w.
