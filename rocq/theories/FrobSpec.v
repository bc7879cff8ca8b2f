(** Specification of the Frobenius routines, independent of the code. *)
From Coq Require Import ZArith List.
From Verif Require Import Base VecSpec ToolsSpec DRSpec.
Import ListNotations.
Open Scope Z_scope.

(** D_{j,m} = sum_{i=j}^{N-1} (-1)^j C(m+i-1, m-1) C(i, j) *)
Definition D_coef (m N j : Z) : Z :=
  sumf (fun i => (-1) ^ j * (choose (Z.to_nat (m + i - 1)) (Z.to_nat (m - 1)) *
                             choose (Z.to_nat i) (Z.to_nat j))) (zseq j N).

(** exponent of x^(p(u+b+1)-1) *)
Definition frob_mono (p : Z) (b u : list Z) : list Z := map (fun x => p * (x + 1) - 1) (eplus u b).

(** sum over all monomials u of f^j of (coefficient of x^u in f^j) * w u *)
Fixpoint pow_sum (n : nat) (f : list (list Z * Z)) (j : nat) (w : list Z -> Z) : Z :=
  match j with
  | O => w (repeat 0 (S n))
  | S j => sumf (fun t => snd t * pow_sum n f j (fun u => w (eplus u (fst t)))) f
  end.

(** the truncated Frobenius series: value of a functional on
    sum_{j<N} (P-1)! D_{j,m} f^j(x^p) x^(p(b+1)-1) Omega / f^(p(m+j)),
    where P = p(m+N-1); phi_k(a) is the value on (k-1)! x^a Omega / f^k *)
Definition frob_series (phi : Z -> list Z -> Z) (n : nat) (f : list (list Z * Z)) (p m N : Z) (b : list Z) : Z :=
  sumf (fun j => D_coef m N j * zprod (zseq (p * (m + j)) (p * (m + N - 1))) *
                 pow_sum n f (Z.to_nat j) (fun u => phi (p * (m + j)) (frob_mono p b u))) (zseq 0 N).

(** value at t of the polynomial with coefficients R (constant term first) *)
Definition poly1 (R : list Z) (t : Z) : Z :=
  sumf (fun i => nth i R 0 * t ^ Z.of_nat i) (seq 0 (length R)).

(** directions: v picks d units from w, one at least wherever w is positive *)
Definition good_dir (d : Z) (w v : list Z) : Prop :=
  length v = length w /\ zsum v = d /\
  forall i, (i < length w)%nat -> 0 <= nth i v 0 <= nth i w 0 /\ (0 < nth i w 0 -> 0 < nth i v 0).
