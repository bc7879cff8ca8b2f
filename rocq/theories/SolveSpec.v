(** What FLINT and NTL document about LU decomposition, Gaussian elimination and
    inverses, and the meaning of smoothness. *)
From Coq Require Import ZArith List Permutation.
From Verif Require Import Base MatModel MatProofs ToolsSpec DRSpec LinAlg.
Import ListNotations.
Open Scope Z_scope.

Definition mreduced (p : Z) (A : mat) : Prop := Forall (Forall (fun x => 0 <= x < p)) A.

(** nmod_mat_lu(P, A, 0): "computes a generalised LU decomposition PA = LU of a
    given matrix A, returning the rank of A.  If A is an arbitrary matrix of rank
    r, U will be in row echelon form having r nonzero rows, and L will be lower
    triangular but truncated to r columns, having implicit ones on the r first
    entries of the main diagonal.  All other entries will be zero." *)
Definition lu_result (p : Z) (m n : nat) (A : mat) (r : nat) (S : mat) : Prop :=
  shape S m n /\ mreduced p S /\ (r <= m)%nat /\
  exists (P : list nat) (c : list nat),
    Permutation P (seq 0 m) /\
    let L := fun i j => if Nat.ltb j i then mget S i j else if Nat.eqb j i then 1 else 0 in
    let U := fun i j => if Nat.leb i j then mget S i j else 0 in
    echelon p r n c U /\
    (forall i j, (r <= i < m)%nat -> (r <= j < n)%nat -> mget S i j = 0) /\
    forall i j, (i < m)%nat -> (j < n)%nat -> cong p (mget A (nth i P O) j) (mm r L U i j).

(** gauss(M): "performs unitary row operations so as to bring M into row echelon
    form; returns the rank" *)
Definition gauss_result (p : Z) (m n : nat) (A : mat) (r : nat) (S : mat) : Prop :=
  shape S m n /\ mreduced p S /\ (r <= m)%nat /\
  exists (G G' : nat -> nat -> Z) (c : list nat),
    mmeq p m m (mm m G G') delta /\ mmeq p m m (mm m G' G) delta /\
    mmeq p m n (mget S) (mm m G (mget A)) /\
    echelon p r n c (mget S) /\
    (forall i j, (r <= i < m)%nat -> (j < n)%nat -> mget S i j = 0).

Definition ech_spec (p : Z) (ech : Z -> nat -> nat -> mat -> nat * mat) : Prop :=
  (forall m n A, shape A m n -> mreduced p A -> lu_result p m n A (fst (ech p m n A)) (snd (ech p m n A))) \/
  (forall m n A, shape A m n -> mreduced p A -> gauss_result p m n A (fst (ech p m n A)) (snd (ech p m n A))).

(** nmod_mat_inv / inv: the inverse of an invertible matrix *)
Definition inv_spec (p : Z) (inv : Z -> nat -> mat -> mat) : Prop :=
  forall m Y, shape Y m m -> mreduced p Y -> (exists W, mmeq p m m (mm m (mget Y) W) delta) ->
    shape (inv p m Y) m m /\ mreduced p (inv p m Y) /\ mmeq p m m (mm m (mget Y) (mget (inv p m Y))) delta.

(** no non-trivial combination of the unit vectors e_b, b in B, is in the image
    of T modulo p *)
Definition independent (p : Z) (m n : nat) (T : nat -> nat -> Z) (B : list nat) : Prop :=
  forall x b : nat -> Z,
    (forall i, (i < m)%nat -> cong p (sumf (fun k => T i k * x k) (seq 0 n))
                                     (sumf (fun k => if Nat.eqb (nth k B O) i then b k else 0) (seq 0 (length B)))) ->
    forall k, (k < length B)%nat -> cong p (b k) 0.

(** the form with coefficients G of degree l is in the ideal of the partial
    derivatives of f (homogeneous of degree d in n+1 variables) modulo p *)
Definition in_jacobian (p : Z) (n : nat) (d : Z) (f : list (list Z * Z)) (l : Z) (G : list Z -> Z) : Prop :=
  exists h : nat -> list Z -> Z, forall t, is_tuple (S n) l t ->
    cong p (G t) (sumf (fun i => sumf (fun s => h i s * coef_dx f i s t) (enum (S n) (Z.to_nat (l - (d - 1))))) (seq 0 (S n))).
