(** Model of tools/geometric_picard.cc.
    Polynomials (fmpz_poly_t) are lists of coefficients, constant one first,
    without trailing zeros.  [x k] is the double k/(log(k)/log(2) + 1).
    [cyc] is fmpz_poly_cyclotomic, [factor] is fmpz_poly_factor_zassenhaus (the
    list of fac->p + i, fac->exp[i]). *)
From Coq Require Import ZArith QArith List Bool.
From Verif Require Import Base VecModel ToolsModel MatModel.
Import ListNotations.
Open Scope Z_scope.

Definition fpoly := list Z.

(** fmpz_poly_degree; -1 for the zero polynomial *)
Definition fdeg (f : fpoly) : Z := Z.of_nat (length f) - 1.

(** fmpz_poly_equal *)
Fixpoint feqb (f g : fpoly) : bool :=
  match f, g with
  | [], [] => true
  | a :: f, b :: g => (a =? b) && feqb f g
  | _, _ => false
  end.

(** geometric_picard.cc 51, 91: the condition of both loops *)
Definition loop_cond (x : Z -> Q) (k deg : Z) : bool := Qle_bool (x k) (inject_Z deg).

(** geometric_picard.cc 33-47, the coefficients from the i-th on, pp = p^i; None
    if a remainder is not zero *)
Fixpoint unscale_from (p pp : Z) (cs : list Z) : option (list Z) :=
  match cs with
  | [] => Some []
  | c :: cs =>
      if c mod pp =? 0 then
        match unscale_from p (pp * p) cs with Some r => Some (c / pp :: r) | None => None end
      else None
  end.

(** geometric_picard.cc 32-47: T -> T/p; the constant coefficient is not touched *)
Definition unscale (p : Z) (f : fpoly) : option fpoly :=
  match f with
  | [] => Some []
  | c :: cs => match unscale_from p p cs with Some r => Some (c :: r) | None => None end
  end.

(** geometric_picard.cc 50-63 *)
Fixpoint cyc_loop (fuel : nat) (x : Z -> Q) (cyclo : list fpoly) (g : fpoly) (deg k : Z) : res Z :=
  match fuel with
  | O => Err EFuel
  | S fuel =>
      if loop_cond x k deg then
        e <- get_at cyclo k ;;
        if feqb g e then OK deg else cyc_loop fuel x cyclo g deg (k + 1)
      else OK 0
  end.

(** geometric_picard.cc 22-68: number_of_roots_of_unity(cyclo, f, p).  The loop
    reads cyclo[k] in every iteration, so length + 1 iterations are enough. *)
Definition number_of_roots_of_unity (x : Z -> Q) (cyclo : list fpoly) (f : fpoly) (p : Z) : res Z :=
  match unscale p f with
  | None => OK 0
  | Some g => cyc_loop (S (length cyclo)) x cyclo g (fdeg f) 1
  end.

(** geometric_picard.cc 90-94 *)
Fixpoint table_size (fuel : nat) (x : Z -> Q) (max_degree N : Z) : res Z :=
  match fuel with
  | O => Err EFuel
  | S fuel => if loop_cond x N max_degree then table_size fuel x max_degree (N + 1) else OK N
  end.

(** fmpz_poly_set_coeff_fmpz normalises *)
Fixpoint fnorm (f : list Z) : fpoly :=
  match f with
  | [] => []
  | c :: f => match fnorm f with [] => if c =? 0 then [] else [c] | g => c :: g end
  end.

(** geometric_picard.cc 70-113: geometric_picard(charpoly_frob, p, dimension) *)
Definition geometric_picard (fuel : nat) (x : Z -> Q) (cyc : Z -> fpoly) (factor : fpoly -> list (fpoly * Z))
    (charpoly_frob : list Z) (p dimension : Z) : res Z :=
  let fac := factor (fnorm (rev charpoly_frob)) in
  let max_degree := fold_left (fun m ge => Z.max m (fdeg (fst ge))) fac 0 in
  N <- table_size fuel x max_degree 1 ;;
  let cyclo := map cyc (zseq 0 N) in
  count <- foldM (fun count ge => r <- number_of_roots_of_unity x cyclo (fst ge) p ;; OK (count + snd ge * r)) fac 0 ;;
  let count := if Z.rem dimension 2 =? 0 then count + 1 else count in
  _ <- check (negb (dimension =? 2) || (Z.rem (Z.of_nat (length charpoly_frob)) 2 =? Z.rem count 2)) EAssert ;;
  OK count.
