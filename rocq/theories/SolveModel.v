(** Model of solve_system/solve_system.cc and dr/isSmooth.cc.

    nmod_mat_lu / NTL gauss and the matrix inverses of FLINT and NTL are
    arguments: [ech p m n A] = (rank, matrix overwritten in place) and
    [inv p m Y].  What they are required to satisfy is in SolveSpec.v. *)
From Coq Require Import ZArith List Bool.
From Verif Require Import Base VecModel ToolsModel MatModel DRModel MpzSpec.
Import ListNotations.
Open Scope Z_scope.

Definition ech_fun : Type := Z -> nat -> nat -> mat -> nat * mat.
Definition inv_fun : Type := Z -> nat -> mat -> mat.

(** solve_system.cc 73-76 and 232-235: while(entry(i,j) == 0 and j < ncols) j++.
    The entry is read before the bound is tested. *)
Fixpoint scan_pivot (fuel : nat) (row : list Z) (ncols j : nat) : res nat :=
  match nth_error row j with
  | None => Err EUB
  | Some x =>
      if (x =? 0) && Nat.ltb j ncols
      then match fuel with O => Err EFuel | S fuel => scan_pivot fuel row ncols (S j) end
      else OK j
  end.
(** 70-79 and 229-238; reading a row past the end is undefined *)
Definition pivot_scan (M : mat) (ncols rank : nat) : res (list nat) :=
  st <- foldM (fun (st : nat * list nat) i =>
      row <- get_at M (Z.of_nat i) ;;
      c <- scan_pivot (ncols + 1) row ncols (fst st) ;;
      OK (S c, snd st ++ [c])) (seq 0 rank) (O, []) ;;
  OK (snd st).

(** B[position] = j; position++ for a vector of length len *)
Definition push_B (len : nat) (B : list nat) (j : nat) : res (list nat) :=
  if Nat.ltb (length B) len then OK (B ++ [j]) else Err EUB.
(** 109-114 and 265-270: while(j < nrows and entry(i,j) == 0) *)
Fixpoint scan_zero (fuel : nat) (row : list Z) (nrows len : nat) (B : list nat) (j : nat) : res (nat * list nat) :=
  if Nat.ltb j nrows then
    match nth_error row j with
    | None => Err EUB
    | Some x =>
        if x =? 0 then
          match fuel with
          | O => Err EFuel
          | S fuel => B <- push_B len B j ;; scan_zero fuel row nrows len B (S j)
          end
        else OK (j, B)
    end
  else OK (j, B).
(** 103-121 and 259-277.  B has length nrows - rank; slots never written are
    shown as 0. *)
Definition B_scan (M : mat) (nrows ncols rank : nat) : res (list nat) :=
  let len := (nrows - rank)%nat in
  st <- foldM (fun (st : nat * list nat) i =>
      row <- get_at M (Z.of_nat i) ;;
      st <- scan_zero (nrows + 1) row nrows len (snd st) (fst st) ;;
      OK (S (fst st), snd st)) (seq 0 ncols) (O, []) ;;
  B <- foldM (push_B len) (seq (fst st) (nrows - fst st)) (snd st) ;;
  OK (B ++ repeat O (len - length B)).

(** U's row [pos] = row; 144-148, 153-157, 295-299, 304-308 *)
Definition put_row (U : mat) (pos : nat) (row : list Z) : res mat :=
  if Nat.ltb pos (length U) then OK (upd U pos row) else Err EUB.

(** solve_system_zz_p_flint 13-160 (rank_check: the assertion of line 100) and
    solve_system_zz_p_NTL 176-310.  The matrix Y of 84-93, 123-128 is given
    entry by entry. *)
Definition solve_zz_p (ech : ech_fun) (inv : inv_fun) (rank_check : bool) (p : Z) (ncols : nat) (T : mat)
  : res (list nat * mat) :=
  let nrows := length T in
  if Nat.eqb ncols 0 then OK (seq 0 nrows, tab nrows nrows (fun i j => if Nat.eqb i j then 1 else 0))
  else
    let '(rank, M) := ech p nrows ncols T in
    pc <- pivot_scan M ncols rank ;;
    let '(rank', M') := ech p ncols nrows (transpose nrows ncols T) in
    _ <- check (implb rank_check (Nat.eqb rank' (length pc))) EAssert ;;
    B <- B_scan M' nrows ncols rank' ;;
    let Y := tab nrows nrows (fun j i => if Nat.leb rank' i && Nat.eqb (nth (i - rank') B O) j then 1
                                         else if Nat.ltb i rank then mget T j (nth i pc O) else 0) in
    let Z := inv p nrows Y in
    U <- foldM (fun U i => put_row U (nth i pc O) (nth i Z [])) (seq 0 rank') (mzero (ncols + nrows - rank') nrows) ;;
    U <- foldM (fun U i => put_row U (ncols - rank' + i) (nth i Z [])) (seq rank' (nrows - rank')) U ;;
    OK (B, U).

Definition reduce_mat (q : Z) (T : mat) : mat := map (map (fun x => x mod q)) T.
(** conversion of an m x n matrix entry by entry (conv.h; 407, 473, 539-547) *)
Definition conv_mat (q : Z) (m n : nat) (U : mat) : mat := tab m n (fun i j => mget U i j mod q).

(** X = (T | unit vectors): 363-376, 420-434, 525-537 *)
Definition extended (nrows ncols : nat) (T : mat) (B : list nat) : mat :=
  tab nrows (ncols + length B) (fun i j => if Nat.ltb j ncols then mget T i j
                                           else if Nat.eqb (nth (j - ncols) B O) i then 1 else 0).

(** U = 2U - U(XU), every product and sum reduced modulo q (q = 0: integers):
    401-404, 459-462, 556-559 *)
Definition newton (q : Z) (m k : nat) (X U : mat) : mat :=
  let XU := tab m m (fun i j => sumf (fun a => mget X i a * mget U a j) (seq 0 k) mod q) in
  let UXU := tab k m (fun i j => sumf (fun a => mget U i a * mget XU a j) (seq 0 m) mod q) in
  let U2 := tab k m (fun i j => (mget U i j * 2) mod q) in
  tab k m (fun i j => (mget U2 i j - mget UXU i j) mod q).

(** 397-406 and 548-567: j doubles until it reaches the precision *)
Fixpoint lift_loop (fuel : nat) (q : Z) (m k : nat) (X : mat) (precision j : Z) (U : mat) : res mat :=
  if j <? precision then
    match fuel with
    | O => Err EFuel
    | S fuel => lift_loop fuel q m k X precision (j * 2) (newton q m k X U)
    end
  else OK U.
(** 455-472: over the integers, reduced modulo p^(2^i) except after the last step *)
Fixpoint lift_loop_Z (fuel : nat) (m k : nat) (X : mat) (precision j modulus : Z) (U : mat) : res mat :=
  if j <? precision then
    match fuel with
    | O => Err EFuel
    | S fuel =>
        let U := newton 0 m k X U in
        let j := j * 2 in
        if j <? precision
        then lift_loop_Z fuel m k X precision j (modulus * modulus) (reduce_mat (modulus * modulus) U)
        else lift_loop_Z fuel m k X precision j modulus U
    end
  else OK U.

(** U.SetDims(n, n) on an existing matrix keeps its entries if the number of
    columns is the same; then the diagonal is set (344-351, 502-509) *)
Definition set_dims_diag (n : nat) (U0 : mat) : mat :=
  tab n n (fun i j => if Nat.eqb i j then 1
                      else if Nat.eqb (length (nth O U0 [])) n then mget U0 i j else 0).

(** 331-483: the word-size branch is taken if conv<ulong>(modulus) equals it *)
Definition solve_padic_flint (lu : ech_fun) (inv : inv_fun) (p q precision : Z) (U0 : mat) (ncols : nat) (T : mat)
  : res (list nat * mat) :=
  let nrows := length T in
  if Nat.eqb ncols 0 then OK (seq 0 nrows, set_dims_diag nrows U0)
  else
    BU <- solve_zz_p lu inv true p ncols (reduce_mat p T) ;;
    let B := fst BU in
    let k := (ncols + length B)%nat in
    let X := extended nrows ncols T B in
    if q mod 2 ^ 64 =? q then
      U <- lift_loop (Z.to_nat precision) q nrows k X precision 1 (snd BU) ;;
      OK (B, conv_mat q k nrows U)
    else
      U <- lift_loop_Z (Z.to_nat precision) nrows k X precision 1 p (snd BU) ;;
      OK (B, conv_mat q k nrows U).

(** 486-568; solve_system_zz_p is called with its default flint = true *)
Definition solve_padic_NTL (lu : ech_fun) (inv : inv_fun) (p q precision : Z) (U0 : mat) (ncols : nat) (T : mat)
  : res (list nat * mat) :=
  let nrows := length T in
  if Nat.eqb ncols 0 then OK (seq 0 nrows, set_dims_diag nrows U0)
  else
    BU <- solve_zz_p lu inv true p ncols (reduce_mat p T) ;;
    let B := fst BU in
    let k := (ncols + length B)%nat in
    let X := extended nrows ncols T B in
    U <- lift_loop (Z.to_nat precision) q nrows k X precision 1 (conv_mat q k nrows (snd BU)) ;;
    OK (B, U).

(** dispatcher 570-576 *)
Definition solve_padic (lu : ech_fun) (inv : inv_fun) (p q precision : Z) (flint : bool) (U0 : mat) (ncols : nat) (T : mat)
  : res (list nat * mat) :=
  if flint then solve_padic_flint lu inv p q precision U0 ncols T
  else solve_padic_NTL lu inv p q precision U0 ncols T.

(** the solver used by the de Rham classes (dr/get_solve_J.cc 28,
    dr_nd/dr_nd.cc 374: fresh B and U, default flint = true) *)
Definition padic_solver (lu : ech_fun) (inv : inv_fun) (p q precision : Z) : solver :=
  fun ncols T => solve_padic lu inv p q precision true [] ncols T.

(** dr/isSmooth.cc 6-57 *)
Definition is_smooth (lu : ech_fun) (p q : Z) (f : poly) : res bool :=
  match f with
  | [] => Err EUB
  | (a0, _) :: _ =>
      let n := (length a0 - 1)%nat in
      let d := zsum a0 in
      tl <- init_tuples n d ;;
      let D := mk_dR p 1 q n d f tl (map tuple_index tl) [] [] in
      cM <- matrix_J D ((d - 2) * (Z.of_nat n + 1) + 1) ;;
      OK (Nat.eqb (length (snd cM)) (fst (lu p (length (snd cM)) (fst cM) (reduce_mat p (snd cM)))))
  end.
