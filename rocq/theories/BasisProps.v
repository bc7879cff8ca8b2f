(** Properties C22, C23: statements only. *)
From Coq Require Import ZArith List Lia.
From Verif Require Import Base VecModel VecSpec ToolsModel ToolsSpec MatModel MatProofs DRModel DRSpec DRProofs
  DRRed DRStep DRFinal DRPath DRLemmas.
Import ListNotations.
Open Scope Z_scope.

(** C22, inclusion: x^u G with |u| = n becomes a polynomial of degree dn-n-1 *)
Theorem C22_inclusion_preserves_class : forall slv q p prec f D,
  init slv q p prec f = OK D -> wf_poly (r_n D) (r_d D) f -> (1 <= r_n D)%nat ->
  forall u, length u = S (r_n D) -> zsum u = Z.of_nat (r_n D) ->
  forall ms hs, get_at (r_tl D) (degG D) = OK ms -> get_at (r_tl D) (degG D - 1) = OK hs ->
  forall phi G, length G = length ms ->
  exists M w, get_inclusion_matrix_J D u = OK M /\ shape M (length hs) (length ms) /\
    mat_vec q M G = OK w /\ length w = length hs /\
    cong q (ev_poly phi (Z.of_nat (r_n D)) hs w) (ev phi (Z.of_nat (r_n D)) u ms G).
Proof.
  intros slv q p prec f D H W Hn u Hl Hs ms hs Hm Hh. destruct (init_inv _ _ _ _ _ _ H W) as (inv & <- & _).
  pose proof (inv_nd _ _ inv) as ND.
  rewrite (inv_tl _ _ inv) in Hm, Hh by (unfold degG; nia). injection Hm as <-. injection Hh as <-.
  exact (inclusion_class slv D inv Hn u Hl Hs).
Qed.
Print Assumptions C22_inclusion_preserves_class.

(** C22, final reduction: forms of pole order k <= n in terms of the basis *)
Theorem C22_final_reduction_preserves_class : forall slv q p prec f D,
  init slv q p prec f = OK D -> wf_poly (r_n D) (r_d D) f -> solver_ok q slv -> 2 <= q ->
  forall k, 1 <= k <= Z.of_nat (r_n D) ->
  forall ms, get_at (r_tl D) (k * r_d D - (Z.of_nat (r_n D) + 1)) = OK ms ->
  exists M, get_final_reduction_matrix_J slv D k = OK M /\ shape M (length (r_basis D)) (length ms) /\
    forall H, length H = length ms -> exists w, mat_vec q M H = OK w /\ length w = length (r_basis D) /\
    forall phi psi, GD q (r_n D) (r_d D) f phi -> basis_val q (r_n D) (r_d D) (r_basis D) phi psi ->
      cong q (ev_basis psi (r_basis D) w) (ev_poly phi k ms H).
Proof.
  intros slv q p prec f D H W. destruct (init_inv _ _ _ _ _ _ H W) as (inv & <- & <-).
  intros Hs Hq k Hk ms Hm. pose proof (inv_nd _ _ inv) as ND.
  rewrite (inv_tl _ _ inv) in Hm by nia. injection Hm as <-.
  exact (final_class_all slv D inv Hs Hq k Hk).
Qed.
Print Assumptions C22_final_reduction_preserves_class.

(** the basis consists of distinct monomials of degrees k d - (n+1), k = 1..n *)
Theorem C22_basis_wellformed : forall slv q p prec f D,
  init slv q p prec f = OK D -> wf_poly (r_n D) (r_d D) f -> solver_ok q slv ->
  NoDup (r_basis D) /\
  forall b, In b (r_basis D) -> exists k, 1 <= k <= Z.of_nat (r_n D) /\
    is_tuple (S (r_n D)) (k * r_d D - (Z.of_nat (r_n D) + 1)) b /\
    exists j, dget (r_bdict D) b = OK j /\ nth_error (r_basis D) j = Some b.
Proof.
  intros slv q p prec f D H W. destruct (init_inv _ _ _ _ _ _ H W) as (inv & <- & _).
  intros Hs. split; [exact (basis_NoDup slv D inv Hs)|]. intros b Hb.
  destruct (basis_elem slv D inv Hs b Hb) as (i & Hi & Ht).
  exists (i + 1). split; [lia|]. split; [exact Ht|].
  destruct (bdict_ok slv D inv Hs b Hb) as (j & J1 & J2 & J3). exists j. split; auto.
  rewrite <- J3. now apply nth_error_nth'.
Qed.
Print Assumptions C22_basis_wellformed.

(** C23: any monomial form with positive exponents *)
Theorem C23_monomial_to_basis : forall slv q p prec f D,
  init slv q p prec f = OK D -> wf_poly (r_n D) (r_d D) f -> solver_ok q slv -> 2 <= q -> (1 <= r_n D)%nat ->
  forall u m, length u = S (r_n D) -> (forall i, (i <= r_n D)%nat -> 0 < nth i u 0) -> zsum u = m * r_d D ->
  exists F, monomial_to_basis_J slv D u = OK F /\ length F = length (r_basis D) /\
    forall phi psi, GD q (r_n D) (r_d D) f phi -> basis_val q (r_n D) (r_d D) (r_basis D) phi psi ->
      cong q (ev_basis psi (r_basis D) F) (phi m (epred u)).
Proof.
  intros slv q p prec f D H W. destruct (init_inv _ _ _ _ _ _ H W) as (inv & <- & <-).
  exact (mtb_ok slv D inv).
Qed.
Print Assumptions C23_monomial_to_basis.

(** the conic: one basis element (x^0, pole order 1) with psi = 1; the form
    3! x0^4 x1^2 Omega / f^4 has coordinate 3!!*1!!/2^3 = 3/8 = 6 mod 9 *)
Example C23_ex : r_basis ex_D = [[0; 0]] /\ basis_val 9 1 2 (r_basis ex_D) ex_phi (fun _ => 1) /\
  monomial_to_basis_J ex_slv ex_D [5; 3] = OK [6] /\ ex_phi 4 [4; 2] mod 9 = 6.
Proof.
  split; [vm_compute; reflexivity|]. split.
  - change (r_basis ex_D) with [[0; 0]]. intros b [<-|[]]. vm_compute. now exists 0.
  - split; vm_compute; reflexivity.
Qed.
Example C22_ex : get_final_reduction_matrix_J ex_slv ex_D 1 = OK [[1]] /\
  get_inclusion_matrix_J ex_D [1; 0] = OK [[1; 0]].
Proof. split; vm_compute; reflexivity. Qed.
