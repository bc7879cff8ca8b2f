(** Property C54: the whole of zeta_function. *)
From Coq Require Import ZArith List Bool Lia Znumtheory.
From Verif Require Import Base VecModel VecSpec VecProofs ToolsModel ToolsSpec ToolsProofs PolyProofs MatModel MatProofs DRModel DRSpec DRProofs DRRed NDRed
  FrobModel FrobSpec FrobTop FrobProps NDModel NDSpec NDBasis FrobNDModel FrobND FrobNDTop FrobNDProps LinAlg SolveModel SolveSpec SolveProofs SmoothProofs
  LuInst LuFast ChangeModel ChangeSpec ChangeProofs ChangeFind ChangeProps ArgsModel ArgsProofs CharModel CharSpec CharProps ZetaModel ZetaProofs ZetaProps RunModel HilbCode HilbProps RunProofs.
Import ListNotations.
Open Scope Z_scope.

(** f is smooth modulo p: its partial derivatives have no common zero, in the
    form tested by isSmooth *)
Definition smooth (p : Z) (n : nat) (d : Z) (f : poly) : Prop :=
  forall G, in_jacobian p n d f ((d - 2) * (Z.of_nat n + 1) + 1) G.

(** the polynomial used in place of f: f modulo q, or f(Mx) modulo q with a matrix
    of determinant 1 modulo p that makes it non-degenerate *)
Definition chosen (p q : Z) (n : nat) (d : Z) (better : bool) (f g : poly) (nd : bool) : Prop :=
  (nd = true /\ non_degenerate p n d f /\ g = poly_mod q f) \/
  (nd = true /\ ~ non_degenerate p n d f /\ better = true /\ non_degenerate p n d g /\
     exists M, shape M (S n) (S n) /\ cong p (detf (S n) (mget M)) 1 /\ substitutes q f M g) \/
  (nd = false /\ ~ non_degenerate p n d f /\ g = poly_mod q f).

(** an unsupported (n, d) or an insufficient p aborts *)
Theorem C54_arguments : forall lu gauss inv det rnd n d f p abs increase better e,
  f <> [] -> wf_poly n d f -> zeta_args p (Z.of_nat n) d abs increase = Err e ->
  zeta_function lu gauss inv det rnd f p abs increase better = Err e.
Proof.
  intros lu gauss inv det rnd n d f p abs increase better e Hf W E. unfold zeta_function. destruct f as [|[a0 c0] f']; [congruence|].
  destruct (proj2 W a0 c0 (or_introl eq_refl)) as (A1 & A2 & A3). rewrite A1, A3. replace (S n - 1)%nat with n by lia. now rewrite E.
Qed.
Print Assumptions C54_arguments.

Section Run.
  Variables (lu gauss : ech_fun) (inv : inv_fun) (det : Z -> nat -> mat -> Z) (rnd : nat -> list mat * nat) (n : nat) (d : Z) (f : poly) (p abs : Z)
    (increase better : bool) (prec : Z) (N cprec : list Z) (lift : bool).
  Notation q := (p ^ prec).
  Notation slv := (padic_solver lu inv p q prec).
  Hypothesis Pp : prime p.
  Hypothesis p3 : 3 <= p.
  Hypothesis Ha : abs <= 28.
  Hypothesis HL : ech_spec p lu.
  Hypothesis HG : ech_spec p gauss.
  Hypothesis HI : inv_spec p inv.
  Hypothesis HD : det_spec p det.
  Hypothesis Hf : f <> [].
  Hypothesis W : wf_poly n d f.
  Hypothesis HA : zeta_args p (Z.of_nat n) d abs increase = OK (prec, N, cprec, lift).
  Hypothesis Hrnd : forall i, (snd (rnd i) < S n)%nat /\ Forall (fun A => shape A (S n) (S n) /\ mreduced p A) (fst (rnd i)) /\
    Exists (invertible p (S n)) (fst (rnd i)).

  Lemma run_unfold : zeta_function lu gauss inv det rnd f p abs increase better =
    (sm <- is_smooth lu p q (poly_mod p f) ;;
     _ <- check sm EAbort ;;
     gn <- pick_model lu gauss det p q rnd better (poly_mod p f) (poly_mod q f) ;;
     Frob <- frob_of slv q p prec n (fst gn) (snd gn) N cprec ;;
     cp <- zeta_finish p (Z.of_nat n) abs lift Frob cprec ;;
     OK (cp, Frob)).
  Proof.
    unfold zeta_function. destruct f as [|[a0 c0] f']; [congruence|].
    destruct (proj2 W a0 c0 (or_introl eq_refl)) as (A1 & A2 & A3). rewrite A1, A3. replace (S n - 1)%nat with n by lia. rewrite HA. reflexivity.
  Qed.

  Lemma run_cases :
    (~ smooth p n d f /\ zeta_function lu gauss inv det rnd f p abs increase better = Err EAbort) \/
    (smooth p n d f /\ exists g nd D, chosen p q n d better f g nd /\ wf_poly n d g /\ smooth p n d g /\ init slv q p prec g = OK D /\
       zlen (r_basis D) + 1 = zlen cprec /\
       (nd = false \/ words_fine slv q p prec n d g N ->
        exists r, matrix_result q p n d g (r_basis D) N r /\
          zeta_function lu gauss inv det rnd f p abs increase better =
            (Frob <- r ;; cp <- zeta_finish p (Z.of_nat n) abs lift Frob cprec ;; OK (cp, Frob)))).
  Proof.
    destruct (zeta_args_inv p _ d abs increase prec N cprec lift Pp p3 Ha HA) as (prec0 & N0 & HA0 & Hprec & LN & BN & D1 & D2 & D3 & D4).
    destruct (init_tuples_total n d D4) as (tl & Htl).
    assert (Hpq : (p | q)). { exists (p ^ (prec - 1)). rewrite <- (Z.pow_1_r p) at 3. rewrite <- Z.pow_add_r by lia. f_equal. lia. }
    rewrite run_unfold.
    destruct (is_smooth_ok p q lu (poly_mod p f) n d tl Pp Hpq HL (poly_mod_ne p f Hf) (poly_mod_wf p n d f W) ltac:(lia) Htl) as (b & Eb & Hb).
    assert (SM : smooth p n d f <-> b = true).
    { rewrite Hb. unfold smooth. split; apply smooth_pc; [apply pcong_sym|]; apply poly_mod_pc, Z.divide_refl. }
    rewrite Eb. cbn [bind]. destruct b.
    2:{ left. split; [|reflexivity]. intros X. apply SM in X. discriminate. }
    right. assert (S0 : smooth p n d f) by now apply SM. split; auto. cbn [check bind].
    destruct (pick_ok p q lu gauss det rnd n d tl f Pp Hpq HL HG HD ltac:(lia) Htl Hf W Hrnd better) as (g & nd & Eg & Wg & Ng & C).
    assert (SG : smooth p n d g).
    { destruct C as [(_ & _ & -> & _)|[(_ & _ & _ & _ & ND)|(_ & _ & ->)]].
      - exact (smooth_pc p n d f _ _ (pcong_sym p _ _ (poly_mod_pc p q f Hpq)) S0).
      - exact (proj1 (C53_nd_smooth p n d g tl Pp Ng Wg D2 ltac:(lia) Htl ND)).
      - exact (smooth_pc p n d f _ _ (pcong_sym p _ _ (poly_mod_pc p q f Hpq)) S0). }
    assert (ND : nd = true -> non_degenerate p n d g).
    { intros ->. destruct C as [(_ & _ & _ & X)|[(_ & _ & _ & _ & X)|(X & _)]]; auto. discriminate. }
    assert (CH : chosen p q n d better f g nd).
    { destruct C as [(C1 & C2 & C3 & _)|[(C1 & C2 & C3 & (M & M1 & M2 & M3) & C4)|C1]]; [left; auto|right; left|right; right; auto].
      repeat (split; [auto; fail|]). exists M. split; auto. split; auto.
      destruct (cov_pc q q 0 (Z.divide_refl q) (Z.divide_0_r q) (poly_mod q f) f M g (poly_mod_pc q q f (Z.divide_refl q)) M3) as (g0 & E0 & P0).
      exists g0. split; [exact P0|]. destruct M1 as (L1 & L2). rewrite Forall_forall in L2.
      destruct (change_of_variables_ok 0 f M) as (g1 & E1 & _ & V & _).
      - intros r Hr. rewrite L1. now apply L2.
      - intros k c Hk. rewrite L1. destruct (proj2 W k c Hk) as (K1 & K2 & _). auto.
      - rewrite E0 in E1. injection E1 as <-. intros x Hx. destruct (V x Hx) as [k Hk]. lia. }
    rewrite Eg. cbn [bind fst snd].
    assert (X : exists D, init slv q p prec g = OK D /\ zlen (r_basis D) + 1 = zlen cprec).
    { destruct (init_succeeds p prec lu inv n d g tl Pp Hprec HL HI Ng Wg D2 ltac:(lia) Htl ltac:(left; lia) SG) as (D & HDD & _). exists D. split; auto.
      apply (C53_table_length p prec lu inv n d g tl D prec0 N0 cprec); auto. }
    destruct X as (D & HDD & LD). exists g, nd, D. repeat (split; [assumption|]). intros WF.
    destruct (frob_of_ok p prec lu inv n d g N cprec prec0 N0 Pp p3 Hprec HL HI Ng Wg HA0 ltac:(lia) BN nd SG ND) as (D' & HD' & _ & MR).
    { intros ->. destruct WF as [WF|WF]; [discriminate|exact WF]. }
    rewrite HDD in HD'. injection HD' as <-. eexists. split; [exact MR|reflexivity].
  Qed.
End Run.

(** C54: f is rejected exactly when it is not smooth modulo p; otherwise both
    constructors' assertions and the assertion on the length of the basis hold for
    the polynomial g that is used, and the result is that of the last phase for a
    matrix whose columns are the images of the basis under Frobenius.  The only
    other outcome is a failed assertion in a division (and the last phase, C14). *)
Theorem C54_zeta_function : forall lu gauss inv det rnd n d f p abs increase better prec N cprec lift,
  prime p -> 3 <= p -> abs <= 28 -> ech_spec p lu -> ech_spec p gauss -> inv_spec p inv -> det_spec p det -> f <> [] -> wf_poly n d f ->
  zeta_args p (Z.of_nat n) d abs increase = OK (prec, N, cprec, lift) ->
  (forall i, (snd (rnd i) < S n)%nat /\ Forall (fun A => shape A (S n) (S n) /\ mreduced p A) (fst (rnd i)) /\
    Exists (invertible p (S n)) (fst (rnd i))) ->
  let q := p ^ prec in
  let slv := padic_solver lu inv p q prec in
  let run := zeta_function lu gauss inv det rnd f p abs increase better in
  (~ smooth p n d f /\ run = Err EAbort) \/
  (smooth p n d f /\ exists g nd D, chosen p q n d better f g nd /\ wf_poly n d g /\ smooth p n d g /\ init slv q p prec g = OK D /\
     zlen (r_basis D) + 1 = zlen cprec /\
     (nd = false \/ words_fine slv q p prec n d g N ->
      exists r, matrix_result q p n d g (r_basis D) N r /\
        run = (Frob <- r ;; cp <- zeta_finish p (Z.of_nat n) abs lift Frob cprec ;; OK (cp, Frob)))).
Proof. intros. apply run_cases; auto. Qed.
Print Assumptions C54_zeta_function.

(** the condition on the words holds for large moduli and for small p *)
Theorem C54_words : forall slv q p prec n d g N, 0 < q -> (p | q) -> wf_poly n d g ->
  2 ^ 64 <= q \/ p <= Z.of_nat n + 1 -> words_fine slv q p prec n d g N.
Proof.
  intros slv q p prec n d g N Q0 Hpq W H o Ho b Hb m.
  destruct (init_dims _ _ _ _ _ _ _ _ W (init_ND_dr _ _ _ _ _ _ Ho)) as (E1 & E2 & E3 & E4). unfold flint_fine. rewrite E1, E3, E4.
  destruct H as [H|H]; [left; exact H|]. right. left. split; [exact H|]. apply Z.divide_pos_le; auto.
Qed.
Print Assumptions C54_words.

(** if every matrix that represents Frobenius on the basis determines the polynomial
    P to the precisions of the table, then P is what is returned, unless an
    assertion fails *)
Theorem C54_result : forall lu gauss inv det rnd n d f p abs increase better prec N cprec P,
  prime p -> 3 <= p -> abs <= 28 -> ech_spec p lu -> ech_spec p gauss -> inv_spec p inv -> det_spec p det -> f <> [] -> wf_poly n d f ->
  zeta_args p (Z.of_nat n) d abs increase = OK (prec, N, cprec, true) ->
  (forall i, (snd (rnd i) < S n)%nat /\ Forall (fun A => shape A (S n) (S n) /\ mreduced p A) (fst (rnd i)) /\
    Exists (invertible p (S n)) (fst (rnd i))) ->
  smooth p n d f -> weil p (Z.to_nat (dim_H (Z.of_nat n) d)) (n - 1) 1 P ->
  let q := p ^ prec in
  let slv := padic_solver lu inv p q prec in
  let run := zeta_function lu gauss inv det rnd f p abs increase better in
  (forall g nd D M, chosen p q n d better f g nd -> init slv q p prec g = OK D ->
     (nd = true -> words_fine slv q p prec n d g N) /\
     (matrix_result q p n d g (r_basis D) N (OK M) ->
      forall i, (i < length P)%nat -> (p ^ nth i cprec 0 | nth i P 0 - nth i (char_coefs (length M) M) 0))) ->
  run = Err EAssert \/ exists M, run = OK (P, M).
Proof.
  intros lu gauss inv det rnd n d f p abs increase better prec N cprec P Pp p3 Ha HL HG HI HD Hf W HA Hrnd SM WP q slv run H.
  destruct (zeta_args_inv p _ d abs increase prec N cprec true Pp p3 Ha HA) as (prec0 & N0 & HA0 & Hprec & LN & BN & D1 & D2 & D3 & D4).
  destruct (C54_zeta_function lu gauss inv det rnd n d f p abs increase better prec N cprec true Pp p3 Ha HL HG HI HD Hf W HA Hrnd) as [(NS & _)|(_ & g & nd & D & C & _ & _ & ED & LB & R)]; [now destruct NS|].
  fold q slv run in C, ED, R. destruct (H g nd D [] C ED) as (WF & _).
  destruct R as (r & MR & ER); [destruct nd; auto|]. rewrite ER.
  destruct MR as [(M & -> & SH & CL)|(-> & _)]; [right|left; reflexivity]. exists M. cbn [bind].
  destruct (H g nd D M C ED) as (_ & HP). specialize (HP (or_introl (ex_intro _ M (conj eq_refl (conj SH CL))))).
  destruct (default_args_ok p _ d _ p3 HA0) as (_ & _ & L3 & _).
  assert (LM : length M = Z.to_nat (dim_H (Z.of_nat n) d)). { rewrite (proj1 SH). unfold zlen in LB. lia. }
  unfold zeta_finish.
  assert (Podd : Z.odd p = true). { destruct (Z.odd p) eqn:O; auto. exfalso. rewrite <- Z.negb_even in O. apply negb_false_iff in O. apply Z.even_spec in O. destruct O as (k & ->).
    destruct (prime_divisors (2 * k) Pp 2 ltac:(exists k; ring)) as [X|[X|[X|X]]]; lia. }
  rewrite (C16_lift_unambiguous p (Z.of_nat n) d prec0 N0 cprec (length M) 1 P M p3 Podd HA0); [reflexivity| | | | |reflexivity].
  - rewrite LM. rewrite Z2Nat.id; auto. unfold zlen in LB. lia.
  - rewrite LM. replace (Z.to_nat (Z.of_nat n - 1)) with (n - 1)%nat by lia. exact WP.
  - rewrite <- (proj1 SH) in SH. exact SH.
  - intros i Hi. apply HP. rewrite (weil_len _ _ _ _ _ WP). lia.
Qed.
Print Assumptions C54_result.

(** if the precision does not suffice for the lift, the coefficients returned are
    those of the characteristic polynomial of such a matrix, reduced modulo p^abs *)
Theorem C54_not_lifted : forall lu gauss inv det rnd n d f p abs increase better prec N cprec,
  prime p -> 3 <= p -> abs <= 28 -> ech_spec p lu -> ech_spec p gauss -> inv_spec p inv -> det_spec p det -> f <> [] -> wf_poly n d f ->
  zeta_args p (Z.of_nat n) d abs increase = OK (prec, N, cprec, false) ->
  (forall i, (snd (rnd i) < S n)%nat /\ Forall (fun A => shape A (S n) (S n) /\ mreduced p A) (fst (rnd i)) /\
    Exists (invertible p (S n)) (fst (rnd i))) ->
  smooth p n d f ->
  let q := p ^ prec in
  let slv := padic_solver lu inv p q prec in
  let run := zeta_function lu gauss inv det rnd f p abs increase better in
  (forall g nd D, chosen p q n d better f g nd -> init slv q p prec g = OK D -> nd = true -> words_fine slv q p prec n d g N) ->
  run = Err EAssert \/
  exists g nd D M cp, chosen p q n d better f g nd /\ init slv q p prec g = OK D /\ matrix_result q p n d g (r_basis D) N (OK M) /\
    run = OK (cp, M) /\ Z.of_nat (length M) = dim_H (Z.of_nat n) d /\ length cp = S (length M) /\
    forall i, (i <= length M)%nat -> 0 <= nth i cp 0 < p ^ abs /\ (p ^ abs | nth i cp 0 - nth i (char_coefs (length M) M) 0).
Proof.
  intros lu gauss inv det rnd n d f p abs increase better prec N cprec Pp p3 Ha HL HG HI HD Hf W HA Hrnd SM q slv run H.
  assert (A0 : 0 < abs). { destruct (Z_lt_le_dec 0 abs) as [A|A]; auto. unfold zeta_args in HA.
    destruct (default_args p (Z.of_nat n) d) as [[[a b] c]|e]; [|discriminate]. cbn [bind] in HA. destruct (Z.ltb_spec 0 abs); [lia|discriminate]. }
  destruct (zeta_args_inv p _ d abs increase prec N cprec false Pp p3 Ha HA) as (prec0 & N0 & HA0 & Hprec & LN & BN & D1 & D2 & D3 & D4).
  destruct (C54_zeta_function lu gauss inv det rnd n d f p abs increase better prec N cprec false Pp p3 Ha HL HG HI HD Hf W HA Hrnd) as [(NS & _)|(_ & g & nd & D & C & _ & _ & ED & LB & R)]; [now destruct NS|].
  fold q slv run in C, ED, R.
  destruct R as (r & MR & ER); [destruct nd; [right; exact (H g true D C ED eq_refl)|auto]|]. rewrite ER.
  assert (MR' := MR). destruct MR as [(M & -> & SH & CL)|(-> & _)]; [right|left; reflexivity].
  destruct (default_args_ok p _ d _ p3 HA0) as (_ & _ & L3 & _).
  assert (LM : Z.of_nat (length M) = dim_H (Z.of_nat n) d). { rewrite (proj1 SH). unfold zlen in LB. lia. }
  assert (L1 : (1 <= length M)%nat).
  { cut (0 < dim_H (Z.of_nat n) d); [lia|]. assert (Hn : Z.of_nat n = 2 \/ Z.of_nat n = 3) by lia.
    assert (Hd : d = 3 \/ d = 4 \/ d = 5 \/ d = 6 \/ d = 7 \/ d = 8 \/ d = 9) by lia.
    destruct Hn as [-> | ->]; destruct Hd as [->|[->|[->|[->|[->|[->| ->]]]]]]; vm_compute; reflexivity. }
  assert (SH' : shape M (length M) (length M)) by (rewrite <- (proj1 SH) in SH; exact SH).
  assert (LC : length (char_coefs (length M) M) = S (length M)) by (unfold char_coefs; rewrite map_length, seq_length; reflexivity).
  assert (Q0 : 0 < p ^ abs) by (apply Z.pow_pos_nonneg; lia).
  exists g, nd, D, M, (map (fun c => c mod p ^ abs) (char_coefs (length M) M)).
  split; [exact C|]. split; [exact ED|]. split; [exact MR'|]. cbn [bind]. unfold zeta_finish. rewrite (C13_charpoly L1 SH'). cbn [bind].
  split; [reflexivity|]. split; [exact LM|]. rewrite map_length. split; [exact LC|]. intros i Hi.
  rewrite nth_indep with (d' := 0 mod p ^ abs) by (rewrite map_length; lia).
  rewrite (map_nth (fun c => c mod p ^ abs)). split; [now apply Z.mod_pos_bound|].
  exists (- (nth i (char_coefs (length M) M) 0 / p ^ abs)). rewrite Z.mod_eq by lia. ring.
Qed.
Print Assumptions C54_not_lifted.

(** a prime that divides the degree is always refused, whatever f is: the rows of
    the table of default precisions with p <= d and p | d are never used *)
Theorem C54_prime_divides_degree : forall lu gauss inv det rnd n d f p abs increase better,
  prime p -> 3 <= p -> abs <= 28 -> ech_spec p lu -> ech_spec p gauss -> inv_spec p inv -> det_spec p det -> f <> [] -> wf_poly n d f ->
  (forall i, (snd (rnd i) < S n)%nat /\ Forall (fun A => shape A (S n) (S n) /\ mreduced p A) (fst (rnd i)) /\
    Exists (invertible p (S n)) (fst (rnd i))) ->
  (exists a, zeta_args p (Z.of_nat n) d abs increase = OK a) ->
  (p | d) -> zeta_function lu gauss inv det rnd f p abs increase better = Err EAbort.
Proof.
  intros lu gauss inv det rnd n d f p abs increase better Pp p3 Ha HL HG HI HD Hf W Hrnd ([[[prec N] cprec] lift] & HA) Hpd.
  destruct (zeta_args_inv p _ d abs increase prec N cprec lift Pp p3 Ha HA) as (prec0 & N0 & HA0 & Hprec & LN & BN & D1 & D2 & D3 & D4).
  destruct (init_tuples_total n d D4) as (tl & Htl).
  destruct (C54_zeta_function lu gauss inv det rnd n d f p abs increase better prec N cprec lift Pp p3 Ha HL HG HI HD Hf W HA Hrnd) as [(_ & E)|(SM & _)]; [exact E|].
  exfalso. destruct (init_succeeds p prec lu inv n d f tl Pp Hprec HL HI Hf W D2 ltac:(lia) Htl ltac:(left; lia) SM) as (D & E & _).
  now destruct (init_smooth p prec lu inv n d f tl Pp Hprec HL HI Hf W D2 ltac:(lia) Htl D E).
Qed.
Print Assumptions C54_prime_divides_degree.

(** ** a smooth cubic over F_3 that is refused *)

(** smooth in the usual sense: f and its partial derivatives have no common zero,
    in the form: every form of degree l is in the ideal they generate *)
Definition projectively_smooth (p : Z) (n : nat) (d : Z) (f : poly) (l : Z) : Prop :=
  forall G : vec -> Z, exists (h : nat -> vec -> Z) (h0 : vec -> Z), forall t, is_tuple (S n) l t ->
    cong p (G t)
      (sumf (fun i => sumf (fun s => h i s * coef_dx f i s t) (enum (S n) (Z.to_nat (l - (d - 1))))) (seq 0 (S n)) +
       sumf (fun s => h0 s * sumf (fun ac => if list_eq_dec Z.eq_dec (vadd s (fst ac)) t then snd ac else 0) f) (enum (S n) (Z.to_nat (l - d)))).

(** y^2 z - x^3 + x z^2 *)
Definition ec3 : poly := [([0; 2; 1], 1); ([1; 0; 2], 1); ([3; 0; 0], -1)].
(** the monomials of degree 4 as combinations; index 3 stands for f itself *)
Definition ec3_cert : list (vec * list (nat * vec * Z)) :=
  [([0;0;4], [((0%nat, [0;0;2]), 1)]);
   ([0;1;3], [((0%nat, [0;1;1]), 1)]);
   ([0;2;2], [((0%nat, [0;2;0]), 1)]);
   ([0;3;1], [((1%nat, [0;2;0]), 2)]);
   ([0;4;0], [((1%nat, [1;1;0]), 2); ((2%nat, [0;2;0]), 1)]);
   ([1;0;3], [((0%nat, [1;0;1]), 1)]);
   ([1;1;2], [((0%nat, [1;1;0]), 1)]);
   ([1;2;1], [((1%nat, [1;1;0]), 2)]);
   ([1;3;0], [((1%nat, [2;0;0]), 2); ((2%nat, [1;1;0]), 1)]);
   ([2;0;2], [((0%nat, [2;0;0]), 1)]);
   ([2;1;1], [((1%nat, [2;0;0]), 2)]);
   ([2;2;0], [((0%nat, [0;2;0]), 1); ((0%nat, [1;0;1]), 1); ((2%nat, [2;0;0]), 1); ((3%nat, [0;0;1]), 2)]);
   ([3;0;1], [((0%nat, [0;2;0]), 1); ((0%nat, [1;0;1]), 1); ((3%nat, [0;0;1]), 2)]);
   ([3;1;0], [((0%nat, [1;1;0]), 1); ((1%nat, [0;2;0]), 2); ((3%nat, [0;1;0]), 2)]);
   ([4;0;0], [((0%nat, [2;0;0]), 1); ((1%nat, [1;1;0]), 2); ((3%nat, [1;0;0]), 2)])].
Definition cert_h (es : list (nat * vec * Z)) (i : nat) (s : vec) : Z :=
  sumf (fun e => if Nat.eqb (fst (fst e)) i then if list_eq_dec Z.eq_dec (snd (fst e)) s then snd e else 0 else 0) es.
Definition cert_val (es : list (nat * vec * Z)) (t : vec) : Z :=
  sumf (fun i => sumf (fun s => cert_h es i s * coef_dx ec3 i s t) (enum 3 2)) (seq 0 3) +
  sumf (fun s => cert_h es 3 s * sumf (fun ac => if list_eq_dec Z.eq_dec (vadd s (fst ac)) t then snd ac else 0) ec3) (enum 3 1).
Lemma cert_check : forallb (fun e => forallb (fun t => (cert_val (snd e) t - (if list_eq_dec Z.eq_dec (fst e) t then 1 else 0)) mod 3 =? 0) (enum 3 4)) ec3_cert = true.
Proof. vm_compute. reflexivity. Qed.

Lemma ec3_smooth : projectively_smooth 3 2 3 ec3 4.
Proof.
  intros G. exists (fun i s => sumf (fun e => G (fst e) * cert_h (snd e) i s) ec3_cert), (fun s => sumf (fun e => G (fst e) * cert_h (snd e) 3 s) ec3_cert).
  intros t Ht. assert (It : In t (enum 3 4)) by (apply enum_In; [lia|exact Ht]).
  change (Z.to_nat (4 - (3 - 1))) with 2%nat. change (Z.to_nat (4 - 3)) with 1%nat.
  match goal with |- cong _ _ ?X => assert (E : X = sumf (fun e => G (fst e) * cert_val (snd e) t) ec3_cert) end.
  { unfold cert_val. rewrite (sumf_ext (fun e => G (fst e) * _) (fun e =>
      sumf (fun i => sumf (fun s => G (fst e) * cert_h (snd e) i s * coef_dx ec3 i s t) (enum 3 2)) (seq 0 3) +
      sumf (fun s => G (fst e) * cert_h (snd e) 3 s * sumf (fun ac => if list_eq_dec Z.eq_dec (vadd s (fst ac)) t then snd ac else 0) ec3) (enum 3 1))).
    2:{ intros e _. rewrite Z.mul_add_distr_l. f_equal.
        - rewrite <- sumf_scal. apply sumf_ext. intros i _. rewrite <- sumf_scal. apply sumf_ext. intros s _. ring.
        - rewrite <- sumf_scal. apply sumf_ext. intros s _. ring. }
    rewrite sumf_plus. f_equal.
    - symmetry. rewrite (sumf_swap (fun e i => _) ec3_cert). apply sumf_ext. intros i _. rewrite (sumf_swap (fun e s => _) ec3_cert). apply sumf_ext. intros s _.
      apply (sumf_scal_r (coef_dx ec3 i s t)).
    - symmetry. rewrite (sumf_swap (fun e s => _) ec3_cert). apply sumf_ext. intros s _. rewrite sumf_scal_r. reflexivity. }
  rewrite E. clear E. pose proof cert_check as CC. rewrite forallb_forall in CC.
  apply cong_trans with (sumf (fun e => G (fst e) * (if list_eq_dec Z.eq_dec (fst e) t then 1 else 0)) ec3_cert).
  - assert (F : forall l, NoDup l -> In t l -> sumf (fun x => G x * (if list_eq_dec Z.eq_dec x t then 1 else 0)) l = G t).
    { induction l as [|x l IH]; intros ND I; [destruct I|]. inversion ND as [|? ? N1 N2]; subst. rewrite sumf_cons. destruct (list_eq_dec Z.eq_dec x t) as [->|Ne].
      - rewrite sumf_zero; [ring|]. intros y Hy. destruct (list_eq_dec Z.eq_dec y t); [congruence|ring].
      - destruct I as [I|I]; [congruence|]. rewrite IH; auto. ring. }
    rewrite <- (F (enum 3 4) (enum_NoDup 3 4) It) at 1. replace (enum 3 4) with (map fst ec3_cert) by (vm_compute; reflexivity).
    rewrite sumf_map. apply cong_refl.
  - apply cong_sumf. intros e He. apply cong_mul; [apply cong_refl|]. specialize (CC e He). rewrite forallb_forall in CC. specialize (CC t It).
    apply cong_sym. unfold cong. apply Z.mod_divide; [lia|]. now apply Z.eqb_eq.
Qed.

(** "zeta_function refuses only singular hypersurfaces" is false: the smooth cubic
    y^2 z = x^3 - x z^2 over F_3 is refused, although the table has precisions for
    (n, d) = (2, 3) and p = 3 *)
Theorem C54_smooth_cubic_refuted : exists p n d f, prime p /\ wf_poly n d f /\ projectively_smooth p n d f 4 /\
  (exists a, default_args p (Z.of_nat n) d = OK a) /\
  forall lu gauss inv det rnd better, ech_spec p lu -> ech_spec p gauss -> inv_spec p inv -> det_spec p det ->
    (forall i, (snd (rnd i) < S n)%nat /\ Forall (fun A => shape A (S n) (S n) /\ mreduced p A) (fst (rnd i)) /\ Exists (invertible p (S n)) (fst (rnd i))) ->
    zeta_function lu gauss inv det rnd f p 0 false better = Err EAbort.
Proof.
  exists 3, 2%nat, 3, ec3. split; [apply prime_3|]. assert (W : wf_poly 2 3 ec3) by wf_ex. split; [exact W|]. split; [exact ec3_smooth|].
  split; [eexists; reflexivity|]. intros lu gauss inv det rnd better HL HG HI HD Hr.
  apply (C54_prime_divides_degree lu gauss inv det rnd 2 3 ec3 3 0 false better); auto; [apply prime_3|lia|lia|discriminate|eexists; reflexivity|apply Z.divide_refl].
Qed.
Print Assumptions C54_smooth_cubic_refuted.

(** ** complete runs *)
Definition rnd1 : nat -> list mat * nat := fun _ => ([[[1; 0; 0]; [0; 1; 0]; [0; 0; 1]]], 0%nat).
Definition run1 (f : poly) (p abs : Z) := zeta_function lu_inst gauss_inst inv_fast det_inst rnd1 f p abs false false.
(** y^2 z = x^3 + x z^2 + 3 z^3, degenerate, with 17 points over F_17;
    x^3 + y^3 + z^3 + xyz, non-degenerate, with 12 points; a cuspidal cubic *)
Definition ec17 : poly := [([0; 0; 3], -3); ([0; 2; 1], 1); ([1; 0; 2], -1); ([3; 0; 0], -1)].
Definition hesse : poly := [([0; 0; 3], 1); ([0; 3; 0], 1); ([1; 1; 1], 1); ([3; 0; 0], 1)].
Definition cusp : poly := [([0; 2; 1], 1); ([3; 0; 0], 1)].
(** number of projective points: (zeros in affine space - 1) / (p - 1) *)
Definition points (f : poly) (p : nat) : Z :=
  let F := map Z.of_nat (seq 0 p) in
  (sumf (fun x => sumf (fun y => sumf (fun z => if peval f [x; y; z] mod Z.of_nat p =? 0 then 1 else 0) F) F) F - 1) / (Z.of_nat p - 1).
Example C54_ex :
  (run1 ec17 17 0 = OK ([17; -1; 1], [[0; 14]; [0; 1]]) /\ points ec17 17 = 17 + 1 - 1) /\
  (run1 hesse 17 0 = OK ([17; -6; 1], [[0; 7]; [0; 6]]) /\ points hesse 17 = 17 + 1 - 6) /\
  run1 cusp 17 0 = Err EAbort /\ run1 ec3 3 0 = Err EAbort.
Proof. vm_compute. repeat split. Qed.
(** with p = 7 and abs_precision = 1 there is no lift: y^2 z = x^3 + x z^2 + 3 z^3 (6
    points) and x^3 + y^3 + z^3 + 3xyz (9 points) modulo 7 *)
Definition hesse7 : poly := [([0; 0; 3], 1); ([0; 3; 0], 1); ([1; 1; 1], 3); ([3; 0; 0], 1)].
Example C54_not_lifted_ex : zeta_args 7 2 3 1 false = OK (1, [0; 1], [2; 2; 2], false) /\
  (run1 ec17 7 1 = OK ([0; 5; 1], [[0; 3]; [0; 2]]) /\ points ec17 7 = 7 + 1 - 2) /\
  (run1 hesse7 7 1 = OK ([0; 1; 1], [[0; 4]; [0; 6]]) /\ points hesse7 7 = 7 + 1 + 1).
Proof. vm_compute. repeat split. Qed.
Lemma prime_17 : prime 17.
Proof. apply prime_intro; [lia|]. intros m Hm. apply Zgcd_1_rel_prime.
  assert (C : forallb (fun m => Z.gcd (Z.of_nat m) 17 =? 1) (seq 1 16) = true) by reflexivity. rewrite forallb_forall in C.
  specialize (C (Z.to_nat m) ltac:(apply in_seq; lia)). rewrite Z2Nat.id in C by lia. now apply Z.eqb_eq. Qed.
(** these runs satisfy the hypotheses of [C54_zeta_function] *)
Example C54_ex_hyps : prime 17 /\ ech_spec 17 lu_inst /\ ech_spec 17 gauss_inst /\ inv_spec 17 inv_fast /\ det_spec 17 det_inst /\
  wf_poly 2 3 ec17 /\ wf_poly 2 3 hesse /\ wf_poly 2 3 cusp /\
  zeta_args 17 2 3 0 false = OK (1, [0; 1], [3; 1; 1], true) /\
  (forall i, (snd (rnd1 i) < 3)%nat /\ Forall (fun A => shape A 3 3 /\ mreduced 17 A) (fst (rnd1 i)) /\ Exists (invertible 17 3) (fst (rnd1 i))).
Proof.
  assert (P := prime_17). split; [exact P|]. split; [now apply lu_inst_spec|]. split; [now apply gauss_inst_spec|]. split; [now apply inv_fast_ok|]. split; [now apply det_inst_spec|].
  split; [wf_ex|]. split; [wf_ex|]. split; [wf_ex|]. split; [reflexivity|]. intros i. split; [cbn; lia|]. split.
  - constructor; [|constructor]. split; [repeat constructor|]. repeat constructor; lia.
  - left. exists (mget [[1; 0; 0]; [0; 1; 0]; [0; 0; 1]]). intros a b Ha Hb. apply cong_iff_mod; [lia|].
    assert (C : forallb (fun a => forallb (fun b => mm 3 (mget [[1; 0; 0]; [0; 1; 0]; [0; 0; 1]]) (mget [[1; 0; 0]; [0; 1; 0]; [0; 0; 1]]) a b =? delta a b) (seq 0 3)) (seq 0 3) = true) by reflexivity.
    rewrite forallb_forall in C. specialize (C a ltac:(apply in_seq; lia)). rewrite forallb_forall in C. specialize (C b ltac:(apply in_seq; lia)). apply Z.eqb_eq in C. now rewrite C.
Qed.
