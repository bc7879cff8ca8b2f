(** Property C57: the constructors that take the polynomial as a vector or modulo p,
    and those that draw it at random. *)
From Coq Require Import ZArith List Bool Lia Znumtheory.
From Verif Require Import Base VecModel VecSpec ToolsModel ToolsSpec ToolsProofs MatModel MatProofs DRModel DRSpec DRProofs
  NDModel NDSpec SolveModel SolveSpec SolveProofs ChangeSpec LuInst HilbKoszul HilbPoly HilbTop HilbDim HilbNum HilbInit HilbCode TestModel TestProofs SaveProofs CtorModel CtorSpec CtorProofs CtorRand.
Import ListNotations.
Open Scope Z_scope.

(** a vector of the right length stands for the polynomial with these coefficients,
    in the order of the enumeration; any other length fails the assertion *)
Theorem C57_vector : forall slv q p prec n d v td, 0 <= d -> tuple_list_generator d (Z.of_nat n + 1) = OK td ->
  (length v = length td -> exists f, coeffs_of n d (fun x => x mod q) td v f /\
     ctor_vector slv q p prec (Z.of_nat n) d v = init slv q p prec f /\ ctor_vector_ND slv q p prec (Z.of_nat n) d v = init_ND slv q p prec f) /\
  (length v <> length td -> ctor_vector slv q p prec (Z.of_nat n) d v = Err EAssert /\ ctor_vector_ND slv q p prec (Z.of_nat n) d v = Err EAssert).
Proof.
  intros slv q p prec n d v td Hd T. destruct (vector_map_ok q n d v td Hd T) as (H1 & H2). unfold ctor_vector, ctor_vector_ND. split; intros L.
  - destruct (H1 L) as (f & -> & C). exists f. auto.
  - rewrite (H2 L). auto.
Qed.
Print Assumptions C57_vector.

(** the polynomial given modulo p is lifted to its representatives *)
Theorem C57_lift : forall slv q p prec n d fbar, wf_poly n d fbar -> p <= q -> (forall k c, In (k, c) fbar -> 0 <= c < p) ->
  ctor_lift slv q p prec fbar = init slv q p prec fbar /\ ctor_lift_ND slv q p prec fbar = init_ND slv q p prec fbar.
Proof.
  intros slv q p prec n d fbar W Hq H. unfold ctor_lift, ctor_lift_ND. replace (lift_map q fbar) with fbar; auto.
  rewrite (lift_map_ok q (S n)) by apply W. symmetry. rewrite <- (map_id fbar) at 2. apply map_ext_in. intros [k c] I. cbn [fst snd].
  f_equal. apply Z.mod_small. specialize (H k c I). lia.
Qed.
Print Assumptions C57_lift.

(** monomials with coefficient zero, which the vector constructors store and the
    others may not, change nothing but the stored polynomial *)
Theorem C57_zero_terms : forall slv q p prec n d f g tl, wf_poly n d f -> wf_poly n d g -> f <> [] -> g <> [] -> same_terms f g -> init_tuples n d = OK tl ->
  init slv q p prec g = (D <- init slv q p prec f ;; OK (with_f D g)) /\
  init_ND slv q p prec g = (N <- init_ND slv q p prec f ;; OK (mk_dND (with_f (nd_dr N) g) (nd_basis N) (nd_bdict N))).
Proof. intros. split; [eapply init_same|eapply init_ND_same]; eauto. Qed.
Print Assumptions C57_zero_terms.

Section Random.
  Variables (p prec : Z) (lu : ech_fun) (inv : inv_fun) (n : nat) (d : Z) (tl : list (list vec)).
  Hypothesis Pp : prime p.
  Hypothesis Hprec : 1 <= prec.
  Hypothesis HE : ech_spec p lu.
  Hypothesis HI : inv_spec p inv.
  Hypothesis Hd : 2 <= d.
  Hypothesis Htl : init_tuples n d = OK tl.
  Notation q := (p ^ prec).
  Notation slv := (padic_solver lu inv p q).
  Notation td := (enum (S n) (Z.to_nat d)).
  Notation poly_of := (coeffs_of n d (fun x => x mod p) td).

  (** the random numbers are used in blocks of one per monomial; the object is that
      of the first smooth polynomial *)
  Theorem C57_random : forall singular rest,
    (forall s, In s singular -> length s = length td /\ exists g, poly_of s g /\ ~ smooth_mod p n d g) ->
    (forall b f, length b = length td -> poly_of b f -> smooth_mod p n d f ->
       ctor_random (slv 1) (slv prec) q p prec n d (concat singular ++ b ++ rest) = (D <- init (slv prec) q p prec f ;; OK (D, rest))) /\
    ((length rest < length td)%nat -> ctor_random (slv 1) (slv prec) q p prec n d (concat singular ++ rest) = Err EFuel).
  Proof.
    intros singular rest HS. rewrite <- Forall_forall in HS. pose proof (p_le_q p prec Pp Hprec) as Hq.
    pose proof (get_J p prec lu inv n d tl Pp Hprec HE HI Hd Htl) as HG. split.
    - intros b f L C SM. rewrite random_whole.
      destruct (whole_first p q n d tl Pp Hq Hd Htl _ _ _ HG (init (slv prec) q p prec) singular b rest HS) as (g & C' & _ & E); [split; eauto|].
      rewrite E. now rewrite (coeffs_unique n d _ td b f g (enum_NoDup _ _) C C').
    - intros L. rewrite random_whole. now apply (whole_none p q n d tl Pp Hq Hd Htl _ _ _ HG).
  Qed.
  Theorem C57_random_ND : forall degenerate rest,
    (forall s, In s degenerate -> length s = length td /\ exists g, poly_of s g /\ ~ non_degenerate p n d g) ->
    (forall b f, length b = length td -> poly_of b f -> non_degenerate p n d f ->
       ctor_random_ND (slv 1) (slv prec) q p prec n d (concat degenerate ++ b ++ rest) = (N <- init_ND (slv prec) q p prec f ;; OK (N, rest))) /\
    ((length rest < length td)%nat -> ctor_random_ND (slv 1) (slv prec) q p prec n d (concat degenerate ++ rest) = Err EFuel).
  Proof.
    intros degenerate rest HS. rewrite <- Forall_forall in HS. pose proof (p_le_q p prec Pp Hprec) as Hq.
    pose proof (get_ND p prec lu inv n d tl Pp Hprec HE HI Hd Htl) as HG. split.
    - intros b f L C SM. rewrite random_ND_whole.
      destruct (whole_first p q n d tl Pp Hq Hd Htl _ _ _ HG (init_ND (slv prec) q p prec) degenerate b rest HS) as (g & C' & _ & E); [split; eauto|].
      rewrite E. now rewrite (coeffs_unique n d _ td b f g (enum_NoDup _ _) C C').
    - intros L. rewrite random_ND_whole. now apply (whole_none p q n d tl Pp Hq Hd Htl _ _ _ HG).
  Qed.

  (** if p does not divide d and n < d, the constructors can always return and fail
      no assertion: the run ends with an object of a smooth (non-degenerate)
      polynomial, or more numbers make it end so *)
  Theorem C57_random_returns : Z.of_nat n < d -> ~ (p | d) ->
    live (fun D => smooth_mod p n d (r_f D) /\ init (slv prec) q p prec (r_f D) = OK D) (ctor_random (slv 1) (slv prec) q p prec n d) /\
    live (fun N => non_degenerate p n d (r_f (nd_dr N)) /\ init_ND (slv prec) q p prec (r_f (nd_dr N)) = OK N) (ctor_random_ND (slv 1) (slv prec) q p prec n d).
  Proof.
    intros Hnd Hp. pose proof (p_le_q p prec Pp Hprec) as Hq. destruct (fermat_poly p q n d Pp Hq Hd) as (F & C & F1 & F2).
    assert (LF : length (fermat_block n d) = length td) by (unfold fermat_block; apply map_length).
    split.
    - eapply live_ext; [intros rs; apply random_whole|].
      apply (whole_live p q n d tl Pp Hq Hd Htl _ _ _ (get_J p prec lu inv n d tl Pp Hprec HE HI Hd Htl)) with (b0 := fermat_block n d).
      + split; auto. exists F. split; auto. apply (fermat_smooth n d p F); auto. apply C.
      + intros g W NE SM. destruct (init_succeeds p prec lu inv n d g tl Pp Hprec HE HI NE W Hnd Hd Htl (or_intror Hp) SM) as (D & HD & _ & _ & _ & Ef & _).
        exists D. rewrite Ef. auto.
    - eapply live_ext; [intros rs; apply random_ND_whole|].
      apply (whole_live p q n d tl Pp Hq Hd Htl _ _ _ (get_ND p prec lu inv n d tl Pp Hprec HE HI Hd Htl)) with (b0 := fermat_block n d).
      + split; auto. exists F. split; auto. apply (fermat_nd n d p F); auto. apply C.
      + intros g W NE SM. destruct (init_ND_succeeds p prec lu inv n d g tl Pp Hprec HE HI NE W Hnd Hd Htl SM) as (N & HN & _).
        exists N. assert (Ef : r_f (nd_dr N) = g).
        { unfold init_ND in HN. apply bind_ok in HN. destruct HN as (D & HD & HN). apply bind_ok in HN. destruct HN as (top & _ & HN). apply bind_ok in HN. destruct HN as (u & _ & HN).
          apply bind_ok in HN. destruct HN as (bs & _ & HN). apply bind_ok in HN. destruct HN as (u' & _ & HN). injection HN as <-. cbn [nd_dr].
          apply (init_fields' n d g tl W NE Htl _ _ _ _ _ HD). }
        rewrite Ef. auto.
  Qed.

  (** if p divides d the loop never ends: no polynomial of degree d is smooth (d >= 3)
      or non-degenerate *)
  Theorem C57_random_hangs : (p | d) ->
    (3 <= d -> forall rs, ctor_random (slv 1) (slv prec) q p prec n d rs = Err EFuel) /\
    (forall rs, ctor_random_ND (slv 1) (slv prec) q p prec n d rs = Err EFuel).
  Proof.
    intros Hp. pose proof (p_le_q p prec Pp Hprec) as Hq. split.
    - intros H3 rs. rewrite random_whole. apply (whole_hangs p q n d tl Pp Hq Hd Htl _ _ _ (get_J p prec lu inv n d tl Pp Hprec HE HI Hd Htl)).
      intros g W SM. assert (V : vanishH (S n) p (d - 1) (Js n g)) by (eapply exact_J; eauto; nia). revert Hp. eapply Js_euler; eauto.
    - intros rs. rewrite random_ND_whole. apply (whole_hangs p q n d tl Pp Hq Hd Htl _ _ _ (get_ND p prec lu inv n d tl Pp Hprec HE HI Hd Htl)).
      intros g W ND. assert (V : vanishH (S n) p d (Ls n g)) by (eapply exact_L; [exact W| | |exact ND]; nia). revert Hp. eapply Ls_euler; eauto. lia.
  Qed.

  (** if d <= n no object is returned: init's assertion fails *)
  Theorem C57_random_small_degree : d <= Z.of_nat n -> forall rs,
    (ctor_random (slv 1) (slv prec) q p prec n d rs = Err EFuel \/ ctor_random (slv 1) (slv prec) q p prec n d rs = Err EAssert) /\
    (ctor_random_ND (slv 1) (slv prec) q p prec n d rs = Err EFuel \/ ctor_random_ND (slv 1) (slv prec) q p prec n d rs = Err EAssert).
  Proof.
    intros Hnd rs. pose proof (p_le_q p prec Pp Hprec) as Hq.
    assert (NE : forall b g, poly_of b g -> g <> []). { intros b g (_ & L & _) ->. pose proof (td_pos n d Hd). cbn [length] in L. lia. }
    assert (I : forall g, wf_poly n d g -> g <> [] -> init (slv prec) q p prec g = Err EAssert).
    { intros g W N. rewrite (init_unfold _ _ _ _ n d g tl N W Htl). destruct (Z.ltb_spec (Z.of_nat n) d); [lia|reflexivity]. }
    split; rewrite ?random_whole, ?random_ND_whole.
    - pose proof (get_J p prec lu inv n d tl Pp Hprec HE HI Hd Htl) as HG.
      destruct (blocks p q n d tl Pp Hq Hd _ _ _ HG rs) as (bs & tail & F & [[-> L]|(b & Gb & ->)]).
      + left. now apply (whole_none p q n d tl Pp Hq Hd Htl _ _ _ HG).
      + right. destruct (whole_first p q n d tl Pp Hq Hd Htl _ _ _ HG (init (slv prec) q p prec) bs b tail F Gb) as (g & C & _ & E). rewrite E, I; eauto. apply C.
    - pose proof (get_ND p prec lu inv n d tl Pp Hprec HE HI Hd Htl) as HG.
      destruct (blocks p q n d tl Pp Hq Hd _ _ _ HG rs) as (bs & tail & F & [[-> L]|(b & Gb & ->)]).
      + left. now apply (whole_none p q n d tl Pp Hq Hd Htl _ _ _ HG).
      + right. destruct (whole_first p q n d tl Pp Hq Hd Htl _ _ _ HG (init_ND (slv prec) q p prec) bs b tail F Gb) as (g & C & _ & E). rewrite E. unfold init_ND. rewrite I; eauto. apply C.
  Qed.
End Random.
Print Assumptions C57_random.
Print Assumptions C57_random_ND.
Print Assumptions C57_random_returns.
Print Assumptions C57_random_hangs.
Print Assumptions C57_random_small_degree.

(** the loop of de_Rham_local can accept a polynomial that init rejects: x0 x1 over F_2 *)
Theorem C57_random_returns_char2_refuted : exists p prec n d rs, prime p /\ Z.of_nat n < d /\ 2 <= d /\
  ctor_random (padic_solver lu_inst inv_inst p (p ^ prec) 1) (padic_solver lu_inst inv_inst p (p ^ prec) prec) (p ^ prec) p prec n d rs = Err EAssert.
Proof. exists 2, 2, 1%nat, 2, [0; 1; 0]. split; [apply prime_2|]. split; [lia|]. split; [lia|]. vm_compute. reflexivity. Qed.
Print Assumptions C57_random_returns_char2_refuted.

(**over F_5, binary cubics: x0^3 (singular) is drawn first, then x0^3 + x1^3 *)
Example C57_ex : (exists tl, init_tuples 1 3 = OK tl) /\ prime 5 /\ length (enum 2 3) = 4%nat /\
  (exists td, tuple_list_generator 3 2 = OK td /\ length td = 4%nat) /\
  (let s := fun k => padic_solver lu_inst inv_inst 5 25 k in
   ctor_random (s 1) (s 2) 25 5 2 1 3 [5; 0; 10; 1; 6; 0; 0; 1; 7] =
     (D <- init (s 2) 25 5 2 [([0; 3], 1); ([1; 2], 0); ([2; 1], 0); ([3; 0], 1)] ;; OK (D, [7])) /\
   (exists D, ctor_vector (s 2) 25 5 2 1 3 [1; 0; 0; 1] = OK D /\ r_f D = [([0; 3], 1); ([1; 2], 0); ([2; 1], 0); ([3; 0], 1)] /\ r_basis D = [[0; 1]; [1; 0]]) /\
   (exists N, ctor_random_ND (s 1) (s 2) 25 5 2 1 3 [5; 0; 10; 1; 6; 0; 0; 1; 7] = OK (N, [7]))).
Proof.
  split; [vm_compute; eauto|]. split.
  - apply prime_intro; [lia|]. intros n Hn. assert (H : n = 1 \/ n = 2 \/ n = 3 \/ n = 4) by lia. destruct H as [->|[->|[->| ->]]]; apply Zgcd_1_rel_prime; reflexivity.
  - split; [reflexivity|]. split; [vm_compute; eauto|]. cbv zeta. split; [vm_compute; reflexivity|]. split; [eexists; vm_compute; auto|eexists; vm_compute; reflexivity].
Qed.
