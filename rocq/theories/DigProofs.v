(** Two working precisions: the object of a polynomial modulo p^k and the object
    of a congruent polynomial modulo p^k' give the same basis and congruent
    Frobenius vectors. *)
From Coq Require Import ZArith List Bool Lia Znumtheory.
From Verif Require Import Base VecModel VecSpec VecProofs ToolsModel ToolsSpec ToolsProofs PolyProofs MatModel MatProofs DRModel DRSpec DRProofs DRRed NDRed DRFinal
  FrobModel FrobSpec FrobSum FrobProofs FrobTop FrobProps LinAlg SolveModel SolveSpec SolveProofs SmoothProofs
  ChangeSpec ChangeProofs HilbCode HilbProps RunProofs CtorProofs UniqCode UniqProps AgreeProps HilbTop FrobNDTop DigSpec.
Import ListNotations.
Open Scope Z_scope.

(** two solvers choose the same rows for matrices that agree modulo p *)
Definition rows_agree (p : Z) (slv slv' : solver) : Prop :=
  forall nc T T' B U B' U', reduce_mat p T = reduce_mat p T' ->
    slv nc T = OK (B, U) -> slv' nc T' = OK (B', U') -> B = B'.

Lemma rows_agree_padic lu inv p q q' prec prec' :
  rows_agree p (padic_solver lu inv p q prec) (padic_solver lu inv p q' prec').
Proof.
  intros nc T T' B U B' U' ET. assert (LT : length T = length T').
  { apply (f_equal (@length _)) in ET. unfold reduce_mat in ET. now rewrite !map_length in ET. }
  unfold padic_solver, solve_padic, solve_padic_flint. rewrite LT, ET. destruct (Nat.eqb nc 0).
  - intros H H'. injection H as <- _. injection H' as <- _. reflexivity.
  - destruct (solve_zz_p lu inv true p nc (reduce_mat p T')) as [[B0 U0]|]; cbn [bind fst snd]; [|discriminate].
    intros H H'.
    assert (B = B0). { destruct (q mod 2 ^ 64 =? q); apply bind_ok in H; destruct H as (X & _ & H); now injection H as <- _. }
    assert (B' = B0). { destruct (q' mod 2 ^ 64 =? q'); apply bind_ok in H'; destruct H' as (X & _ & H'); now injection H' as <- _. }
    congruence.
Qed.

Lemma init_head slv q p prec f D : init slv q p prec f = OK D ->
  exists a c f0, f = (a, c) :: f0 /\ r_n D = (length a - 1)%nat /\ r_d D = zsum a.
Proof.
  unfold init. destruct f as [|[a c] f0]; [discriminate|]. intros H. do 4 (apply bind_ok in H; destruct H as (? & _ & H)).
  do 3 (apply bind_ok in H; destruct H as (? & _ & H)). injection H as <-. exists a, c, f0. auto.
Qed.

Lemma pcong_trans_dvd p q f g : (p | q) -> pcong q f g -> pcong p f g.
Proof. intros D. induction 1 as [|a b f g [E C] H IH]; constructor; auto. split; auto. unfold cong in *. eapply Z.divide_trans; eauto. Qed.

Lemma pcong_key q f g k v : pcong q f g -> In (k, v) g -> exists w, In (k, w) f.
Proof.
  induction 1 as [|[a c] [b e] f g [E C] H IH]; intros I; [destruct I|]. cbn [fst] in E. subst b.
  destruct I as [I|I]; [injection I as <- <-; exists c; now left|]. destruct (IH I) as (w & J). exists w. now right.
Qed.
Lemma pcong_wf p n d f g : pcong p f g -> wf_poly n d f -> wf_poly n d g.
Proof.
  intros H (S & W). split.
  - clear W. unfold vsorted in *. revert g H. induction S as [|k v m K S IH L]; intros g H; inversion H as [|x [k' v'] m' g' [E C] H']; subst; cbn [fst] in *; subst; constructor; auto.
    intros k2 v2 I. destruct (pcong_key p m g' k2 v2 H' I) as (w & J). eapply L; eauto.
  - intros a c I. destruct (pcong_key p f g a c H I) as (w & J). eapply W; eauto.
Qed.

Lemma mapM_same {A B} (f g : A -> res B) l r r' : (forall a b b', In a l -> f a = OK b -> g a = OK b' -> b = b') ->
  mapM f l = OK r -> mapM g l = OK r' -> r = r'.
Proof.
  revert r r'. induction l as [|a l IH]; cbn [mapM]; intros r r' H E E'.
  - injection E as <-. now injection E' as <-.
  - apply bind_ok in E. destruct E as (b & E1 & E). apply bind_ok in E. destruct E as (bs & E2 & E). injection E as <-.
    apply bind_ok in E'. destruct E' as (b' & E1' & E'). apply bind_ok in E'. destruct E' as (bs' & E2' & E'). injection E' as <-.
    f_equal; [eapply H; eauto; now left|]. eapply IH; eauto. intros; eapply H; eauto. now right.
Qed.

Section Rows.
  Variables (p : Z) (D D' : dR).
  Hypothesis P2 : 2 <= p.
  Hypothesis b1 : dr_base D.
  Hypothesis b2 : dr_base D'.
  Hypothesis En : r_n D' = r_n D.
  Hypothesis Ed : r_d D' = r_d D.
  Hypothesis Dq : (p | r_q D).
  Hypothesis Dq' : (p | r_q D').
  Hypothesis HC : pcong p (r_f D) (r_f D').
  Let n := r_n D.
  Let d := r_d D.

  Lemma matrix_J_mod l : 0 <= l <= (Z.of_nat n + 1) * d ->
    exists nc T T', matrix_J D l = OK (nc, T) /\ matrix_J D' l = OK (nc, T') /\ reduce_mat p T = reduce_mat p T'.
  Proof.
    intros Hl. destruct (Z_lt_le_dec l (d - 1)) as [Low|Hi].
    - unfold matrix_J. rewrite (base_tl D b1 l Hl), (base_tl D' b2 l) by (rewrite En, Ed; exact Hl). cbn [bind]. rewrite En, Ed. fold n d.
      destruct (Z.ltb_spec l (d - 1)); [|lia]. eauto 6.
    - destruct (matrix_J_weighted_b D b1 l) as (T & M1 & S1 & W1); [fold n d; lia|].
      destruct (matrix_J_weighted_b D' b2 l) as (T' & M2 & S2 & W2); [rewrite En, Ed; fold n d; lia|].
      rewrite En, Ed in M2, S2, W2. fold n d in M1, S1, W1, M2, S2, W2. eexists _, T, T'. split; [exact M1|]. split; [exact M2|].
      eapply mat_entries_eq; [apply reduce_mat_shape; exact S1|apply reduce_mat_shape; exact S2|]. intros i j k Hk Hi' Hj. rewrite !reduce_mat_get. apply cong_iff_mod; [lia|].
      set (X := fun m => if list_eq_dec Z.eq_dec m (nth k (enum (S n) (Z.to_nat l)) []) then 1 else 0).
      rewrite <- (pick_row D (Z.to_nat l) T) by auto. rewrite <- (pick_row D (Z.to_nat l) T') by auto.
      eapply cong_trans; [apply cong_of_eq, (W1 X i j); auto; lia|]. eapply cong_trans; [|apply cong_of_eq; symmetry; apply (W2 X i j); auto; lia].
      clear -HC P2 Dq Dq'. induction HC as [|[a c] [b e] f g [E C] H IH]; [apply cong_refl|]. rewrite !sumf_cons. cbn [fst snd] in *. subst b.
      apply cong_add; auto. destruct (0 <? _); [|apply cong_refl]. apply cong_mul; [|apply cong_refl].
      eapply cong_trans; [apply cmod1; exact Dq|]. eapply cong_trans; [|apply cong_sym, cmod1; exact Dq']. now apply cong_mul; [apply cong_refl|].
  Qed.

  Lemma solve_J_rows slv slv' l BU BU' : rows_agree p slv slv' -> 0 <= l <= (Z.of_nat n + 1) * d ->
    get_solve_J slv D l = OK BU -> get_solve_J slv' D' l = OK BU' -> fst BU = fst BU'.
  Proof.
    intros R Hl. destruct (matrix_J_mod l Hl) as (nc & T & T' & E1 & E2 & E). unfold get_solve_J. rewrite E1, E2. cbn [bind fst snd].
    destruct BU as [B U], BU' as [B' U']. intros H H'. exact (R nc T T' B U B' U' E H H').
  Qed.
End Rows.

(** the basis depends on f modulo p only *)
Lemma basis_rows p q q' prec prec' slv slv' f f' D D' : 2 <= p -> (p | q) -> (p | q') -> rows_agree p slv slv' -> pcong p f f' ->
  init slv q p prec f = OK D -> init slv' q' p prec' f' = OK D' -> wf_poly (r_n D) (r_d D) f ->
  r_n D' = r_n D /\ r_d D' = r_d D /\ r_basis D' = r_basis D.
Proof.
  intros P2 Dq Dq' R C H H' W.
  destruct (init_head _ _ _ _ _ _ H) as (a & c & f0 & Ef & N1 & D1). destruct (init_head _ _ _ _ _ _ H') as (a' & c' & f0' & Ef' & N2 & D2).
  assert (Ea : a' = a). { subst f f'. inversion C as [|x y l l' [E _] C']; subst. cbn in E. congruence. } subst a'.
  assert (En : r_n D' = r_n D) by congruence. assert (Ed : r_d D' = r_d D) by congruence. split; auto. split; auto.
  assert (W' : wf_poly (r_n D') (r_d D') f') by (rewrite En, Ed; eapply pcong_wf; eauto).
  destruct (init_inv _ _ _ _ _ _ H W) as (inv & Eq & E1). destruct (init_inv _ _ _ _ _ _ H' W') as (inv' & Eq' & E1').
  destruct (inv_basis _ _ inv) as (bs & B1 & B2). destruct (inv_basis _ _ inv') as (bs' & B1' & B2'). rewrite B2, B2'. f_equal. symmetry. rewrite En, Ed in B1'.
  refine (mapM_same _ _ _ _ _ _ B1 B1'). intros i b b' Hi. apply zseq_In in Hi. pose proof (inv_nd _ _ inv). unfold init_basis_level. rewrite En, Ed.
  set (l := (i + 1) * r_d D - (Z.of_nat (r_n D) + 1)). assert (Hl : 0 <= l <= (Z.of_nat (r_n D) + 1) * r_d D) by (unfold l; nia).
  intros L L'. apply bind_ok in L. destruct L as (BU & S1 & L). apply bind_ok in L'. destruct L' as (BU' & S1' & L').
  apply bind_ok in L. destruct L as (h & _ & L). apply bind_ok in L'. destruct L' as (h' & _ & L').
  apply bind_ok in L. destruct L as (? & _ & L). apply bind_ok in L'. destruct L' as (? & _ & L').
  assert (b1 : dr_base D) by (exact (inv_base slv D inv)). assert (b2 : dr_base D') by (exact (inv_base slv' D' inv')).
  rewrite (base_tl D b1 l Hl) in L. rewrite (base_tl D' b2 l) in L' by (rewrite En, Ed; exact Hl). cbn [bind] in L, L'. rewrite En in L'.
  assert (X : fst BU = fst BU').
  { refine (solve_J_rows p D D' P2 b1 b2 En Ed _ _ _ slv slv' l BU BU' R Hl S1 S1'); [now rewrite Eq|now rewrite Eq'|now rewrite E1, E1']. }
  rewrite X in L. congruence.
Qed.

(** * functionals at the two precisions *)
Lemma cong_dvd q q' a b : (q | q') -> cong q' a b -> cong q a b.
Proof. unfold cong. intros. eapply Z.divide_trans; eauto. Qed.

Lemma GD_dvd q q' n d f f' phi : (q | q') -> pcong q f f' -> GD q' n d f' phi -> GD q n d f phi.
Proof.
  intros Dv C G m i h Hi Ht. eapply cong_trans; [|apply (cong_dvd q q' _ _ Dv (G m i h Hi Ht))].
  clear -C. induction C as [|[a c] [b e] f g [E C] H IH]; [apply cong_refl|]. rewrite !sumf_cons. cbn [fst snd] in *. subst b.
  apply cong_add; auto. apply cong_mul; [|apply cong_refl]. now apply cong_mul; [apply cong_refl|].
Qed.

Lemma pow_sum_cong q n d f f' j : pcong q f f' -> (forall a c, In (a, c) f -> is_tuple (S n) d a) ->
  forall w w', (forall u, is_tuple (S n) (d * Z.of_nat j) u -> cong q (w u) (w' u)) -> cong q (pow_sum n f j w) (pow_sum n f' j w').
Proof.
  intros C HH. induction j as [|j IH]; intros w w' Hw; cbn [pow_sum].
  - apply Hw. repeat split.
    + apply repeat_length.
    + apply Forall_forall. intros x Hx. apply repeat_spec in Hx. lia.
    + assert (Z0 : forall m, zsum (repeat 0 m) = 0) by (induction m as [|m IHm]; [reflexivity|cbn [repeat zsum]; lia]). rewrite Z0. cbn. lia.
  - assert (X : forall t, In t f -> cong q (pow_sum n f j (fun u => w (eplus u (fst t)))) (pow_sum n f' j (fun u => w' (eplus u (fst t))))).
    { intros [a c] I. cbn [fst]. apply IH. intros u Hu. apply Hw. replace (d * Z.of_nat (S j)) with (d * Z.of_nat j + d) by lia. apply eplus_tuple; auto. eapply HH; eauto. }
    clear IH Hw HH. set (g := f) in X at 2. set (g' := f') in X. change (pow_sum n f j) with (pow_sum n g j). change (pow_sum n f' j) with (pow_sum n g' j). clearbody g g'.
    induction C as [|[a c] [b e] f f' [E C] H IH]; [apply cong_refl|]. rewrite !sumf_cons. cbn [fst snd] in *. subst b. apply cong_add.
    + apply cong_mul; auto. apply (X (a, c)). now left.
    + apply IH. intros t I. apply X. now right.
Qed.

Lemma frob_mono_tuple n d p m b u j : 1 <= p -> is_tuple (S n) (d * m - (Z.of_nat n + 1)) b -> is_tuple (S n) (d * j) u ->
  is_tuple (S n) (p * (m + j) * d - (Z.of_nat n + 1)) (frob_mono p b u).
Proof.
  intros Hp Hb Hu. pose proof (eplus_tuple _ _ _ _ _ Hu Hb) as (L & NN & S). unfold frob_mono. repeat split.
  - now rewrite map_length.
  - apply Forall_forall. intros x Hx. apply in_map_iff in Hx. destruct Hx as (y & <- & Hy). unfold nonneg in NN. rewrite Forall_forall in NN. specialize (NN y Hy). nia.
  - assert (E : forall l, zsum (map (fun x => p * (x + 1) - 1) l) = p * (zsum l + zlen l) - zlen l).
    { induction l as [|x l IH]; [unfold zlen; cbn; lia|]. unfold zlen in *. cbn [map zsum length]. rewrite IH. lia. }
    rewrite E, S. unfold zlen. rewrite L. rewrite Nat2Z.inj_succ. ring.
Qed.

Section TwoPrecisions.
  Variables (p k k' prec prec' : Z) (slv slv' : solver) (f f' : poly) (D D' : dR).
  Let q := p ^ k.
  Let q' := p ^ k'.
  Hypothesis Pp : prime p.
  Hypothesis Hk : 1 <= k <= k'.
  Hypothesis HR : rows_agree p slv slv'.
  Hypothesis HC : pcong q f f'.
  Hypothesis H : init slv q p prec f = OK D.
  Hypothesis H' : init slv' q' p prec' f' = OK D'.
  Hypothesis W : wf_poly (r_n D) (r_d D) f.
  Hypothesis Hs : solver_ok q slv.
  Hypothesis Hs' : solver_ok q' slv'.
  Hypothesis Hn : (1 <= r_n D)%nat.

  Lemma p_q : (p | q).
  Proof. unfold q. rewrite <- (Z.pow_1_r p) at 1. apply pow_divide_pow; [now apply prime_ge_2|lia]. Qed.
  Lemma q_q' : (q | q').
  Proof. apply pow_divide_pow; [now apply prime_ge_2|lia]. Qed.
  Lemma same_basis : r_n D' = r_n D /\ r_d D' = r_d D /\ r_basis D' = r_basis D.
  Proof.
    refine (basis_rows p q q' prec prec' slv slv' f f' D D' (prime_ge_2 p Pp) p_q (Z.divide_trans _ _ _ p_q q_q') HR _ H H' W).
    eapply pcong_trans_dvd; [exact p_q|exact HC].
  Qed.
  Lemma wf' : wf_poly (r_n D) (r_d D) f'.
  Proof. eapply pcong_wf; eauto. Qed.

  (** a functional modulo q agrees with the reduction of one modulo q' *)
  Lemma lift_functional phi psi : GD q (r_n D) (r_d D) f phi -> basis_val q (r_n D) (r_d D) (r_basis D) phi psi ->
    exists phi', GD q' (r_n D) (r_d D) f' phi' /\ basis_val q' (r_n D) (r_d D) (r_basis D) phi' psi /\
    forall m w, is_tuple (S (r_n D)) (m * r_d D - (Z.of_nat (r_n D) + 1)) w -> cong q (phi m w) (phi' m w).
  Proof.
    intros G B. destruct same_basis as (En & Ed & Eb). pose proof wf' as W'. rewrite <- En, <- Ed in W'.
    destruct (C55_functionals_exist slv' p k' prec' f' D' H' W' Hs' Pp ltac:(lia) ltac:(rewrite En; exact Hn) psi) as (phi' & G' & B').
    fold q' in G', B'. rewrite En, Ed in G', B'. rewrite Eb in B'. exists phi'. split; auto. split; auto.
    refine (C55_functionals_unique slv q p prec f D H W Hs (prime_pow_2 p k Pp ltac:(lia)) Hn phi phi' psi G _ B _).
    - exact (GD_dvd q q' _ _ f f' phi' q_q' HC G').
    - intros b I. exact (cong_dvd q q' _ _ q_q' (B' b I)).
  Qed.

  Lemma series_two phi phi' m N b : (forall m w, is_tuple (S (r_n D)) (m * r_d D - (Z.of_nat (r_n D) + 1)) w -> cong q (phi m w) (phi' m w)) ->
    is_tuple (S (r_n D)) (r_d D * m - (Z.of_nat (r_n D) + 1)) b ->
    cong q (frob_series phi (r_n D) f p m N b) (frob_series phi' (r_n D) f' p m N b).
  Proof.
    intros E Hb. unfold frob_series. apply cong_sumf. intros j Hj. apply zseq_In in Hj. apply cong_mul; [apply cong_refl|].
    apply pow_sum_cong with (d := r_d D); [exact HC|apply W|]. intros u Hu. rewrite Z2Nat.id in Hu by lia. apply E.
    apply frob_mono_tuple; auto. pose proof (prime_ge_2 p Pp). lia.
  Qed.

  Lemma vectors_two m N b F F' : is_tuple (S (r_n D)) (r_d D * m - (Z.of_nat (r_n D) + 1)) b ->
    length F = length (r_basis D) -> length F' = length (r_basis D) ->
    (forall phi psi, GD q (r_n D) (r_d D) f phi -> basis_val q (r_n D) (r_d D) (r_basis D) phi psi ->
      cong q (ev_basis psi (r_basis D) F) (frob_series phi (r_n D) f p m N b)) ->
    (forall phi psi, GD q' (r_n D) (r_d D) f' phi -> basis_val q' (r_n D) (r_d D) (r_basis D) phi psi ->
      cong q' (ev_basis psi (r_basis D) F') (frob_series phi (r_n D) f' p m N b)) ->
    vcong q F F'.
  Proof.
    intros Hb L L' X X'. apply (C55_coordinates_unique slv p k prec f D H W Hs Pp ltac:(lia) Hn); auto. intros phi psi G B.
    destruct (lift_functional phi psi G B) as (phi' & G' & B' & E). eapply cong_trans; [apply (X phi psi G B)|].
    eapply cong_trans; [apply (series_two phi phi' m N b E Hb)|]. apply cong_sym. exact (cong_dvd q q' _ _ q_q' (X' phi' psi G' B')).
  Qed.
End TwoPrecisions.

(** * the final division at the two precisions *)
Lemma cancel_pow p k s u a b : prime p -> 0 <= k -> 0 <= s -> ~ (p | u) -> cong (p ^ k) (u * (p ^ s * a)) (u * (p ^ s * b)) ->
  cong (p ^ Z.max 0 (k - s)) a b.
Proof.
  intros Pp Hk Hs Hu X. pose proof (prime_ge_2 p Pp) as P2. unfold cong in *. rewrite <- Z.mul_sub_distr_l in X.
  assert (Hru : rel_prime (p ^ k) u). { apply rel_prime_sym. rewrite <- (Z2Nat.id k) by lia. now apply rel_prime_pow. }
  apply (Gauss _ _ _ X) in Hru. rewrite <- Z.mul_sub_distr_l in Hru. destruct (Z.leb_spec s k) as [L|L].
  - rewrite Z.max_r by lia. replace k with (s + (k - s)) in Hru by lia. rewrite Z.pow_add_r in Hru by lia.
    pose proof (Z.pow_pos_nonneg p s ltac:(lia) ltac:(lia)). apply Z.mul_divide_cancel_l in Hru; auto. lia.
  - rewrite Z.max_l by lia. apply Z.divide_1_l.
Qed.

Lemma finish_range p k n P F fact R v u : prime p -> 1 <= k -> 1 <= P -> 0 <= v -> zfact (P - 1) = p ^ v * u -> ~ (p | u) ->
  frob_finish (p ^ k) p n P F fact = OK R ->
  length R = length F /\ forall i, (i < length F)%nat -> 0 <= nth i R 0 < p ^ Z.max 0 (k - lost n v).
Proof.
  intros Pp Hk HP Hv Ev Hu. pose proof (prime_ge_2 p Pp) as P2. pose proof (prime_pow_2 p k Pp Hk) as Q2. set (q := p ^ k) in *.
  unfold frob_finish. intros E. apply bind_ok in E. destruct E as (z1 & _ & E). apply bind_ok in E. destruct E as (v' & V1 & E).
  destruct (vof_exact p (P - 1) Pp ltac:(lia)) as (v2 & V2 & V3 & [u2 V4] & V5). rewrite V1 in V2. injection V2 as <-.
  assert (Hu2 : ~ (p | u2)). { intros [w Hw]. apply V5. exists w. rewrite Z.pow_add_r, Z.pow_1_r by lia. rewrite V4, Hw. ring. }
  assert (v' = v). { destruct (val_unique p v u v' u2 P2 Hv V3) as [<- _]; auto. rewrite <- Ev, V4. ring. } subst v'.
  apply bind_ok in E. destruct E as (z2 & _ & E). apply bind_ok in E. destruct E as (x & _ & E). unfold lost.
  destruct (Z.leb_spec v (n - 1)) as [L|L].
  - injection E as <-. rewrite (Z.max_l 0 (v - (n - 1))) by lia. rewrite !lvec_scal_length. split; auto. intros i Hi.
    rewrite lvec_scal_nth by (rewrite lvec_scal_length; auto). rewrite Z.sub_0_r, Z.max_r by lia. fold q. apply Z.mod_pos_bound. lia.
  - rewrite div_all_ok in E. destruct (forallb _ _); [|discriminate]. injection E as <-. rewrite map_length, lvec_scal_length. split; auto. intros i Hi.
    set (pp := p ^ (v - (n - 1))). assert (Hpp : 0 < pp) by (apply Z.pow_pos_nonneg; lia).
    rewrite (nth_map_lt (fun x0 => (x0 / pp) mod q) _ _ _ 0) by (rewrite lvec_scal_length; auto). rewrite lvec_scal_nth by auto.
    set (y := (x * nth i F 0) mod q). assert (Hy : 0 <= y < q) by (apply Z.mod_pos_bound; lia).
    assert (B : 0 <= y / pp < p ^ Z.max 0 (k - (v - (n - 1)))).
    { split; [apply Z.div_pos; lia|]. destruct (Z.leb_spec (v - (n - 1)) k) as [A|A].
      - rewrite Z.max_r by lia. apply Z.div_lt_upper_bound; [lia|]. unfold pp. rewrite <- Z.pow_add_r by lia. replace (v - (n - 1) + (k - (v - (n - 1)))) with k by ring. lia.
      - rewrite Z.max_l by lia. cbn. rewrite Z.div_small; [lia|]. split; [lia|]. eapply Z.lt_le_trans; [apply Hy|]. unfold q, pp. apply Z.pow_le_mono_r; lia. }
    rewrite (Z.max_r 0 (v - (n - 1))) by lia. split; [apply Z.mod_pos_bound; lia|]. eapply Z.le_lt_trans; [|apply B]. apply Z.mod_le; lia.
Qed.

Lemma finish_two p k k' n P F F' fact fact' v u : prime p -> 1 <= k <= k' -> 1 <= n -> 1 <= P ->
  0 <= fact < p ^ k -> cong (p ^ k) fact (zfact (P - 1)) -> 0 <= fact' < p ^ k' -> cong (p ^ k') fact' (zfact (P - 1)) ->
  0 <= v -> zfact (P - 1) = p ^ v * u -> ~ (p | u) -> vcong (p ^ k) F F' ->
  (forall R', frob_finish (p ^ k') p n P F' fact' = OK R' -> exists R, frob_finish (p ^ k) p n P F fact = OK R /\
     length R = length R' /\ forall i, (i < length R')%nat -> nth i R 0 = nth i R' 0 mod p ^ Z.max 0 (k - lost n v)) /\
  (lost n v <= k -> forall R, frob_finish (p ^ k) p n P F fact = OK R -> exists R', frob_finish (p ^ k') p n P F' fact' = OK R').
Proof.
  intros Pp Hk Hn HP F1 F2 F1' F2' Hv Ev Hu (LF & CF). pose proof (prime_ge_2 p Pp) as P2.
  assert (Dq : (p ^ k | p ^ k')) by (apply pow_divide_pow; lia).
  destruct (finish_ok p k n P F fact Pp ltac:(lia) Hn HP F1 F2) as (v1 & u1 & V1 & V2 & V3 & V4 & V5).
  destruct (finish_ok p k' n P F' fact' Pp ltac:(lia) Hn HP F1' F2') as (v2 & u2 & X1 & X2 & X3 & X4 & X5).
  rewrite Ev in V2, X2. destruct (val_unique p v u v1 u1 P2 Hv V1 V2 Hu V3) as [<- <-]. destruct (val_unique p v u v2 u2 P2 Hv X1 X2 Hu X3) as [<- <-].
  assert (FIN : forall R R', frob_finish (p ^ k) p n P F fact = OK R -> length R = length F -> length R' = length F' ->
    (forall i, (i < length F)%nat -> cong (p ^ Z.max 0 (k - lost n v)) (nth i R 0) (nth i R' 0)) ->
    length R = length R' /\ forall i, (i < length R')%nat -> nth i R 0 = nth i R' 0 mod p ^ Z.max 0 (k - lost n v)).
  { intros R R' E L L' C. split; [congruence|]. intros i Hi. destruct (finish_range p k n P F fact R v u Pp ltac:(lia) HP Hv Ev Hu E) as (_ & B).
    assert (Hi' : (i < length F)%nat) by lia. specialize (B i Hi'). specialize (C i Hi'). apply cong_iff_mod in C; [|lia]. rewrite Z.mod_small in C by lia. exact C. }
  destruct (Z.leb_spec v (n - 1)) as [L|L].
  - destruct (V4 L) as (R & R1 & R2 & R3). destruct (X4 L) as (R' & R1' & R2' & R3'). split.
    + intros R0 E. rewrite R1' in E. injection E as <-. exists R. split; auto. apply FIN; auto. intros i Hi. destruct (R3 i Hi) as (_ & A). destruct (R3' i ltac:(lia)) as (_ & A').
      assert (E0 : lost n v = 0) by (unfold lost; lia). rewrite E0.
      apply (cancel_pow p k 0 u); auto; try lia. rewrite Z.pow_0_r, !Z.mul_1_l. eapply cong_trans; [exact A|].
      eapply cong_trans; [|apply cong_sym, (cong_dvd _ _ _ _ Dq A')]. apply cong_mul; [apply cong_refl|apply CF; auto].
    + intros _ R0 _. exists R'. exact R1'.
  - assert (El : lost n v = v - (n - 1)) by (unfold lost; lia). split.
    + intros R' E. destruct (X5 L) as [(R0 & R1' & R2' & R3')|(R1' & _)]; rewrite R1' in E; [|discriminate]. injection E as <-.
      destruct (V5 L) as [(R & R1 & R2 & R3)|(R1 & i & I1 & I2)].
      * exists R. split; auto. apply FIN; auto. intros i Hi. destruct (R3 i Hi) as (_ & A). destruct (R3' i ltac:(lia)) as (_ & A'). rewrite El.
        apply (cancel_pow p k (v - (n - 1)) u); auto; try lia. eapply cong_trans; [exact A|]. eapply cong_trans; [apply CF; auto|].
        apply cong_sym, (cong_dvd _ _ _ _ Dq A').
      * exfalso. destruct (R3' i ltac:(lia)) as (_ & A'). apply (I2 (u * nth i R0 0)). eapply cong_trans; [|apply cong_sym, CF; auto].
        eapply cong_trans; [|apply (cong_dvd _ _ _ _ Dq A')]. apply cong_of_eq. ring.
    + intros Lk R E. destruct (X5 L) as [(R0 & R1' & _)|(R1' & i & I1 & I2)]; [eauto|]. exfalso.
      destruct (V5 L) as [(R0 & R1 & R2 & R3)|(R1 & _)]; rewrite R1 in E; [|discriminate]. injection E as <-.
      assert (Hi : (i < length F)%nat) by lia. destruct (R3 i Hi) as (_ & A). rewrite El in Lk.
      assert (X : cong (p ^ k) (nth i F' 0) (u * (p ^ (v - (n - 1)) * nth i R0 0))) by (eapply cong_trans; [apply cong_sym, CF; auto|apply cong_sym; exact A]).
      destruct X as [c Hc]. apply (I2 (u * nth i R0 0 + c * p ^ (k - (v - (n - 1))))). apply cong_of_eq.
      assert (Ek : p ^ k = p ^ (v - (n - 1)) * p ^ (k - (v - (n - 1)))) by (rewrite <- Z.pow_add_r by lia; f_equal; lia). rewrite Ek in Hc. lia.
Qed.
