(** Property C65: what isSmooth and isND decide, in terms of points with coordinates
    in arbitrary fields. *)
From Coq Require Import ZArith List Bool Lia Znumtheory Setoid Ring Ring_theory.
From Verif Require Import Base VecModel VecSpec VecProofs ToolsModel ToolsSpec ToolsProofs MatModel MatProofs DRModel DRSpec DRProofs
  FrobModel FrobTop NDModel NDSpec FrobNDModel LinAlg SolveModel SolveSpec SolveProofs SmoothProofs
  LuInst LuFast ChangeModel ChangeSpec ChangeProofs ChangeFind ChangeProps ArgsModel ArgsProofs CharModel CharSpec CharProps ZetaModel ZetaProofs ZetaProps RunModel HilbCode HilbProps RunProofs RunProps CtorSpec CtorModel InvModel FlintProps UniqProps DwModel DwProofs DwProps PtSpec PtMain.
Import ListNotations.
Open Scope Z_scope.

(** C65: the algebraic condition of the other theorems, all forms of degree
    (d-2)(n+1)+1 lie in the Jacobian ideal modulo p, says that the partial
    derivatives have no common zero over any field of characteristic p *)
Theorem C65_smooth : forall p n d f tl, prime p -> f <> [] -> wf_poly n d f -> 2 <= d -> init_tuples n d = OK tl ->
  smooth p n d f <-> no_common_zero p n (partial f).
Proof.
  intros p n d f tl Pp Hf W Hd Htl. destruct (smooth_points p n d f tl Pp W Htl Hd) as (A & B).
  destruct (is_smooth_ok p p lu_inst f n d tl Pp (Z.divide_refl p) (lu_inst_spec p Pp) Hf W Hd Htl) as (b & _ & Hb). split; [exact A|]. intros H. apply B in H.
  destruct b; [exact (proj1 Hb eq_refl)|]. exfalso. apply H. intros S. discriminate (proj2 Hb S).
Qed.
Print Assumptions C65_smooth.

(** C65: and non-degeneracy, that the x_i df/dx_i have none *)
Theorem C65_nd : forall p n d f tl, prime p -> f <> [] -> wf_poly n d f -> 1 <= d -> init_tuples n d = OK tl ->
  non_degenerate p n d f <-> no_common_zero p n (log_partial f).
Proof.
  intros p n d f tl Pp Hf W Hd Htl. destruct (nd_points p n d f tl Pp W Htl Hd) as (A & B).
  destruct (C47_isND p p lu_inst f n d tl Pp (Z.divide_refl p) (lu_inst_spec p Pp) Hd Htl Hf W) as (b & _ & Hb). split; [exact A|]. intros H. apply B in H.
  destruct b; [exact (proj1 Hb eq_refl)|]. exfalso. apply H. intros S. discriminate (proj2 Hb S).
Qed.
Print Assumptions C65_nd.

(** C65: the answers of isSmooth and isND *)
Theorem C65_isSmooth : forall p q lu n d f tl, prime p -> (p | q) -> ech_spec p lu -> f <> [] -> wf_poly n d f -> 2 <= d -> init_tuples n d = OK tl ->
  exists b, is_smooth lu p q f = OK b /\ (b = true <-> no_common_zero p n (partial f)).
Proof.
  intros p q lu n d f tl Pp Hq HL Hf W Hd Htl. destruct (is_smooth_ok p q lu f n d tl Pp Hq HL Hf W Hd Htl) as (b & Eb & Hb). exists b. split; auto.
  rewrite <- (C65_smooth p n d f tl) by auto. exact Hb.
Qed.
Print Assumptions C65_isSmooth.
Theorem C65_isND : forall p q lu n d f tl, prime p -> (p | q) -> ech_spec p lu -> f <> [] -> wf_poly n d f -> 1 <= d -> init_tuples n d = OK tl ->
  exists b, is_nd lu p q f = OK b /\ (b = true <-> no_common_zero p n (log_partial f)).
Proof.
  intros p q lu n d f tl Pp Hq HL Hf W Hd Htl. destruct (C47_isND p q lu f n d tl Pp Hq HL Hd Htl Hf W) as (b & Eb & Hb). exists b. split; auto.
  rewrite <- (C65_nd p n d f tl) by auto. exact Hb.
Qed.
Print Assumptions C65_isND.

(** C65: a common zero of the derivatives is a singular point of the hypersurface,
    that is also a zero of f, unless p divides d *)
Theorem C65_euler : forall F p n d f x, prime p -> ~ (p | d) -> feq F (fofZ F p) (f0 F) -> wf_poly n d f ->
  common_zero F n (partial f) x <-> singular_point F n f x.
Proof.
  intros F p n d f x Pp Hd Hp W. split; [|intros (A & _); exact A]. intros (A & B & C). split; [split; auto|].
  exact (euler_zero F n d p f x Pp Hd Hp W A C).
Qed.
Print Assumptions C65_euler.

(** C65: the constructor de_Rham_local accepts f exactly if p does not divide d and
    there is no singular point *)
Theorem C65_constructor : forall p prec lu inv n d f tl,
  prime p -> 1 <= prec -> ech_spec p lu -> inv_spec p inv -> f <> [] -> wf_poly n d f -> Z.of_nat n < d -> 2 <= d -> init_tuples n d = OK tl ->
  (exists D, init (padic_solver lu inv p (p ^ prec) prec) (p ^ prec) p prec f = OK D) <->
  ~ (p | d) /\ forall F, feq F (fofZ F p) (f0 F) -> forall x, ~ singular_point F n f x.
Proof.
  intros p prec lu inv n d f tl Pp Hprec HL HI Hf W Hnd Hd Htl. rewrite (C53_constructor p prec lu inv n d f tl) by auto.
  change (smooth p n d f /\ ~ (p | d) <-> ~ (p | d) /\ forall F, feq F (fofZ F p) (f0 F) -> forall x, ~ singular_point F n f x).
  rewrite (C65_smooth p n d f tl) by auto. split.
  - intros (H & D). split; auto. intros F Hp x (A & _). exact (H F Hp x A).
  - intros (D & H). split; auto. intros F Hp x A. apply (H F Hp x). now apply (C65_euler F p n d f x).
Qed.
Print Assumptions C65_constructor.

(** C65: zeta_function throws its exception for every f with a singular point over
    any field; if there is none, it accepts f *)
Theorem C65_zeta_function : forall lu gauss inv det rnd n d f p abs increase better prec N cprec lift tl,
  prime p -> 3 <= p -> abs <= 28 -> ech_spec p lu -> ech_spec p gauss -> inv_spec p inv -> det_spec p det -> f <> [] -> wf_poly n d f -> 2 <= d -> init_tuples n d = OK tl ->
  zeta_args p (Z.of_nat n) d abs increase = OK (prec, N, cprec, lift) ->
  (forall i, (snd (rnd i) < S n)%nat /\ Forall (fun A => shape A (S n) (S n) /\ mreduced p A) (fst (rnd i)) /\ Exists (invertible p (S n)) (fst (rnd i))) ->
  (forall F x, feq F (fofZ F p) (f0 F) -> common_zero F n (partial f) x -> zeta_function lu gauss inv det rnd f p abs increase better = Err EAbort) /\
  (no_common_zero p n (partial f) -> exists g nd D, chosen p (p ^ prec) n d better f g nd /\ no_common_zero p n (partial g) /\
    init (padic_solver lu inv p (p ^ prec) prec) (p ^ prec) p prec g = OK D).
Proof.
  intros lu gauss inv det rnd n d f p abs increase better prec N cprec lift tl Pp P3 Habs HL HG HI HD Hf W Hd Htl HA Hr.
  pose proof (C65_smooth p n d f tl Pp Hf W Hd Htl) as S.
  destruct (C54_zeta_function lu gauss inv det rnd n d f p abs increase better prec N cprec lift Pp P3 Habs HL HG HI HD Hf W HA Hr) as [(NS & E)|(SM & g & nd & D & H1 & H2 & H3 & H4 & _)].
  - split; [intros; exact E|]. intros H. exfalso. now apply NS, S.
  - split.
    + intros F x Hp C. exfalso. apply S in SM. exact (SM F Hp x C).
    + intros _. exists g, nd, D. split; auto. split; auto. apply (C65_smooth p n d g tl); auto. intros ->. discriminate H4.
Qed.
Print Assumptions C65_zeta_function.

(** C65: with the law of excluded middle, a negative answer means that there is a
    point over a field in the usual sense *)
Theorem C65_witness : (forall P, P \/ ~ P) -> forall p q lu n d f tl, prime p -> (p | q) -> ech_spec p lu -> f <> [] -> wf_poly n d f -> 2 <= d -> init_tuples n d = OK tl ->
  is_smooth lu p q f = OK false -> exists F x, has_inverses F /\ feq F (fofZ F p) (f0 F) /\ common_zero F n (partial f) x.
Proof.
  intros LEM p q lu n d f tl Pp Hq HL Hf W Hd Htl E. destruct (C65_isSmooth p q lu n d f tl Pp Hq HL Hf W Hd Htl) as (b & Eb & Hb). rewrite E in Eb. injection Eb as <-.
  destruct (LEM (exists F x, has_inverses F /\ feq F (fofZ F p) (f0 F) /\ common_zero F n (partial f) x)) as [H|H]; auto. exfalso.
  assert (X : false = true); [|discriminate]. apply Hb. intros F Hp x C. apply H. exists F, x. split; auto.
  intros a Ha. destruct (LEM (exists b, feq F (fmul F a b) (f1 F))) as [K|K]; auto. exfalso. exact (f_inv F a Ha K).
Qed.
Print Assumptions C65_witness.

(** C65: the surfaces of the Dwork pencil (C64) *)
Theorem C65_dwork : forall p lambda, prime p -> 3 <= p ->
  (forall F, feq F (fofZ F p) (f0 F) -> forall x, ~ singular_point F 3 (quartic lambda) x) <-> ~ (p | lambda ^ 4 - 256).
Proof.
  intros p lambda Pp P3. destruct tuples_3_4 as (tl & Htl). pose proof (proj1 (C64_polynomial lambda 0 0 0 0)) as W.
  rewrite <- (proj1 (C64_smooth p lambda Pp P3)). rewrite (C65_smooth p 3 4 (quartic lambda) tl Pp ltac:(discriminate) W ltac:(lia) Htl).
  assert (D : ~ (p | 4)). { change 4 with (2 * 2). intros K. apply prime_mult in K; auto. destruct K as [K|K]; apply Z.divide_pos_le in K; lia. }
  split; intros H F Hp x C; apply (H F Hp x); now apply (C65_euler F p 3 4 (quartic lambda) x Pp D Hp W).
Qed.
Print Assumptions C65_dwork.

(** * examples *)
(** the field with p elements *)
Definition Fp (p : Z) (Pp : prime p) : fld.
Proof.
  refine (mk_fld Z (cong p) 0 1 Z.add Z.mul Z.opp (Build_Equivalence _ (cong_refl p) (cong_sym p) (cong_trans p)) _ _ _ _ _ _).
  - intros; now apply cong_add.
  - intros; now apply cong_mul.
  - intros a a' (k & Hk). exists (- k). lia.
  - constructor; intros; apply cong_of_eq; ring.
  - intros (k & Hk). pose proof (prime_ge_2 p Pp). assert (p | 1) as K by (exists k; lia). apply Z.divide_1_r in K. lia.
  - intros a Ha K. apply K. destruct (rel_prime_bezout a p) as [u v Huv].
    + apply rel_prime_sym, prime_rel_prime; auto. intros (k & Hk). apply Ha. exists k. lia.
    + exists u. exists (- v). lia.
Defined.

(** (1 : 1 : 1 : 1) is a singular point of x^4 + y^4 + z^4 + w^4 - 4 xyzw over the
    field with 5 elements *)
Example C65_point_ex : feq (Fp 5 prime_5) (fofZ (Fp 5 prime_5) 5) 0 /\ singular_point (Fp 5 prime_5) 3 (quartic (-4)) [1; 1; 1; 1].
Proof.
  split; [now exists 1|]. split; [split; [reflexivity|split]|].
  - exists 0%nat. split; [lia|]. intros (k & Hk). cbn in Hk. lia.
  - intros i Hi. assert (I : (i = 0 \/ i = 1 \/ i = 2 \/ i = 3)%nat) by lia. destruct I as [->|[->|[->| ->]]]; exists 0; vm_compute; reflexivity.
  - exists 0. vm_compute. reflexivity.
Qed.

(** x^2 + y^2 has no zero over the field with 3 elements; isSmooth still finds that
    its square has singular points, over a larger field *)
Definition ex_square : poly := [([0; 4], 1); ([2; 2], 2); ([4; 0], 1)].
Lemma ex_sq a b : (3 | a * (a * a + b * b)) -> cong 3 a 0.
Proof.
  intros D. assert (R : forall c, exists r, cong 3 c r /\ (r = 0 \/ r = 1 \/ r = 2)).
  { intros c. exists (c mod 3). split; [exists (c / 3); pose proof (Z.div_mod c 3); lia|]. pose proof (Z.mod_pos_bound c 3). lia. }
  destruct (R a) as (r & Ca & Hr). destruct (R b) as (s & Cb & Hs).
  assert (C : cong 3 (a * (a * a + b * b)) (r * (r * r + s * s))) by (apply cong_mul; [exact Ca|apply cong_add; now apply cong_mul]).
  eapply cong_trans; [exact Ca|]. destruct D as (k & Dk), C as (l & Cl). rewrite Dk in Cl. clear Dk Ca Cb.
  destruct Hr as [->|[->| ->]]; [apply cong_refl| |]; exfalso; destruct Hs as [->|[->| ->]]; lia.
Qed.
Example C65_extension_ex : wf_poly 1 4 ex_square /\ (exists tl, init_tuples 1 4 = OK tl) /\
  (forall x, ~ common_zero (Fp 3 prime_3) 1 (partial ex_square) x) /\ is_smooth lu_inst 3 9 ex_square = OK false /\ ~ no_common_zero 3 1 (partial ex_square).
Proof.
  assert (W : wf_poly 1 4 ex_square).
  { split; [repeat constructor; cbn [In]; try tauto; intros k v H; repeat destruct H as [H|H]; try contradiction; now injection H as <- <-|].
    intros t c I. repeat destruct I as [I|I]; try contradiction; injection I as <- <-; repeat split; repeat constructor; lia. }
  assert (E : is_smooth lu_inst 3 9 ex_square = OK false) by (vm_compute; reflexivity).
  destruct (init_tuples_total 1 4 eq_refl) as (tl & Htl).
  split; [exact W|]. split; [eauto|]. split; [|split; [exact E|]].
  - intros x (Lx & (i & Hi & Nx) & H). destruct x as [|a [|b [|]]]; try discriminate Lx. change (~ cong 3 (nth i [a; b] 0) 0) in Nx.
    pose proof (H 0%nat ltac:(lia)) as H0. pose proof (H 1%nat ltac:(lia)) as H1.
    change (cong 3 (feval (Fp 3 prime_3) (partial ex_square 0) [a; b]) 0) in H0. change (cong 3 (feval (Fp 3 prime_3) (partial ex_square 1) [a; b]) 0) in H1.
    destruct H0 as (k0 & H0), H1 as (k1 & H1).
    apply Nx. destruct i as [|[|i]]; [|clear Nx|lia].
    + apply (ex_sq a b). let g := eval vm_compute in (partial ex_square 0) in change (partial ex_square 0) with g in H0. lazy -[Z.mul Z.add Z.sub] in H0. exists (k0 - a * (a * a + b * b)). match type of H0 with ?X = _ => assert (E1 : X = 4 * (a * (a * a + b * b))) by ring end. lia.
    + apply (ex_sq b a). let g := eval vm_compute in (partial ex_square 1) in change (partial ex_square 1) with g in H1. lazy -[Z.mul Z.add Z.sub] in H1. exists (k1 - b * (b * b + a * a)). match type of H1 with ?X = _ => assert (E1 : X = 4 * (b * (b * b + a * a))) by ring end. lia.
  - destruct (C65_isSmooth 3 9 lu_inst 1 4 ex_square tl prime_3 ltac:(exists 3; reflexivity) (lu_inst_spec 3 prime_3) ltac:(discriminate) W ltac:(lia) Htl) as (b & Eb & Hb).
    rewrite E in Eb. injection Eb as <-. intros K. apply Hb in K. discriminate.
Qed.
