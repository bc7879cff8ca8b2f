(** Proofs about isND and the search for a change of variables. *)
From Coq Require Import ZArith List Bool Lia Znumtheory.
From Verif Require Import Base VecModel VecSpec VecProofs ToolsModel ToolsSpec ToolsProofs PolyProofs MatModel MatProofs DRModel DRSpec DRProofs DRRed DRLemmas
  FrobModel NDModel NDSpec NDMat LinAlg SolveModel SolveSpec SolveProofs SmoothProofs ChangeModel ChangeSpec.
Import ListNotations.
Open Scope Z_scope.

Section ND.
  Variables (p q : Z) (lu : ech_fun) (n : nat) (d : Z) (tl : list (list vec)).
  Hypothesis Pp : prime p.
  Hypothesis Hpq : (p | q).
  Hypothesis HE : ech_spec p lu.
  Hypothesis Hd : 1 <= d.
  Hypothesis Htl : init_tuples n d = OK tl.
  Let l := (d - 1) * (Z.of_nat n + 1) + 1.

  Lemma is_nd_ok f : f <> [] -> wf_poly n d f -> exists b, is_nd lu p q f = OK b /\ (b = true <-> non_degenerate p n d f).
  Proof.
    intros Hf W. unfold is_nd. destruct f as [|[a0 c0] f'] eqn:Ef; [congruence|]. rewrite <- Ef in *.
    destruct (proj2 W a0 c0) as (A1 & A2 & A3); [rewrite Ef; now left|].
    rewrite A1, A3. replace (S n - 1)%nat with n by lia. rewrite Htl. cbn [bind].
    set (D := mk_dR p 1 q n d f tl (map tuple_index tl) [] []).
    assert (base : dr_base D).
    { constructor; cbn [r_d r_n r_f r_tl r_td D]; [lia|apply W|apply W| |].
      - intros k Hk. eapply init_tuples_ok; eauto.
      - intros k Hk. eapply (get_at_map tuple_index). eapply init_tuples_ok; eauto. }
    destruct (matrix_ND_entry D base l) as (T & MJ & ST & MT); [cbn [r_d r_n D]; unfold l; nia|].
    cbn [r_d r_n r_f r_q D] in *. change (top_ND D) with l.
    rewrite MJ. cbn [bind fst snd]. eexists. split; [reflexivity|].
    set (rows := enum (S n) (Z.to_nat l)) in *. set (lo := enum (S n) (Z.to_nat (l - d))) in *.
    assert (LT : length T = length rows) by apply ST. rewrite LT. pose proof (prime_ge_2 p Pp) as P2.
    rewrite Nat.eqb_eq. transitivity (fst (lu p (length rows) (S n * length lo)%nat (reduce_mat p T)) = length rows); [split; auto|]. etransitivity.
    { apply (ideal_rank p lu n rows lo (reduce_mat p T) (coef_xdx f) Pp HE);
        [apply enum_NoDup|apply enum_NoDup|now apply reduce_mat_shape|apply reduce_mat_reduced; lia|].
      intros r i j Hr Hi Hj. rewrite reduce_mat_get. eapply cong_trans; [apply cong_mod_any|].
      apply cong_div with q; auto. }
    assert (Hin : forall t, is_tuple (S n) l t <-> In t rows).
    { intros t. unfold rows. rewrite enum_In by lia. rewrite Z2Nat.id by (unfold l; nia). reflexivity. }
    unfold non_degenerate, in_log_jacobian.
    split; intros X G; destruct (X G) as (h & Hh); exists h; intros t Ht; apply Hh, Hin, Ht.
  Qed.
End ND.

(** * the change of variables modulo q is the exact one, coefficient by coefficient *)
Definition pcong (q : Z) (f g : poly) : Prop := Forall2 (fun a b => fst a = fst b /\ cong q (snd a) (snd b)) f g.

Lemma vfind_pcong q k f g : pcong q f g ->
  match vfind k f, vfind k g with Some a, Some b => cong q a b | None, None => True | _, _ => False end.
Proof.
  induction 1 as [|[k1 a] [k2 b] f g [E C] H IH]; [exact I|]. cbn [fst snd] in *. subst k2. cbn [vfind].
  unfold vfind in *. cbn [mfind]. destruct (vltb k k1); [exact I|]. destruct (vltb k1 k); auto.
Qed.

Lemma vinsert_pcong q k a b f g : cong q a b -> pcong q f g -> pcong q (vinsert k a f) (vinsert k b g).
Proof.
  intros C. induction 1 as [|[k1 a1] [k2 b1] f g [E C1] H IH]; [repeat constructor; auto|].
  cbn [fst snd] in *. subst k2. unfold vinsert in *. cbn [minsert].
  destruct (vltb k k1); [constructor; [split; auto|constructor; [split; auto|auto]]|].
  destruct (vltb k1 k); constructor; cbn [fst snd]; auto.
Qed.

Lemma vaccum_pcong q k a b f g : cong q a b -> pcong q f g ->
  pcong q (vaccum (fun x y => (x + y) mod q) k a f) (vaccum (fun x y => (x + y) mod 0) k b g).
Proof.
  intros C H. pose proof (vfind_pcong q k f g H) as V. unfold vaccum.
  destruct (vfind k f) as [x|], (vfind k g) as [y|]; try tauto; apply vinsert_pcong; auto.
  rewrite Zmod_0_r. eapply cong_trans; [apply cong_mod_any|]. now apply cong_add.
Qed.

Lemma pmul_pcong q f f' g g' : pcong q f f' -> pcong q g g' -> pcong q (pmul q f g) (pmul 0 f' g').
Proof.
  intros F G. unfold pmul, pmul_into.
  assert (A : forall acc acc', pcong q acc acc' -> pcong q
    (fold_left (fun acc h => fold_left (fun acc x => vaccum (fun a b => (a + b) mod q) (vadd (fst h) (fst x)) ((snd h * snd x) mod q) acc) g acc) f acc)
    (fold_left (fun acc h => fold_left (fun acc x => vaccum (fun a b => (a + b) mod 0) (vadd (fst h) (fst x)) ((snd h * snd x) mod 0) acc) g' acc) f' acc'));
    [|apply A; constructor].
  induction F as [|[k a] [k' b] f f' [E C] F IH]; intros acc acc' H; [exact H|]. cbn [fst snd] in E, C. subst k'.
  cbn [fold_left fst snd]. apply IH. clear IH F. revert acc acc' H.
  induction G as [|[l x] [l' y] g g' [E' C'] G IH]; intros acc acc' H; [exact H|]. cbn [fst snd] in E', C'. subst l'.
  cbn [fold_left fst snd]. apply IH. apply vaccum_pcong; auto. rewrite Zmod_0_r.
  eapply cong_trans; [apply cong_mod_any|]. now apply cong_mul.
Qed.

Lemma pcong_refl q f : pcong q f f.
Proof. induction f; constructor; auto. split; auto. apply cong_refl. Qed.

Lemma cov_term_pcong q n rows e c : pcong q (cov_term q n rows e c) (cov_term 0 n rows e c).
Proof.
  unfold cov_term. generalize (seq 0 n). generalize (pcong_refl q [(repeat 0 n, c)]).
  assert (P : forall k X H H', pcong q H H' -> pcong q (cov_pow q k X H) (cov_pow 0 k X H')).
  { induction k as [|k IH]; intros X H H' R; cbn [cov_pow]; auto. apply IH, pmul_pcong; auto. apply pcong_refl. }
  generalize [(repeat 0 n, c)] at 1 3. generalize [(repeat 0 n, c)].
  intros H H' R l. revert H H' R. induction l as [|i l IH]; intros H H' R; cbn [fold_left]; auto.
Qed.

Lemma cov_pcong q f M g : change_of_variables q f M = OK g ->
  exists g0, change_of_variables 0 f M = OK g0 /\ pcong q g g0.
Proof.
  unfold change_of_variables. destruct (negb _); [discriminate|]. destruct (negb _); [discriminate|].
  intros E. injection E as <-. eexists. split; [reflexivity|].
  generalize (pcong_refl q []). generalize (@nil (vec * Z)) at 1 3. generalize (@nil (vec * Z)).
  induction f as [|[e c] f IH]; intros H H' R; cbn [fold_left fst snd]; auto. apply IH. clear IH.
  unfold padd_into. generalize (cov_term_pcong q (length M) (map (cov_row (length M)) M) e c).
  generalize (cov_term q (length M) (map (cov_row (length M)) M) e c) (cov_term 0 (length M) (map (cov_row (length M)) M) e c).
  intros T T' RT. revert H H' R. induction RT as [|[k a] [k' b] T T' [E C] RT IH]; intros H H' R; [exact R|].
  cbn [fst snd] in E, C. subst k'. cbn [fold_left fst snd]. apply IH. apply vaccum_pcong; auto.
Qed.

(** * a change of variables never gives an empty map *)
Lemma vinsert_ne k c (P : vmap Z) : vinsert k c P <> [].
Proof.
  unfold vinsert. destruct P as [|[k' v'] P]; cbn [minsert]; [discriminate|].
  destruct (vltb _ _); [discriminate|]. destruct (vltb _ _); discriminate.
Qed.

Lemma vaccum_ne f k c (P : vmap Z) : vaccum f k c P <> [].
Proof. unfold vaccum. destruct (vfind k P); apply vinsert_ne. Qed.

Lemma fold_ne {A B} (F : list B -> A -> list B) l acc : (forall acc a, F acc a <> []) -> acc <> [] \/ l <> [] ->
  fold_left F l acc <> [].
Proof.
  intros HF. revert acc. induction l as [|a l IH]; intros acc [H|H]; cbn [fold_left]; try tauto; apply IH; left; apply HF.
Qed.

Lemma fold_ne' {A B} (F : list B -> A -> list B) l acc : (forall acc a, In a l -> acc <> [] -> F acc a <> []) -> acc <> [] ->
  fold_left F l acc <> [].
Proof.
  revert acc. induction l as [|a l IH]; intros acc HF H; cbn [fold_left]; try tauto.
  apply IH; [intros acc' b Hb; apply HF; now right|]. apply HF; [now left|auto].
Qed.

Lemma pmul_ne q f g : f <> [] -> g <> [] -> pmul q f g <> [].
Proof.
  intros F G. unfold pmul, pmul_into. apply fold_ne; [|now right]. intros acc a. apply fold_ne; [|now right].
  intros; apply vaccum_ne.
Qed.

Lemma cov_ne q f M g : f <> [] -> M <> [] -> change_of_variables q f M = OK g -> g <> [].
Proof.
  intros Hf HM. unfold change_of_variables. destruct (negb _); [discriminate|]. destruct (negb _); [discriminate|].
  intros E. injection E as <-. set (n := length M).
  assert (Hr : forall i, (i < n)%nat -> nth i (map (cov_row n) M) [] <> []).
  { intros i Hi. rewrite (nth_indep _ [] (cov_row n [])) by (rewrite map_length; auto). rewrite map_nth.
    unfold cov_row. apply fold_ne; [intros; apply vinsert_ne|]. right. destruct n; [lia|discriminate]. }
  assert (Ht : forall e c, cov_term q n (map (cov_row n) M) e c <> []).
  { intros e c. unfold cov_term. apply fold_ne'; [|discriminate]. intros acc i Hi. apply in_seq in Hi.
    generalize (Hr i ltac:(lia)). generalize (nth i (map (cov_row n) M) []). intros X HX. revert acc.
    induction (Z.to_nat (nth i e 0)) as [|k IH]; intros acc Ha; cbn [cov_pow]; auto. apply IH, pmul_ne; auto. }
  apply fold_ne; [|now right]. intros acc [e c]. cbn [fst snd]. unfold padd_into.
  apply fold_ne; [intros; apply vaccum_ne|]. right. apply Ht.
Qed.

Lemma cov_wf p n d f M : wf_poly n d f -> shape M (S n) (S n) ->
  exists g, change_of_variables p f M = OK g /\ (f <> [] -> g <> []) /\ wf_poly n d g.
Proof.
  intros W [S1 S2]. rewrite Forall_forall in S2. 
  destruct (change_of_variables_ok p f M) as (g & E & K & _ & Z).
  - intros r Hr. rewrite S1. auto.
  - intros k c Hk. destruct (proj2 W k c Hk) as (A & B & _). rewrite S1. auto.
  - exists g. split; [exact E|]. split.
    { intros Hf. eapply cov_ne; eauto. intros ->. discriminate. }
    rewrite S1 in K. split; [apply K|]. intros a c Ha. destruct (Z a c Ha) as (e & c' & He & Ez).
    destruct (proj2 W e c' He) as (_ & _ & D). repeat split; [|eapply K; eauto|lia].
    exact (msorted_D vltb (fun k => length k = S n) g a c (proj1 K) Ha).
Qed.
