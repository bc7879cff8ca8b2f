(** C62: the change of variables in test_invariance_ND and test_JND_and_invariance.
    The second hypersurface is given by f(S x) with a matrix S of determinant 1, then
    by a second change that makes it non-degenerate; if the 1000 attempts to find
    one all fail, the zero matrix is used without a check, and the second object is
    that of the zero polynomial. *)
From Coq Require Import ZArith Znumtheory List Bool Lia.
From Verif Require Import Base VecModel VecSpec ToolsModel ToolsSpec PolyProofs MatModel MatProofs DRModel DRSpec DRProofs DRRed NDModel NDSpec LinAlg SolveModel SolveSpec LuInst
  ChangeModel ChangeSpec ChangeProofs ChangeFind ChangeProps RunModel RunProofs InvModel ExIdent ExProofs ChangeMC.
Import ListNotations.
Open Scope Z_scope.

Lemma ident_det p n : cong p (detf n (mget (ident n))) 1.
Proof.
  rewrite <- (detf_delta n). apply detf_cong. intros i j Hi Hj. apply cong_of_eq. unfold mget. rewrite (ident_row n i Hi).
  rewrite (nth_indep _ 0 (if Nat.eqb i n then 1 else 0)) by now rewrite map_length, seq_length.
  rewrite (map_nth (fun j => if Nat.eqb i j then 1 else 0)). now rewrite seq_nth.
Qed.

Lemma zmod0 q : 0 mod q = 0.
Proof. destruct q; reflexivity. Qed.
(** with the zero matrix every coefficient becomes 0 *)
Definition allz (f : poly) : Prop := Forall (fun t => snd t = 0) f.
Lemma allz_minsert k (f : poly) : allz f -> allz (vinsert k 0 f).
Proof.
  unfold vinsert. induction 1 as [|[k' c'] f H HF IH]; cbn [minsert]; [repeat constructor|].
  destruct (vltb k k'); [repeat constructor; auto|]. destruct (vltb k' k); repeat constructor; auto.
Qed.
Lemma allz_find k (f : poly) c : allz f -> vfind k f = Some c -> c = 0.
Proof.
  unfold vfind. induction 1 as [|[k' c'] f H HF IH]; cbn [mfind]; [discriminate|]. destruct (vltb k k'); [discriminate|]. destruct (vltb k' k); [exact IH|]. cbn in H. now intros [= <-].
Qed.
Lemma allz_accum q k f : allz f -> allz (vaccum (fun a b => (a + b) mod q) k 0 f).
Proof.
  intros H. unfold vaccum. destruct (vfind k f) as [c|] eqn:E; [|now apply allz_minsert]. rewrite (allz_find k f c H E). rewrite zmod0. now apply allz_minsert.
Qed.
Lemma allz_fold {A} (h : poly -> A -> poly) l : (forall acc a, In a l -> allz acc -> allz (h acc a)) -> forall acc, allz acc -> allz (fold_left h l acc).
Proof. induction l as [|a l IH]; intros H acc Ha; cbn [fold_left]; [exact Ha|]. apply IH; [intros; apply H; auto; now right|]. apply H; auto. now left. Qed.
Lemma allz_pmul q H X : allz H \/ allz X -> allz (pmul q H X).
Proof.
  intros Z0. unfold pmul, pmul_into. apply allz_fold; [|constructor]. intros acc h Ih Ha. apply allz_fold; [|exact Ha]. intros acc' x Ix Ha'.
  assert (E : snd h * snd x = 0). { unfold allz in Z0. rewrite !Forall_forall in Z0. destruct Z0 as [Z0|Z0]; [rewrite (Z0 _ Ih)|rewrite (Z0 _ Ix)]; ring. }
  rewrite E, zmod0. now apply allz_accum.
Qed.
Lemma allz_pow q X : forall k H, allz H \/ (allz X /\ (0 < k)%nat) -> allz (cov_pow q k X H).
Proof.
  induction k as [|k IH]; intros H [Z0|(Z0 & K)]; cbn [cov_pow]; [exact Z0|lia| |]; apply IH; left; apply allz_pmul; auto.
Qed.
Lemma allz_term q n rows e c : (forall i, (i < n)%nat -> allz (nth i rows [])) -> (exists i, (i < n)%nat /\ 0 < nth i e 0) -> allz (cov_term q n rows e c).
Proof.
  intros HR (i & Hi & He). unfold cov_term.
  replace (seq 0 n) with (seq 0 i ++ i :: seq (S i) (n - S i)).
  2: { replace n with (i + S (n - S i))%nat at 2 by lia. rewrite seq_app. reflexivity. }
  rewrite fold_left_app. cbn [fold_left]. apply allz_fold.
  - intros acc j _ Ha. apply allz_pow. now left.
  - apply allz_pow. right. split; [now apply HR|lia].
Qed.
Lemma allz_cov q n d f g : 1 <= d -> wf_poly n d f -> change_of_variables q f (mzero (S n) (S n)) = OK g -> allz g.
Proof.
  intros Hd W. assert (LM : length (mzero (S n) (S n)) = S n) by (unfold mzero; now rewrite repeat_length).
  revert LM. remember (mzero (S n) (S n)) as M eqn:EM. intros LM. unfold change_of_variables. destruct (negb _); [discriminate|]. destruct (negb _); [discriminate|]. intros E.
  injection E as <-. rewrite LM.
  apply allz_fold; [|constructor]. intros acc [e c] I Ha. cbn [fst snd]. unfold padd_into.
  assert (T : allz (cov_term q (S n) (map (cov_row (S n)) M) e c)).
  { rewrite EM. clear EM LM. apply allz_term.
    - intros i Hi. rewrite (nth_indep _ [] (cov_row (S n) [])) by (rewrite map_length; unfold mzero; now rewrite repeat_length). rewrite map_nth.
      unfold cov_row. apply allz_fold; [|constructor]. intros m j Ij Hm.
      replace (nth j (nth i (mzero (S n) (S n)) []) 0) with 0; [now apply allz_minsert|].
      unfold mzero. rewrite (nth_indep _ [] (repeat 0 (S n))) by now rewrite repeat_length. rewrite nth_repeat. now rewrite nth_repeat.
    - destruct (proj2 W e c I) as (L & NN & SU). clear - L NN SU Hd. revert L SU. generalize (S n). revert Hd. generalize d. induction NN as [|k e K0 NN IH]; intros dd Hd m L SU; cbn [length zsum fold_right] in *.
      + exfalso. cbn in SU. lia.
      + destruct m as [|m]; [discriminate|]. destruct (Z_lt_le_dec 0 k) as [K|K]; [exists 0%nat; cbn [nth]; lia|].
        assert (k = 0) by lia. subst k. destruct (IH dd Hd m) as (i & Hi & E); [lia|cbn in SU; lia|]. exists (S i). cbn [nth]. split; [lia|exact E]. }
  unfold allz in T. rewrite Forall_forall in T. apply allz_fold; [|exact Ha]. intros acc' h Ih Ha'. rewrite (T h Ih). now apply allz_accum.
Qed.

Theorem C62_transform : forall lu gauss det cands row rnd p q n d tl f,
  prime p -> (p | q) -> ech_spec p lu -> ech_spec p gauss -> det_spec p det -> 1 <= d -> init_tuples n d = OK tl -> f <> [] -> wf_poly n d f ->
  (row < S n)%nat -> Forall (fun A => shape A (S n) (S n) /\ mreduced p A) cands -> Exists (invertible p (S n)) cands ->
  (forall i, (snd (rnd i) < S n)%nat /\ Forall (fun A => shape A (S n) (S n) /\ mreduced p A) (fst (rnd i)) /\
     Exists (invertible p (S n)) (fst (rnd i))) ->
  exists S1 g M h, transform_ND lu gauss det cands row rnd p q n f = OK h /\
    shape S1 (S n) (S n) /\ cong p (detf (S n) (mget S1)) 1 /\ wf_poly n d g /\ substitutes p f S1 g /\
    shape M (S n) (S n) /\ wf_poly n d h /\ substitutes p g M h /\
    ((cong p (detf (S n) (mget M)) 1 /\ non_degenerate p n d h) \/
     (M = mzero (S n) (S n) /\ Forall (fun t => snd t = 0) h /\ ~ non_degenerate p n d g /\
      forall j, (j < 1000)%nat -> exists R g', drawn gauss det p n d g rnd j R g' /\ ~ non_degenerate p n d g')).
Proof.
  intros lu gauss det cands row rnd p q n d tl f Pp Hpq HL HG HD Hd Htl Hf W Hr HF HE Hrnd.
  destruct (C45_random_SL p gauss det (S n) row cands Pp HG HD Hr HF) as [(NI & _)|(bad & A & later & di & S1 & _ & _ & _ & ES & SS & _ & DS & _)].
  { exfalso. apply Exists_exists in HE. destruct HE as (A & IA & VA). rewrite Forall_forall in NI. exact (NI A IA VA). }
  destruct (cov_wf p n d f S1 W SS) as (g & Eg & Ng & Wg). specialize (Ng Hf).
  destruct (find_change_ok p gauss det Pp HG HD lu q n d tl g rnd HL Hpq Hd Htl Ng Wg Hrnd 1000) as (M & EM & H).
  assert (K : forall i R g', attempt p gauss det n d g rnd i R g' -> drawn gauss det p n d g rnd i R g').
  { intros i R g' (A1 & A2 & A3 & A4 & A5 & A6). unfold drawn. split; [exact A1|]. split; [exact A2|]. split; [exact A4|].
    split; [exact A6|]. now apply (cov_substitutes p g R g' n d). }
  assert (SM : shape M (S n) (S n)).
  { destruct H as [(_ & ->)|[(_ & j & g' & _ & (_ & SR & _) & _)|(_ & -> & _)]]; [apply ident_sq|exact SR|].
    unfold mzero. split; [apply repeat_length|]. apply Forall_forall. intros r Ir. apply repeat_spec in Ir. subst r. apply repeat_length. }
  destruct (cov_wf p n d g M Wg SM) as (h & Eh & _ & Wh).
  exists S1, g, M, h. split.
  { unfold transform_ND. rewrite ES. cbn [bind]. rewrite Eg. cbn [bind]. rewrite EM. cbn [bind]. exact Eh. }
  split; [exact SS|]. split; [exact DS|]. split; [exact Wg|]. split; [now apply (cov_substitutes p f S1 g n d)|].
  split; [exact SM|]. split; [exact Wh|]. split; [now apply (cov_substitutes p g M h n d)|].
  destruct H as [(ND & ->)|[(_ & j & g' & _ & (_ & _ & _ & DR & Eg' & _) & ND & _)|(NN & -> & AT)]].
  - left. split; [apply ident_det|]. apply (nd_phi p n d g h); [|exact ND]. intros F. apply cong_sym. apply (phi_ident p (S n) g h); auto.
    intros k c I. destruct (proj2 Wg k c I) as (K1 & K2 & _). auto.
  - left. split; [exact DR|]. rewrite Eh in Eg'. injection Eg' as <-. exact ND.
  - right. split; [reflexivity|]. split; [exact (allz_cov p n d g h Hd Wg Eh)|]. split; [exact NN|]. intros j Hj. destruct (AT j) as (R & g' & Y1 & Y2); [exact Hj|]. exists R, g'. split; [now apply K|exact Y2].
Qed.
Print Assumptions C62_transform.

(** x0^2 + x1^2 over F_3 stays non-degenerate; for x0 x1, with the identity for all
    random matrices, no change is found and the result is the zero polynomial *)
Definition id_rnd : nat -> list mat * nat := fun _ => ([[[1; 0]; [0; 1]]], 0%nat).
Example C62_transform_ex :
  transform_ND lu_inst gauss_inst det_inst [[[1; 1]; [2; 1]]] 0 ex_rnd 3 9 1 ex_nd = OK [([0; 2], 2); ([1; 1], 0); ([2; 0], 2)] /\
  transform_ND lu_inst gauss_inst det_inst [[[1; 0]; [0; 1]]] 0 id_rnd 3 9 1 ex_cf = OK [([0; 2], 0); ([1; 1], 0); ([2; 0], 0)].
Proof. split; vm_compute; reflexivity. Qed.
