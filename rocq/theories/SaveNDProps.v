(** Property C58: saving and loading a non-degenerate object, and computing with a
    loaded object. *)
From Coq Require Import ZArith List Bool Lia Znumtheory.
From Verif Require Import Base VecModel VecSpec VecProofs ToolsModel ToolsSpec ToolsProofs MatModel MatProofs DRModel DRSpec DRProofs DRRed
  NDModel NDSpec NDRed SolveModel SolveSpec SolveProofs LuInst IoModel IoProofs SaveModel SaveProofs ProgModel CacheModel CacheProofs CacheProps
  NDCacheModel NDCacheProofs NDCacheProps SaveNDModel SaveNDProofs.
Import ListNotations.
Open Scope Z_scope.

(** saving succeeds; loading the text gives the object with the same parameters,
    lists, dictionaries and bases and the same solve pairs; its polynomial has the
    coefficients reduced to [0, p) and no zero terms *)
Theorem C58_load : forall slv p prec q f N vb sm, let D := nd_dr N in
  init_ND slv q p prec f = OK N -> wf_poly (r_n D) (r_d D) f -> q = p ^ prec -> solver_reduced q slv ->
  exists s tabJ tab, save_text_ND slv N vb sm = OK s /\
    mapM (get_solve_J slv D) (saved_degs D) = OK tabJ /\ mapM (get_solve_ND slv D) (saved_degs_ND D) = OK tab /\
    forall rest, load_text_ND p q (s ++ rest) =
      OK (mk_dND (with_f D (naive_lift p f)) (nd_basis N) (nd_bdict N),
          hilbert_J (r_n D) (r_d D), combine (saved_degs D) (map conv tabJ),
          hilbert_ND (r_n D) (r_d D), combine (saved_degs_ND D) (map conv tab), vb, sm).
Proof. intros slv p prec q f N vb sm D H1 H2 H3 H4. now apply (save_load_ND slv p prec q f N). Qed.
Print Assumptions C58_load.

Lemma with_same slv q p prec f D : init slv q p prec f = OK D -> wf_poly (r_n D) (r_d D) f -> Forall (fun kc => 0 < snd kc < p) f ->
  with_f D (naive_lift p f) = D.
Proof.
  intros H W HF. rewrite (naive_id (S (r_n D))).
  - rewrite <- (rf _ _ _ _ _ _ H W). now destruct D.
  - apply W.
  - eapply Forall_impl; [|exact HF]. intros kc Hk. cbn beta in Hk. rewrite Z.mod_small by lia. lia.
Qed.

(** hence exactly the same object if the coefficients are already in [1, p); every
    history of calls on the loaded object, which starts with the tables read from
    the file, gives the answers of the original object *)
Theorem C58_resume : forall slv p prec q f N vb sm, let D := nd_dr N in
  init_ND slv q p prec f = OK N -> wf_poly (r_n D) (r_d D) f -> q = p ^ prec -> solver_reduced q slv ->
  Forall (fun kc => 0 < snd kc < p) f ->
  exists s hilJ tabJ hilN tabN, save_text_ND slv N vb sm = OK s /\ load_text_ND p q s = OK (N, hilJ, tabJ, hilN, tabN, vb, sm) /\
    forall sm' T hist c r, (forall r, In r hist -> ncall_ok N r) -> nhistory sm' slv N hist (loaded_ncache T tabJ tabN) = OK c -> ncall_ok N r ->
      (forall x c', nserve sm' slv N c r = OK (x, c') -> nvalue slv N T r = OK x) /\
      (forall x, nvalue slv N T r = OK x -> exists c', nserve sm' slv N c r = OK (x, c')).
Proof.
  intros slv p prec q f N vb sm D H1 H2 H3 H4 H5. destruct (save_load_ND slv p prec q f N H1 H2 H3 H4 vb sm) as (s & tabJ & tab & E1 & E2 & E3 & E4).
  eexists s, _, _, _, _. split; [exact E1|]. split.
  { rewrite <- (app_nil_r s). rewrite E4. rewrite (with_same slv q p prec f (nd_dr N) (nd_init _ _ _ _ _ _ H1) H2 H5). now destruct N. }
  intros sm' T hist c r Hh Hc Hr. assert (Hd : Z.of_nat (r_n D) < r_d D).
  { destruct (init_ND_inv _ _ _ _ _ _ H1 H2) as (inv & _). exact (inv_nd _ _ (ni_dr _ _ inv)). }
  pose proof (nhistory_ok sm' slv N T hist Hh _ c (loaded_nok slv N T tabJ tab Hd E2 E3) Hc) as K.
  destruct (nserve_ok sm' slv N T c r K (ncall_wf N T r Hr)) as [S1 S2]. split; auto. intros x c' E'. now apply (S1 x c').
Qed.
Print Assumptions C58_resume.
Theorem C58_resume_J : forall slv p prec q f D vb sm,
  init slv q p prec f = OK D -> wf_poly (r_n D) (r_d D) f -> q = p ^ prec -> solver_reduced q slv ->
  Forall (fun kc => 0 < snd kc < p) f ->
  exists s hil tab, save_text slv D vb sm = OK s /\ load_text p q s = OK (D, hil, tab, vb, sm) /\
    forall sm' T hist c r, (forall r, In r hist -> call_ok D r) -> history sm' slv D hist (loaded_cache T tab) = OK c -> call_ok D r ->
      (forall x c', serve sm' slv D c r = OK (x, c') -> value slv D T r = OK x) /\
      (forall x, value slv D T r = OK x -> exists c', serve sm' slv D c r = OK (x, c')).
Proof.
  intros slv p prec q f D vb sm H1 H2 H3 H4 H5. destruct (save_load_text slv p prec q f D H1 H2 H3 H4 vb sm) as (s & tab & E1 & E2 & E3).
  eexists s, _, _. split; [exact E1|]. split.
  { rewrite <- (app_nil_r s). rewrite E3. now rewrite (with_same slv q p prec f D H1 H2 H5). }
  intros sm' T hist c r Hh Hc Hr. assert (Hd : Z.of_nat (r_n D) < r_d D).
  { destruct (init_inv _ _ _ _ _ _ H1 H2) as (inv & _). exact (inv_nd _ _ inv). }
  pose proof (history_ok sm' slv D T hist Hh _ c (loaded_ok slv D T Hd tab E2) Hc) as K.
  destruct (serve_ok sm' slv D T c r K (call_wf D T r Hr)) as [S1 S2]. split; auto. intros x c' E'. now apply (S1 x c').
Qed.
Print Assumptions C58_resume_J.

Lemma prime3 : prime 3. Proof. apply prime_3. Qed.
Definition slv3 : solver := padic_solver lu_inst inv_inst 3 (3 ^ 2) 2.
Lemma slv3_red : solver_reduced 9 slv3.
Proof. change 9 with (3 ^ 2). apply padic_solver_reduced; [exact prime3|lia]. Qed.
Lemma slv3_ok : solver_ok 9 slv3.
Proof. change 9 with (3 ^ 2). apply padic_solver_ok; [exact prime3|lia|exact (lu_inst_spec 3 prime3)|exact (inv_inst_ok 3 prime3)]. Qed.

(** the conic 4 x1^2 + x0^2 over Z/9, p = 3: the loaded object has x1^2 + x0^2
    and a stored pair does not solve its relation matrix *)
Theorem C58_other_lift_refuted : exists slv p prec q f N s N' hilJ tabJ hilN tabN vb sm l nc T B U,
  solver_ok q slv /\ q = p ^ prec /\ init_ND slv q p prec f = OK N /\ wf_poly (r_n (nd_dr N)) (r_d (nd_dr N)) f /\
  save_text_ND slv N vb sm = OK s /\ load_text_ND p q s = OK (N', hilJ, tabJ, hilN, tabN, vb, sm) /\
  In (l, (map Z.of_nat B, U)) tabN /\ matrix_ND (nd_dr N') l = OK (nc, T) /\ ~ solves q (length T) nc (mget T) B (mget U).
Proof.
  exists slv3, 3, 2, 9, [([0; 2], 4); ([2; 0], 1)]. eexists _, _, _, _, _, _, _, true, false, 3, _, _, [], _.
  split; [exact slv3_ok|]. split; [reflexivity|]. split; [vm_compute; reflexivity|].
  split.
  { change (wf_poly 1 2 [([0; 2], 4); ([2; 0], 1)]). split.
    - unfold vsorted. apply ms_cons; [reflexivity| |].
      + apply ms_cons; [reflexivity|apply ms_nil|intros k v []].
      + intros k v [X|[]]. injection X as <- <-. reflexivity.
    - intros a c [H|[H|[]]]; injection H as <- <-; repeat split; auto; repeat constructor; lia. }
  split; [vm_compute; reflexivity|]. split; [vm_compute; reflexivity|].
  split; [right; right; left; reflexivity|]. split; [vm_compute; reflexivity|].
  intros (_ & _ & H). specialize (H 0%nat 0%nat ltac:(cbn; lia) ltac:(cbn; lia)). cbn in H. destruct H as [k Hk]. lia.
Qed.
Print Assumptions C58_other_lift_refuted.

(** the conic x0^2 + x1^2 over Z/9 *)
Example C58_ex : exists N s tabJ tabN, init_ND slv3 9 3 2 [([0; 2], 1); ([2; 0], 1)] = OK N /\
  save_text_ND slv3 N true false = OK s /\ load_text_ND 3 9 s = OK (N, hilbert_J 1 2, tabJ, hilbert_ND 1 2, tabN, true, false) /\
  map fst tabJ = [0; 1] /\ map fst tabN = [0; 2; 3] /\ nd_basis N = [[0; 0]; [1; 1]] /\
  nserve false slv3 N (loaded_ncache [] tabJ tabN) (NI (IB (BSolve 2))) =
    OK (match nvalue slv3 N [] (NI (IB (BSolve 2))) with OK x => x | Err _ => ([], []) end, loaded_ncache [] tabJ tabN).
Proof.
  eexists _, _, _, _. split; [vm_compute; reflexivity|]. split; [vm_compute; reflexivity|]. split; [vm_compute; reflexivity|].
  split; [reflexivity|]. split; [reflexivity|]. split; [reflexivity|]. vm_compute. reflexivity.
Qed.
