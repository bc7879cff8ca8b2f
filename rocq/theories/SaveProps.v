(** Properties C39, C40, C41 and C42: statements only. *)
From Coq Require Import ZArith List Bool Ascii Lia.
From Verif Require Import Base VecModel VecProofs ToolsModel ToolsSpec MatModel MatProofs DRModel DRSpec DRProofs DRRed DRLemmas
  IoModel IoProofs SaveModel SaveProofs.
Import ListNotations.
Open Scope Z_scope.

(** C39: the routine is safe exactly with one thread or a modulus below 2^62 *)
Theorem C39_safe_iff : forall threads modulus terms, terms <> [] ->
  (exists c, fm_run threads modulus terms = OK c) <-> (threads <= 1)%nat \/ modulus < 2 ^ 62.
Proof. exact fm_run_ok. Qed.
Print Assumptions C39_safe_iff.

Theorem C39_refuted : exists threads modulus terms, fm_run threads modulus terms = Err EUB /\ modulus = 101 ^ 10.
Proof. exists 2%nat, (101 ^ 10), [3; 5]%nat. split; [vm_compute; reflexivity|reflexivity]. Qed.
Print Assumptions C39_refuted.
Example C39_ex : fm_run 1 (101 ^ 10) [3; 5]%nat = OK Freed /\ fm_run 4 (101 ^ 2) [3; 5]%nat = OK Live.
Proof. split; vm_compute; reflexivity. Qed.

(** C40: up to 7 characters the buffer ends up holding the name followed by .swp;
    from 8 characters on a byte outside the buffer is written *)
Theorem C40_short_names : forall f, (length f <= 7)%nat -> Forall (fun c => c <> zero) f ->
  exists b, swp_name f = OK b /\ c_string b = Some (f ++ dot_swp).
Proof. exact swp_name_ok. Qed.
Print Assumptions C40_short_names.
Theorem C40_long_names_refuted : forall f, (7 < length f)%nat -> swp_name f = Err EUB.
Proof. exact swp_name_bad. Qed.
Print Assumptions C40_long_names_refuted.
Example C40_ex : match swp_name [chr 97; chr 98] with OK b => c_string b | Err _ => None end =
  Some [chr 97; chr 98; chr 46; chr 115; chr 119; chr 112].
Proof. vm_compute. reflexivity. Qed.

(** C42: a crash after any number of operations of a successful save, starting
    without a marker: if there is no marker then the old file is untouched or
    the new one is complete *)
Theorem C42_marker : forall old parts k,
  let s := fops_run (old, false) (firstn k (fst (save_ops true true parts))) in
  snd s = false -> s = (old, false) \/ s = (Some (concat parts), false).
Proof. exact save_crash. Qed.
Print Assumptions C42_marker.
Theorem C42_complete : forall old parts,
  fops_run (old, false) (fst (save_ops true true parts)) = (Some (concat parts), false) /\
  fops_run (old, false) (fst (save_ops_ND true true parts)) = (Some (concat parts), false).
Proof. intros. split; apply save_complete. Qed.
Print Assumptions C42_complete.
(** but the old content is lost at once: for every old content and every new
    content there is a crash point at which the target is neither of them (unless
    one of them is empty); and nothing but the marker tells *)
Theorem C42_refuted : forall old parts, old <> [] -> concat parts <> [] ->
  exists k, fst (fops_run (Some old, false) (firstn k (fst (save_ops true true parts)))) <> Some old /\
    fst (fops_run (Some old, false) (firstn k (fst (save_ops true true parts)))) <> Some (concat parts).
Proof.
  intros old parts H1 H2. exists 2%nat. cbn [save_ops fst andb app firstn]. unfold fops_run. cbn [fold_left fop_run fst snd].
  split; congruence.
Qed.
Print Assumptions C42_refuted.
(** if the marker cannot be created, dr::save reports failure after destroying
    the old content, without a marker; de_Rham_non_degenerate::save writes
    without a marker *)
Theorem C42_no_marker_refuted : forall old parts,
  snd (save_ops false true parts) = false /\
  fops_run (Some old, false) (fst (save_ops false true parts)) = (Some [], false) /\
  (concat parts <> [] -> exists k, fops_run (Some old, false) (firstn k (fst (save_ops_ND false true parts))) = (Some [], false) /\
    snd (save_ops_ND false true parts) = true).
Proof.
  intros old parts. split; [reflexivity|]. split; [reflexivity|]. intros _. exists 1%nat. split; reflexivity.
Qed.
Print Assumptions C42_no_marker_refuted.
Example C42_ex : fops_run (Some [chr 65], false) (firstn 3 (fst (save_ops true true [[chr 66]; [chr 67]]))) = (Some [chr 66], true).
Proof. reflexivity. Qed.

(** C41: saving succeeds and loading the text gives the object with the same
    parameters, monomial lists, dictionaries and basis, and the same solve pairs;
    its polynomial is the one with coefficients reduced to [0, p) and zero terms
    dropped *)
Theorem C41_load : forall slv p prec q f D vb sm,
  init slv q p prec f = OK D -> wf_poly (r_n D) (r_d D) f -> q = p ^ prec -> solver_reduced q slv ->
  exists s tab, save_text slv D vb sm = OK s /\ mapM (get_solve_J slv D) (saved_degs D) = OK tab /\
    forall rest, load_text p q (s ++ rest) =
      OK (with_f D (naive_lift p f), hilbert_J (r_n D) (r_d D), combine (saved_degs D) (map conv tab), vb, sm).
Proof. intros. eapply save_load_text; eauto. Qed.
Print Assumptions C41_load.

(** hence exactly the same object if the coefficients are already in [1, p) *)
Theorem C41_round_trip : forall slv p prec q f D vb sm,
  init slv q p prec f = OK D -> wf_poly (r_n D) (r_d D) f -> q = p ^ prec -> solver_reduced q slv ->
  Forall (fun kc => 0 < snd kc < p) f ->
  exists s tab, save_text slv D vb sm = OK s /\ mapM (get_solve_J slv D) (saved_degs D) = OK tab /\
    forall rest, load_text p q (s ++ rest) =
      OK (D, hilbert_J (r_n D) (r_d D), combine (saved_degs D) (map conv tab), vb, sm).
Proof.
  intros slv p prec q f D vb sm H1 H2 H3 H4 H5. destruct (save_load_text slv p prec q f D H1 H2 H3 H4 vb sm) as (s & tab & E1 & E2 & E3).
  exists s, tab. split; auto. split; auto. intros rest. rewrite E3. rewrite (naive_id (S (r_n D))).
  - rewrite <- (rf _ _ _ _ _ _ H1 H2). now destruct D.
  - apply H2.
  - eapply Forall_impl; [|exact H5]. intros kc Hk. cbn beta in Hk. rewrite Z.mod_small by lia. lia.
Qed.
Print Assumptions C41_round_trip.

Lemma ex_slv_reduced : solver_reduced 9 ex_slv.
Proof.
  intros nc T B U H. unfold ex_slv in H. destruct (list_eq_dec _ T [[0; 2]; [2; 0]]) as [->|_].
  - destruct (Nat.eqb nc 2); [|discriminate]. injection H as <- <-. split; [repeat constructor|exists 2%nat; repeat constructor].
  - destruct (list_eq_dec _ T [[]]) as [->|_]; [|discriminate]. destruct (Nat.eqb nc 0); [|discriminate].
    injection H as <- <-. split; [repeat constructor|exists 1%nat; repeat constructor].
Qed.
Example C41_ex : init ex_slv 9 3 2 ex_f = OK ex_D /\ 9 = 3 ^ 2 /\ solver_reduced 9 ex_slv /\ Forall (fun kc => 0 < snd kc < 3) ex_f /\
  exists s, save_text ex_slv ex_D true false = OK s /\ match load_text 3 9 s with OK x => fst (fst (fst (fst x))) = ex_D | Err _ => False end.
Proof.
  split; [exact ex_init|]. split; [reflexivity|]. split; [exact ex_slv_reduced|]. split; [repeat constructor; cbn; lia|].
  eexists. split; [vm_compute; reflexivity|]. vm_compute. reflexivity.
Qed.

(** the conic 4 x1^2 + x0^2 over Z/9, p = 3: the loaded object has x1^2 + x0^2
    and the stored pair does not solve its relation matrix *)
Definition lift_f : poly := [([0; 2], 4); ([2; 0], 1)].
Definition lift_slv : solver := fun nc T =>
  if list_eq_dec (list_eq_dec Z.eq_dec) T [[0; 8]; [2; 0]] then
    if Nat.eqb nc 2 then OK ([], [[0; 5]; [8; 0]]) else Err EAbort
  else if list_eq_dec (list_eq_dec Z.eq_dec) T [[]] then
    if Nat.eqb nc 0 then OK ([0%nat], [[1]]) else Err EAbort
  else Err EAbort.
Lemma lift_slv_ok : solver_ok 9 lift_slv.
Proof.
  intros r nc T B U HS H. unfold lift_slv in H.
  destruct (list_eq_dec _ T [[0; 8]; [2; 0]]) as [->|_].
  - destruct (Nat.eqb_spec nc 2) as [->|]; [|discriminate]. injection H as <- <-.
    destruct HS as [<- _]. split.
    + split; [|split].
      * intros i j H. cbn in H. lia.
      * intros b [].
      * intros [|[|i]] [|[|j]] Hi Hj; cbn in Hi, Hj; try lia; cbn;
          first [apply cong_of_eq; reflexivity | exists 1; reflexivity | exists 7; reflexivity].
    + split; [reflexivity|]. repeat constructor.
  - destruct (list_eq_dec _ T [[]]) as [->|_]; [|discriminate].
    destruct (Nat.eqb_spec nc 0) as [->|]; [|discriminate]. injection H as <- <-.
    destruct HS as [<- _]. split.
    + split; [|split].
      * intros i j H. cbn in H. lia.
      * intros b [<-|[]]. cbn. lia.
      * intros [|i] [|j] Hi Hj; cbn in Hi, Hj; try lia. cbn. reflexivity.
    + split; [reflexivity|]. repeat constructor.
Qed.
Theorem C41_refuted : exists slv p prec q f D s D' hil tab vb sm l nc T B U,
  solver_ok q slv /\ q = p ^ prec /\ init slv q p prec f = OK D /\ wf_poly (r_n D) (r_d D) f /\
  save_text slv D vb sm = OK s /\ load_text p q s = OK (D', hil, tab, vb, sm) /\
  r_f D' <> r_f D /\
  In (l, (map Z.of_nat B, U)) tab /\ matrix_J D' l = OK (nc, T) /\ ~ solves q (length T) nc (mget T) B (mget U).
Proof.
  exists lift_slv, 3, 2, 9, lift_f. eexists _, _, _, _, _, true, false, 1, 2%nat, [[0; 2]; [2; 0]], [], [[0; 5]; [8; 0]].
  split; [exact lift_slv_ok|]. split; [reflexivity|]. split; [vm_compute; reflexivity|].
  split.
  { change (wf_poly 1 2 lift_f). split.
    - unfold vsorted. apply ms_cons; [reflexivity| |].
      + apply ms_cons; [reflexivity|apply ms_nil|intros k v []].
      + intros k v [X|[]]. injection X as <- <-. reflexivity.
    - intros a c [H|[H|[]]]; injection H as <- <-; repeat split; auto; repeat constructor; lia. }
  split; [vm_compute; reflexivity|]. split; [vm_compute; reflexivity|]. split; [discriminate|].
  split; [right; left; reflexivity|]. split; [vm_compute; reflexivity|].
  intros (_ & _ & H). specialize (H 0%nat 0%nat ltac:(cbn; lia) ltac:(cbn; lia)). cbn in H. destruct H as [k Hk]. lia.
Qed.
Print Assumptions C41_refuted.
