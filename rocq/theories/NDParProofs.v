(** Every schedule of the columns gives the same matrices. *)
From Coq Require Import ZArith List Bool Lia Permutation.
From Verif Require Import Base VecModel VecSpec VecProofs ToolsModel ToolsSpec ToolsProofs MatModel MatProofs
  DRModel DRSpec DRProofs DRRed NDModel NDSpec NDRed NDCol NDStep NDParModel.
Import ListNotations.
Open Scope Z_scope.

Lemma row_comm q (r : list Z) : forall j x j' x',
  upd (upd r j ((nth j r 0 + x) mod q)) j' ((nth j' (upd r j ((nth j r 0 + x) mod q)) 0 + x') mod q) =
  upd (upd r j' ((nth j' r 0 + x') mod q)) j ((nth j (upd r j' ((nth j' r 0 + x') mod q)) 0 + x) mod q).
Proof.
  induction r as [|a r IH]; intros [|j] x [|j'] x'; cbn [upd nth]; auto.
  - f_equal. rewrite !Zplus_mod_idemp_l. f_equal. lia.
  - f_equal. apply IH.
Qed.
Lemma madd_at_comm q M : forall i j x i' j' x',
  madd_at q (madd_at q M i j x) i' j' x' = madd_at q (madd_at q M i' j' x') i j x.
Proof.
  unfold madd_at, mset, mget. induction M as [|r M IH]; intros [|i] j x [|i'] j' x'; cbn [upd nth]; auto.
  - f_equal. apply row_comm.
  - f_equal. apply IH.
Qed.

Lemma vfind_radd q dp n R key row col x k : vsorted n R -> length key = n -> length k = n ->
  vfind k (radd q dp R (key, (row, col, x))) =
  if vec_eq_dec k key then Some (madd_at q (match vfind key R with Some M => M | None => mzero dp dp end) row col x)
  else vfind k R.
Proof.
  intros S L Lk. cbn [radd]. destruct (vec_eq_dec k key) as [->|Ne].
  - eapply vfind_insert_eq; eauto.
  - eapply vfind_insert_neq; eauto.
Qed.
Lemma radd_sorted q dp n R u : vsorted n R -> length (fst u) = n -> vsorted n (radd q dp R u).
Proof. destruct u as [key [[row col] x]]. intros S L. apply vinsert_sorted; auto. Qed.

Lemma vfind_ext {V} n (a b : vmap V) : vsorted n a -> vsorted n b ->
  (forall k, length k = n -> vfind k a = vfind k b) -> a = b.
Proof.
  intros Sa Sb H. apply (vsorted_ext n); auto. intros k v. split; intros Hin.
  - assert (L : length k = n) by (eapply vsorted_len; [exact Sa|eauto]).
    apply (vfind_In n) in Hin; auto. rewrite H in Hin by auto. eapply vfind_In; eauto.
  - assert (L : length k = n) by (eapply vsorted_len; [exact Sb|eauto]).
    apply (vfind_In n) in Hin; auto. rewrite <- H in Hin by auto. eapply vfind_In; eauto.
Qed.

Lemma radd_comm q dp n R u u' : vsorted n R -> length (fst u) = n -> length (fst u') = n ->
  radd q dp (radd q dp R u) u' = radd q dp (radd q dp R u') u.
Proof.
  intros HS L L'. apply (vfind_ext n); auto using radd_sorted.
  destruct u as [key [[row col] x]]. destruct u' as [key' [[row' col'] x']]. cbn [fst] in L, L'.
  intros k Lk.
  assert (S1 := radd_sorted q dp n R (key, (row, col, x)) HS L).
  assert (S2 := radd_sorted q dp n R (key', (row', col', x')) HS L').
  rewrite !(vfind_radd q dp n) by auto.
  destruct (vec_eq_dec k key) as [->|Ne]; destruct (vec_eq_dec _ key') as [<-|Ne']; try reflexivity.
  - destruct (vec_eq_dec key key) as [_|?]; [|congruence]. rewrite madd_at_comm. reflexivity.
  - destruct (vec_eq_dec k key) as [?|_]; [congruence|reflexivity].
Qed.

Lemma radd_perm q dp n us us' : Permutation us us' -> forall R, vsorted n R ->
  (forall u, In u us -> length (fst u) = n) ->
  fold_left (radd q dp) us R = fold_left (radd q dp) us' R.
Proof.
  induction 1 as [|u us us' P IH|u w us|us1 us2 us3 P1 IH1 P2 IH2]; intros R HS HL; cbn [fold_left].
  - reflexivity.
  - apply IH; [apply radd_sorted; auto; apply HL; now left|]. intros; apply HL; now right.
  - rewrite (radd_comm q dp n R w u); auto; apply HL; cbn; auto.
  - rewrite IH1 by auto. apply IH2; auto. intros u Hu. apply HL. eapply Permutation_in; [apply Permutation_sym|]; eauto.
Qed.

(** * the schedules *)
Lemma upd_nth_app {A} (l : list (list A)) i u rest : nth_error l i = Some (u :: rest) ->
  Permutation (concat l) (u :: concat (upd l i rest)).
Proof.
  revert i. induction l as [|x l IH]; intros [|i] H; cbn in *; try discriminate.
  - injection H as ->. reflexivity.
  - rewrite (IH _ H). apply Permutation_sym, Permutation_middle.
Qed.

Section RUN.
  Variables (q : Z) (dp n : nat) (all : list rupdate).
  Hypothesis Hall : forall u, In u all -> length (fst u) = n.

  (** what has been done and what remains make up [all] *)
  Definition cinv (s : cstate) : Prop :=
    exists don, Permutation (don ++ concat (cs_todo s)) all /\ cs_result s = fold_left (radd q dp) don [].

  Lemma col_step_inv i s : cinv s -> cinv (col_step q dp i s).
  Proof.
    intros (don & P & E). unfold col_step. destruct (nth_error (cs_todo s) i) as [[|u rest]|] eqn:En; [exists don; auto| |exists don; auto].
    exists (don ++ [u]). cbn [cs_todo cs_result]. split.
    - rewrite <- app_assoc. cbn [app]. rewrite <- P. apply Permutation_app_head, Permutation_sym, upd_nth_app, En.
    - rewrite fold_left_app. cbn [fold_left]. now rewrite E.
  Qed.
  Lemma col_run_inv sched : forall s, cinv s -> cinv (col_run q dp sched s).
  Proof. induction sched as [|i sched IH]; intros s H; cbn [col_run fold_left]; auto. apply IH, col_step_inv, H. Qed.

  Lemma cinv_done s : cinv s -> col_done s = true -> cs_result s = fold_left (radd q dp) all [].
  Proof.
    intros (don & P & E) Hd. rewrite E. unfold col_done in Hd.
    assert (C : concat (cs_todo s) = []).
    { rewrite forallb_forall in Hd. clear - Hd. induction (cs_todo s) as [|t l IH]; auto. cbn [concat].
      pose proof (Hd t (or_introl eq_refl)) as H. apply Nat.eqb_eq in H. destruct t; [|discriminate]. cbn [app].
      apply IH. intros x Hx. apply Hd. now right. }
    rewrite C, app_nil_r in P. apply (radd_perm q dp n); auto; [apply vsorted_nil|].
    intros u Hu. apply Hall. eapply Permutation_in; eauto.
  Qed.
End RUN.

(** running column i to its end, for every i, always finishes *)
Lemma col_finish q dp : forall k s, (length (concat (cs_todo s)) <= k)%nat ->
  exists sched, col_done (col_run q dp sched s) = true.
Proof.
  induction k as [|k IH]; intros s Hk.
  - exists []. cbn. unfold col_done. apply forallb_forall. intros t Ht. apply Nat.eqb_eq.
    apply in_split in Ht. destruct Ht as (a & b & E). rewrite E, concat_app, app_length in Hk. cbn [concat] in Hk. rewrite app_length in Hk. lia.
  - destruct (col_done s) eqn:Hd; [exists []; exact Hd|].
    assert (exists i u rest, nth_error (cs_todo s) i = Some (u :: rest)) as (i & u & rest & Ei).
    { unfold col_done in Hd. destruct s as [R t]. cbn [cs_todo] in *. clear - Hd. induction t as [|x t IHt]; [discriminate|].
      cbn [forallb] in Hd. destruct x as [|u rest].
      - cbn in Hd. destruct (IHt Hd) as (i & u & rest & E). exists (S i), u, rest. exact E.
      - exists 0%nat, u, rest. reflexivity. }
    destruct (IH (col_step q dp i s)) as (sched & Hs).
    { unfold col_step. rewrite Ei. cbn [cs_todo]. pose proof (Permutation_length (upd_nth_app _ _ _ _ Ei)) as P. cbn [length] in P. lia. }
    exists (i :: sched). exact Hs.
Qed.

Section TOP.
  Variables (slv : solver) (N : dND).
  Notation D := (nd_dr N).
  Hypothesis ninv : nd_inv slv N.
  Hypothesis Hslv : solver_ok (r_q D) slv.
  Hypothesis Hn : (1 <= r_n D)%nat.

  Theorem columns_any v : is_tuple (S (r_n D)) (r_d D) v ->
    exists cols R, column_updates slv N v = OK cols /\ compute_reduction_matrix_ND slv N v = OK R /\
    length cols = length (nd_basis N) /\
    forall sched, let s := col_run (r_q D) (length (nd_basis N)) sched (mk_cstate [] cols) in
      (col_done s = true -> col_result s = R) /\
      exists more, col_done (col_run (r_q D) (length (nd_basis N)) more s) = true.
  Proof.
    intros Hv. destruct (crm_gen slv N ninv Hslv v Hv Hn) as (solves & top & R & Es & Et & ER & _ & colf & HC & _).
    unfold column_updates. rewrite Es, Et. cbn [bind].
    set (tag := fun cb : nat * vec => map (fun u => (fst u, (fst (snd u), fst cb, snd (snd u)))) (colf (snd cb))).
    assert (EM : mapM (fun cb => us <- nd_column N solves top v (snd cb) ;;
        OK (map (fun u => (fst u, (fst (snd u), fst cb, snd (snd u)))) us))
      (combine (seq 0 (length (nd_basis N))) (nd_basis N)) = OK (map tag (combine (seq 0 (length (nd_basis N))) (nd_basis N)))).
    { apply mapM_total. intros [c b] Hin. apply in_combine_r in Hin. cbn [fst snd]. rewrite (HC b Hin). reflexivity. }
    rewrite EM. eexists. exists R. split; [reflexivity|]. split; [exact ER|].
    split. { rewrite map_length, combine_length, seq_length. apply Nat.min_id. }
    assert (Hall : forall u, In u (concat (map tag (combine (seq 0 (length (nd_basis N))) (nd_basis N)))) -> length (fst u) = S (r_n D)).
    { intros u Hu. apply in_concat in Hu. destruct Hu as (l0 & Hl0 & Hu). apply in_map_iff in Hl0. destruct Hl0 as ([c b] & <- & Hcb).
      unfold tag in Hu. cbn [fst snd] in Hu. apply in_map_iff in Hu. destruct Hu as ([key [row x]] & <- & Hu). cbn [fst].
      assert (Hb : In b (nd_basis N)) by (eapply in_combine_r; eauto).
      destruct (nd_column_ok slv N ninv Hslv v Hv Hn solves top b Es Et Hb) as (ups & E1 & E2 & _).
      rewrite (HC b Hb) in E1. injection E1 as <-. destruct (E2 _ Hu) as (A1 & _). exact A1. }
    intros sched. set (s := col_run (r_q D) (length (nd_basis N)) sched _).
    split.
    - intros Hd. unfold col_result.
      assert (CI : cinv (r_q D) (length (nd_basis N)) (concat (map tag (combine (seq 0 (length (nd_basis N))) (nd_basis N)))) s).
      { apply col_run_inv. exists []. split; reflexivity. }
      rewrite (cinv_done _ _ (S (r_n D)) _ Hall s CI Hd).
      unfold compute_reduction_matrix_ND in ER. cbv zeta in ER. apply bind_ok in ER. destruct ER as (? & _ & ER).
      rewrite Es, Et in ER. cbn [bind] in ER. rewrite EM in ER. cbn [bind] in ER.
      apply bind_ok in ER. destruct ER as (? & _ & ER). injection ER as <-. reflexivity.
    - apply (col_finish _ _ (length (concat (cs_todo s)))). lia.
  Qed.
End TOP.
