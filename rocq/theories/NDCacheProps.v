(** Properties C50 - C52: statements only. *)
From Coq Require Import ZArith List Bool Lia.
From Verif Require Import Base VecModel VecSpec VecProofs ToolsModel ToolsSpec ToolsProofs PolyProofs MatModel MatProofs
  DRModel DRSpec DRProofs DRRed DRStep DRFinal DRPath DRLemmas FrobModel FrobSpec FrobTop
  ProgModel ProgProofs CacheModel CacheProofs CacheFrob CacheCover CachePrep CacheProps
  NDModel NDSpec NDRed NDStep NDPoly NDBasis NDProps FrobNDModel FrobNDTop
  NDCacheModel NDCacheProofs NDCacheFrob NDCachePrep NDParModel NDParProofs.
Import ListNotations.
Open Scope Z_scope.

(** calls with vectors of the right length *)
Definition ncall_ok (N : dND) (r : nreq) : Prop :=
  match r with
  | NI (IB (BJ r)) => call_ok (nd_dr N) r
  | NI (IB (BSolve _)) => True
  | NI (IIncl u) | NRed _ u | NPoly _ u | NCkn u => length u = S (r_n (nd_dr N))
  end.
Lemma ncall_wf N T r : ncall_ok N r -> wf_nreq N T r.
Proof. destruct r as [[[r|]|]| | |]; cbn; auto. apply call_wf. Qed.

Lemma nhistory_ok sm slv N T hist : (forall r, In r hist -> ncall_ok N r) -> forall c c', ncache_ok slv N T c ->
  nhistory sm slv N hist c = OK c' -> ncache_ok slv N T c'.
Proof.
  induction hist as [|r hist IH]; intros H c c' K E; cbn [nhistory] in E; [congruence|].
  apply bind_ok in E. destruct E as ([x c1] & E1 & E). cbn [snd] in E.
  destruct (nserve_ok sm slv N T c r K (ncall_wf N T r (H r (or_introl eq_refl)))) as [S1 _]. destruct (S1 x c1 E1) as [_ K1].
  eapply IH; eauto. intros r' I. apply H. now right.
Qed.
Lemma nempty_ok slv N T : ncache_ok slv N T (empty_ncache T).
Proof. apply empty_nok, empty_ok. Qed.

(** C50: after any sequence of calls, for both settings of save_memory, a call
    succeeds exactly if the computation without tables does, with its value *)
Theorem C50_history_independent : forall sm slv N T hist c r,
  (forall r, In r hist -> ncall_ok N r) -> nhistory sm slv N hist (empty_ncache T) = OK c -> ncall_ok N r ->
  (forall x c', nserve sm slv N c r = OK (x, c') -> nvalue slv N T r = OK x) /\
  (forall x, nvalue slv N T r = OK x -> exists c', nserve sm slv N c r = OK (x, c')).
Proof.
  intros sm slv N T hist c r H E Hr. pose proof (nhistory_ok sm slv N T hist H _ c (nempty_ok slv N T) E) as K.
  destruct (nserve_ok sm slv N T c r K (ncall_wf N T r Hr)) as [S1 S2]. split; auto. intros x c' E'. now apply (S1 x c').
Qed.
Print Assumptions C50_history_independent.

(** the routines that consist of one lookup *)
Lemma lift_wf {A B} slv N T P (x : res A) (f : A -> nprog B) :
  (forall a, x = OK a -> all_req (nvalue slv N T) P (f a)) -> all_req (nvalue slv N T) P (pbind (lift x) f).
Proof. destruct x; cbn; auto. Qed.
Lemma bind_wf {A B} slv N T P (m : nprog A) (f : A -> nprog B) : all_req (nvalue slv N T) P m ->
  (forall a, run (nvalue slv N T) m = OK a -> all_req (nvalue slv N T) P (f a)) -> all_req (nvalue slv N T) P (pbind m f).
Proof.
  induction m as [a|e|r k IH]; cbn [pbind all_req run]; auto. intros [H1 H2] H3. split; auto.
  intros x Ex. apply IH; auto. intros a Ea. apply H3. rewrite Ex. exact Ea.
Qed.
Lemma rv_wf slv N T u v G : length v = S (r_n (nd_dr N)) -> all_req (nvalue slv N T) (wf_nreq N T) (reduce_vector_ND_p N u v G).
Proof. intros L. apply lift_wf. intros _ _. apply all_req_bind; [apply all_req_ask; exact L|]. intros; apply all_req_lift. Qed.
Lemma rvp_wf slv N T r u v k G : length v = S (r_n (nd_dr N)) -> all_req (nvalue slv N T) (wf_nreq N T) (reduce_vector_ND_poly_p N r u v k G).
Proof.
  intros L. apply lift_wf. intros _ _. apply all_req_bind; [|intros; apply all_req_lift].
  apply all_req_bind; [apply all_req_ask; exact L|]. intros; apply all_req_lift.
Qed.
Lemma vec_sub_len u v w : vec_sub u v = OK w -> length w = length u.
Proof.
  unfold vec_sub. destruct (Nat.eqb_spec (length u) (length v)); [|discriminate]. intros E. injection E as <-. now apply map2_length.
Qed.
Lemma mtb_loop_wf slv N T k : forall u G, length u = S (r_n (nd_dr N)) ->
  all_req (nvalue slv N T) (wf_nreq N T) (mtb_ND_loop_p N k u G) /\
  forall r, run (nvalue slv N T) (mtb_ND_loop_p N k u G) = OK r -> length (fst r) = S (r_n (nd_dr N)).
Proof.
  induction k as [|k IH]; intros u G L; cbn [mtb_ND_loop_p].
  - split; [exact I|]. intros r E. injection E as <-. exact L.
  - split.
    + apply lift_wf. intros v Ev. apply lift_wf. intros u' Eu. apply all_req_bind.
      * apply rv_wf. rewrite (dirn_len _ _ (nd_dir_dirn _ _ _ Ev)). exact L.
      * intros G'. apply IH. now rewrite (vec_sub_len _ _ _ Eu).
    + intros r E. rewrite run_bind, run_lift in E. apply bind_ok in E. destruct E as (v & Ev & E).
      rewrite run_bind, run_lift in E. apply bind_ok in E. destruct E as (u' & Eu & E).
      rewrite run_bind in E. apply bind_ok in E. destruct E as (G' & _ & E).
      eapply IH; [|exact E]. now rewrite (vec_sub_len _ _ _ Eu).
Qed.
Lemma mtb_wf slv N T u : all_req (nvalue slv N T) (wf_nreq N T) (monomial_to_basis_ND_p N u).
Proof.
  unfold monomial_to_basis_ND_p. cbv zeta. apply lift_wf. intros ? E.
  assert (L : length u = S (r_n (nd_dr N))).
  { unfold check in E. destruct (Nat.eqb_spec (length u) (S (r_n (nd_dr N)))); [auto|discriminate]. }
  do 3 (apply lift_wf; intros ? _).
  destruct (mtb_loop_wf slv N T (Z.to_nat (Z.quot (zsum u) (r_d (nd_dr N)) - 1)) u (unit_at (length (nd_basis N)) 0) L) as [W1 W2].
  apply bind_wf; [exact W1|]. intros uG EG. apply lift_wf. intros ? _.
  apply all_req_bind; [apply all_req_ask; cbn; eauto|]. intros; apply all_req_lift.
Qed.

(** C50: monomial_to_basis_ND and reduce_vector_ND_poly (both rings) on an object
    with any history compute what they compute without tables *)
Theorem C50_monomial_to_basis : forall sm slv N T hist c u,
  (forall r, In r hist -> ncall_ok N r) -> nhistory sm slv N hist (empty_ncache T) = OK c ->
  forall R, (exists c', srun (nserve sm slv N) c (monomial_to_basis_ND_p N u) = OK (R, c')) <->
    monomial_to_basis_ND slv N u = OK R.
Proof.
  intros sm slv N T hist c u H E R. pose proof (nhistory_ok sm slv N T hist H _ c (nempty_ok slv N T) E) as K.
  destruct (gsrun_ok (nserve sm slv N) (nvalue slv N T) (ncache_ok slv N T) (wf_nreq N T) (nserve_ok sm slv N T)
    (monomial_to_basis_ND_p N u) c K (mtb_wf slv N T u)) as [S1 S2]. rewrite mtb_run in *. split.
  - intros (c' & E'). now apply (S1 R c').
  - intros E'. exact (S2 R E').
Qed.
Print Assumptions C50_monomial_to_basis.

Theorem C50_reduce_vector_poly : forall sm slv N T hist c r u v iterations G,
  (forall r, In r hist -> ncall_ok N r) -> nhistory sm slv N hist (empty_ncache T) = OK c ->
  length v = S (r_n (nd_dr N)) ->
  forall R, (exists c', srun (nserve sm slv N) c (reduce_vector_ND_poly_p N r u v iterations G) = OK (R, c')) <->
    reduce_vector_ND_poly slv N r u v iterations G = OK R.
Proof.
  intros sm slv N T hist c r u v it G H E L R. pose proof (nhistory_ok sm slv N T hist H _ c (nempty_ok slv N T) E) as K.
  destruct (gsrun_ok (nserve sm slv N) (nvalue slv N T) (ncache_ok slv N T) (wf_nreq N T) (nserve_ok sm slv N T)
    (reduce_vector_ND_poly_p N r u v it G) c K (rvp_wf slv N T r u v it G L)) as [S1 S2]. rewrite rvp_run in *. split.
  - intros (c' & E'). now apply (S1 R c').
  - intros E'. exact (S2 R E').
Qed.
Print Assumptions C50_reduce_vector_poly.

(** save_memory: the word size and modular tables are empty again after the
    entries derived from them exist *)
Example C50_ex :
  match nhistory true ex_nslv ex_N [NCkn [1; 1]; NPoly true [2; 0]; NRed true [1; 1]] (empty_ncache (fpow_init 9 1)) with
  | OK c => (length (nc_red c), length (nc_redZ c), length (nc_poly c), length (nc_polyZ c), length (nc_ckn c), length (nc_incl c)) = (0, 1, 0, 1, 1, 1)%nat /\
      match srun (nserve true ex_nslv ex_N) c (monomial_to_basis_ND_p ex_N [3; 3]) with
      | OK (R, _) => monomial_to_basis_ND ex_nslv ex_N [3; 3] = OK R /\ R <> [0]
      | Err _ => False
      end
  | Err _ => False
  end.
Proof. vm_compute. split; [reflexivity|]. split; [reflexivity|discriminate]. Qed.

(** C51: several threads.  From any state of the tables, the preparation
    succeeds; then under every schedule no thread fails and the tables never
    change; when all threads have finished their rows form the matrix of the
    sequential computation, and every partial execution can be completed. *)
Theorem C51_schedule_independent : forall sm slv q p prec f N,
  init_ND slv q p prec f = OK N -> let D := nd_dr N in
  wf_poly (r_n D) (r_d D) f -> solver_ok q slv -> 2 <= q -> (1 <= r_n D)%nat ->
  forall powers T, foldM (fun T power => compute_fpow q f power T) powers (fpow_init q (r_n D)) = OK T ->
  forall hist c, (forall r, In r hist -> ncall_ok N r) -> nhistory sm slv N hist (empty_ncache T) = OK c ->
  forall NN M, frob_matrix_ND slv N T NN = OK M ->
  exists c', srun (nserve sm slv N) c (frob_prepare_ND N NN) = OK (tt, c') /\
    let b := length (r_basis D) in
    let threads := map (frob_row_ND_p N true NN) (seq 0 b) in
    forall sched, exists ts, threads_run (nserve sm slv N) sched c' threads = OK (c', ts) /\
      (forall rows, finished ts = Some rows -> transpose b b rows = M) /\
      exists more ts' rows, threads_run (nserve sm slv N) (sched ++ more) c' threads = OK (c', ts') /\
        finished ts' = Some rows /\ transpose b b rows = M.
Proof.
  intros sm slv q p prec f N HI D W Hs Hq Hn powers T HT hist c Hh Hc NN M HM.
  destruct (init_ND_inv _ _ _ _ _ _ HI W) as (inv & Eq & Ef). subst D. subst q. subst f.
  assert (TK : tab_ok (r_q (nd_dr N)) (r_n (nd_dr N)) (r_d (nd_dr N)) (r_f (nd_dr N)) T).
  { destruct (fpow_history _ _ _ _ Hq W powers _ (init_ok _ _ _ _ Hq)) as (T' & E1 & E2 & _). congruence. }
  pose proof (nhistory_ok sm slv N T hist Hh _ c (nempty_ok slv N T) Hc) as K.
  unfold frob_matrix_ND in HM. cbv zeta in HM. apply bind_ok in HM. destruct HM as (u & E1 & HM).
  apply bind_ok in HM. destruct HM as (rows & E2 & HM). injection HM as <-.
  assert (NE : NN <> []).
  { intros ->. unfold check in E1. destruct (Nat.eqb_spec (length (@nil Z)) (r_n (nd_dr N))); [|discriminate]. cbn in *. lia. }
  destruct (nthreads_matrix sm slv N inv Hs Hq Hn true T c NN W TK K NE rows E2) as (c' & F1 & F2).
  exists c'. split; [exact F1|]. intros b threads sched. destruct (F2 sched) as (ts & G1 & G2 & more & G3).
  exists ts. split; [exact G1|]. split.
  - intros out Eo. now rewrite (G2 out Eo).
  - exists more, (map Ret rows), rows. split; [exact G3|]. split; [apply finished_ret|reflexivity].
Qed.
Print Assumptions C51_schedule_independent.

Example C51_ex : frob_matrix_ND ex_nslv ex_N (fpow_init 9 1) [1] = OK [[8]] /\
  match srun (nserve true ex_nslv ex_N) (empty_ncache (fpow_init 9 1)) (frob_prepare_ND ex_N [1]) with
  | OK (_, c') =>
      match threads_run (nserve true ex_nslv ex_N) [0; 0; 0; 0; 0; 0; 0; 0; 0; 0]%nat c' [frob_row_ND_p ex_N true [1] 0] with
      | OK (_, ts) => finished ts = Some [[8]]
      | Err _ => False
      end
  | Err _ => False
  end.
Proof. split; vm_compute; reflexivity. Qed.

(** C52: the branch of frob_ND_flint for several threads *)
Theorem C52_threads_branch : forall slv N T coordinate prec R,
  run (nvalue slv N T) (frob_ND_kind_p N true KFlint coordinate prec) = OK R <->
  frob_ND_kind slv N KFlint T coordinate prec = OK R.
Proof. intros slv N T coordinate prec R. apply kind_run. Qed.
Print Assumptions C52_threads_branch.

(** ... whose parallel loop gives the slices of the loop in order, under every
    schedule in which every iteration occurs *)
Theorem C52_slices : forall N end_ ss Gs, mapM (slice_reduce N end_) ss = OK Gs ->
  forall sched, (forall i, (i < length ss)%nat -> In i sched) ->
  slices_run N end_ ss sched (repeat None (length ss)) = OK (map Some Gs).
Proof. intros N end_ ss Gs E sched H. now apply slices_complete. Qed.
Print Assumptions C52_slices.

(** ... and the parallel loop over the columns of a reduction matrix: every
    schedule of the updates of the shared map gives the matrices of the
    sequential loop *)
Theorem C52_parallel_columns : forall slv q p prec f N,
  init_ND slv q p prec f = OK N -> let D := nd_dr N in
  wf_poly (r_n D) (r_d D) f -> solver_ok q slv -> (1 <= r_n D)%nat ->
  forall v, is_tuple (S (r_n D)) (r_d D) v ->
  exists cols R, column_updates slv N v = OK cols /\ compute_reduction_matrix_ND slv N v = OK R /\
    length cols = length (nd_basis N) /\
    forall sched, let s := col_run q (length (nd_basis N)) sched (mk_cstate [] cols) in
      (col_done s = true -> col_result s = R) /\
      exists more, col_done (col_run q (length (nd_basis N)) more s) = true.
Proof.
  intros slv q p prec f N HI D W Hs Hn v Hv. destruct (init_ND_inv _ _ _ _ _ _ HI W) as (inv & Eq & Ef). subst D q.
  exact (columns_any slv N inv Hs Hn v Hv).
Qed.
Print Assumptions C52_parallel_columns.

Example C52_ex : match column_updates ex_nslv ex_N [1; 1] with
  | OK cols => let s := col_run 9 2 [1; 0; 0; 1; 1; 0; 0; 1; 0; 1; 0; 1; 0; 1; 0; 1; 1; 1; 1; 1; 1; 1; 0; 0; 0; 0]%nat (mk_cstate [] cols) in
      col_done s = true /\ compute_reduction_matrix_ND ex_nslv ex_N [1; 1] = OK (col_result s) /\
      negb (Nat.eqb (length (nth 0 cols [])) 0) = true /\ negb (Nat.eqb (length (nth 1 cols [])) 0) = true /\
      negb (Nat.eqb (length (col_result s)) 0) = true
  | Err _ => False
  end.
Proof. vm_compute. auto. Qed.
