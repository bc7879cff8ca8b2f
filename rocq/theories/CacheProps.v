(** Properties C30 - C32: statements only. *)
From Coq Require Import ZArith List Lia.
From Verif Require Import Base VecModel VecSpec VecProofs ToolsModel ToolsSpec ToolsProofs PolyProofs MatModel MatProofs
  DRModel DRSpec DRProofs DRRed DRStep DRFinal DRPath DRLemmas FrobModel FrobSpec FrobTop
  ProgModel ProgProofs CacheModel CacheProofs CacheFrob CacheCover CachePrep ParModel ParProofs.
Import ListNotations.
Open Scope Z_scope.

(** calls to the de Rham object with vectors of the right length *)
Definition call_ok (D : dR) (r : req) : Prop :=
  match r with
  | QSolve _ | QFinal _ => True
  | QRed _ v | QIncl v => length v = S (r_n D)
  | QFpow _ => False
  end.
Lemma call_wf D T r : call_ok D r -> wf_req D T r.
Proof. destruct r; cbn; tauto. Qed.

Lemma empty_ok slv D T : cache_ok slv D T (empty_cache T).
Proof.
  constructor; cbn; auto; try (intros; contradiction); try constructor.
  intros [|i] x E; discriminate.
Qed.
Lemma history_ok sm slv D T hist : (forall r, In r hist -> call_ok D r) -> forall c c', cache_ok slv D T c ->
  history sm slv D hist c = OK c' -> cache_ok slv D T c'.
Proof.
  induction hist as [|r hist IH]; intros H c c' K E; cbn [history] in E; [congruence|].
  apply bind_ok in E. destruct E as ([x c1] & E1 & E). cbn [snd] in E.
  destruct (serve_ok sm slv D T c r K (call_wf D T r (H r (or_introl eq_refl)))) as [S1 _]. destruct (S1 x c1 E1) as [_ K1].
  eapply IH; eauto. intros r' I. apply H. now right.
Qed.

(** C30: after any sequence of calls, for both settings of save_memory, a call
    succeeds exactly if the computation without tables does, with its value *)
Theorem C30_history_independent : forall sm slv D T hist c r,
  (forall r, In r hist -> call_ok D r) -> history sm slv D hist (empty_cache T) = OK c -> call_ok D r ->
  (forall x c', serve sm slv D c r = OK (x, c') -> value slv D T r = OK x) /\
  (forall x, value slv D T r = OK x -> exists c', serve sm slv D c r = OK (x, c')).
Proof.
  intros sm slv D T hist c r H E Hr. pose proof (history_ok sm slv D T hist H _ c (empty_ok slv D T) E) as K.
  destruct (serve_ok sm slv D T c r K (call_wf D T r Hr)) as [S1 S2]. split; auto. intros x c' E'. now apply (S1 x c').
Qed.
Print Assumptions C30_history_independent.

(** C30: two objects with different histories and different settings of
    save_memory answer alike *)
Theorem C30_two_histories : forall sm1 sm2 slv D T1 T2 hist1 hist2 c1 c2 r x c1',
  (forall r, In r hist1 -> call_ok D r) -> (forall r, In r hist2 -> call_ok D r) -> call_ok D r ->
  history sm1 slv D hist1 (empty_cache T1) = OK c1 -> history sm2 slv D hist2 (empty_cache T2) = OK c2 ->
  serve sm1 slv D c1 r = OK (x, c1') -> exists c2', serve sm2 slv D c2 r = OK (x, c2').
Proof.
  intros sm1 sm2 slv D T1 T2 hist1 hist2 c1 c2 r x c1' H1 H2 Hr E1 E2 E.
  apply (proj1 (C30_history_independent sm1 slv D T1 hist1 c1 r H1 E1 Hr)) in E.
  apply (proj2 (C30_history_independent sm2 slv D T2 hist2 c2 r H2 E2 Hr)). destruct r; try exact E. destruct Hr.
Qed.
Print Assumptions C30_two_histories.

(** with save_memory the matrix over Z/9 is erased and computed again *)
Example C30_ex :
  history true ex_slv ex_D [QFinal 1; QRed true [1; 1]; QIncl [1; 0]] (empty_cache (fpow_init 9 1)) =
    OK (mk_cache [(1, ([], [[0; 5]; [5; 0]]))] []
          [([1; 1], [[[0; 0]; [0; 0]]; [[0; 5]; [0; 0]]; [[0; 0]; [5; 0]]])]
          [([1; 0], [[1; 0]])] [[[1]]] (fpow_init 9 1)) /\
  match history true ex_slv ex_D [QFinal 1; QRed true [1; 1]; QRed false [1; 1]] (empty_cache (fpow_init 9 1)) with
  | OK c => c_red c = c_redZ c /\ length (c_red c) = 1%nat
  | Err _ => False
  end.
Proof. split; [vm_compute; reflexivity|]. vm_compute. auto. Qed.

(** C31: several threads.  From any state of the tables, the preparation
    succeeds; then under every schedule no thread fails and the tables never
    change; when all threads have finished their rows form the matrix of the
    sequential computation, and every partial execution can be completed. *)
Theorem C31_schedule_independent : forall sm slv q p prec f D,
  init slv q p prec f = OK D -> wf_poly (r_n D) (r_d D) f -> solver_ok q slv -> 2 <= q -> 2 <= p -> (1 <= r_n D)%nat ->
  forall powers T, foldM (fun T power => compute_fpow q f power T) powers (fpow_init q (r_n D)) = OK T ->
  forall hist c, (forall r, In r hist -> call_ok D r) -> history sm slv D hist (empty_cache T) = OK c ->
  forall N M, frob_matrix_J slv D T N = OK M ->
  exists c', srun (serve sm slv D) c (frob_prepare D N) = OK (tt, c') /\
    let b := length (r_basis D) in
    let threads := map (frob_row_p D N) (seq 0 b) in
    forall sched, exists ts, threads_run (serve sm slv D) sched c' threads = OK (c', ts) /\
      (forall rows, finished ts = Some rows -> transpose b b rows = M) /\
      exists more ts' rows, threads_run (serve sm slv D) (sched ++ more) c' threads = OK (c', ts') /\
        finished ts' = Some rows /\ transpose b b rows = M.
Proof.
  intros sm slv q p prec f D HI W Hs Hq Hp Hn powers T HT hist c Hh Hc N M HM.
  destruct (init_inv _ _ _ _ _ _ HI W) as (inv & Eq & Ef). pose proof (init_p _ _ _ _ _ _ HI) as Ep. subst q p. subst f.
  assert (TK : tab_ok (r_q D) (r_n D) (r_d D) (r_f D) T).
  { destruct (fpow_history _ _ _ _ Hq W powers _ (init_ok _ _ _ _ Hq)) as (T' & E1 & E2 & _). congruence. }
  pose proof (history_ok sm slv D T hist Hh _ c (empty_ok slv D T) Hc) as K.
  unfold frob_matrix_J in HM. apply bind_ok in HM. destruct HM as (u & E1 & HM).
  apply bind_ok in HM. destruct HM as (rows & E2 & HM). injection HM as <-.
  assert (NE : N <> []).
  { intros ->. unfold check in E1. destruct (Nat.eqb_spec (length (@nil Z)) (r_n D)); [|discriminate]. cbn in *. lia. }
  destruct (threads_matrix sm slv D inv Hs Hq Hn Hp T c N W TK K NE rows E2) as (c' & F1 & F2).
  exists c'. split; [exact F1|]. intros b threads sched. destruct (F2 sched) as (ts & G1 & G2 & more & G3).
  exists ts. split; [exact G1|]. split.
  - intros out Eo. now rewrite (G2 out Eo).
  - exists more, (map Ret rows), rows. split; [exact G3|]. split; [apply finished_ret|reflexivity].
Qed.
Print Assumptions C31_schedule_independent.

Example C31_ex : frob_matrix_J ex_slv ex_D (fpow_init 9 1) [1] = OK [[8]] /\
  match srun (serve true ex_slv ex_D) (empty_cache (fpow_init 9 1)) (frob_prepare ex_D [1]) with
  | OK (_, c') =>
      match threads_run (serve true ex_slv ex_D) [0; 0; 0; 0; 0; 0; 0; 0; 0; 0]%nat c' [frob_row_p ex_D [1] 0] with
      | OK (_, ts) => finished ts = Some [[8]]
      | Err _ => False
      end
  | Err _ => False
  end.
Proof. split; vm_compute; reflexivity. Qed.

(** C32: the iterations of the parallel loop, with every += split into a load
    and a store, give the same matrices under every schedule; all lookups hit
    ([red_ups] succeeds) *)
Theorem C32_parallel_reduction_matrix : forall slv q p prec f D,
  init slv q p prec f = OK D -> wf_poly (r_n D) (r_d D) f -> solver_ok q slv ->
  forall v, length v = S (r_n D) -> zsum v = r_d D ->
  exists listG ups Ms, get_at (r_tl D) (degG D) = OK listG /\ red_ups slv D v = OK ups /\
    compute_reduction_matrix_J slv D v = OK Ms /\
    (forall sched, let s := par_run q sched (par_start (r_n D) (length listG) ups) in
       (par_done s -> ps_M s = Ms) /\ exists more, par_done (par_run q more s)).
Proof.
  intros slv q p prec f D HI W Hs v Hl Hz.
  destruct (init_inv _ _ _ _ _ _ HI W) as (inv & Eq & Ef). subst q f.
  destruct (reduction_parallel slv D inv Hs v Hl Hz) as (ups & Ms & E1 & E2 & _ & E3).
  exists (enum (S (r_n D)) (Z.to_nat (degG D))), ups, Ms. split; [exact (LG_get slv D inv v Hl)|]. auto.
Qed.
Print Assumptions C32_parallel_reduction_matrix.

Example C32_ex : match red_ups ex_slv ex_D [1; 1] with
  | OK ups => ps_M (par_run 9 [1; 0; 0; 1; 1; 0; 0; 1; 0; 1; 0; 1; 0; 1; 0; 1]%nat (par_start 1 2 ups)) =
      [[[0; 0]; [0; 0]]; [[0; 5]; [0; 0]]; [[0; 0]; [5; 0]]] /\ length (concat ups) = 8%nat
  | Err _ => False
  end.
Proof. vm_compute. auto. Qed.
