(** C62: what the test programs can detect.
    - test_invariance_J and test_invariance_ND compute the second matrix from the
      object of the first: whatever the linear algebra does, if they return they
      report success.
    - test_JND_and_invariance goes on after frob_J and frob_ND disagree; its exit
      status does not depend on the matrix of frob_J.
    - one run of test_K3p3 compares 3 of the 21 columns.
    - test_zeta_function never reads the expected polynomials: its exit status is 0
      for every library and every expected text. *)
From Coq Require Import ZArith List Bool Lia.
From Verif Require Import Base VecModel ToolsModel MatModel MatProofs DRModel FdModel FrobModel NDModel FrobNDModel SolveModel LuInst LuFast ArgsModel
  ChangeModel CharModel TestModel CtorModel IoModel ZetaModel RunModel ChangeProps CharProps InvModel InvProofs RunProps.
Import ListNotations.
Open Scope Z_scope.

(** ** the tests of invariance *)
(** for every solver, every determinant and every random value: no failure *)
Theorem C62_invariance_J : forall slv gauss det cands row p n d rs b rs', 3 <= p ->
  test_invariance_J use_hs slv gauss det cands row p n d rs = OK (b, rs') -> b = true.
Proof.
  intros slv gauss det cands row p n d rs b rs' Hp E. unfold test_invariance_J in E. apply bind_ok in E. destruct E as ([[prec N] cprec] & E1 & E). cbv zeta in E.
  apply bind_ok in E. destruct E as (x & E2 & E). apply bind_ok in E. destruct E as (b' & E3 & E). injection E as <- _.
  destruct (random_J_wf _ _ _ _ _ _ _ _ _ E2) as (f & F1 & F2). destruct (new_J_ready _ _ _ _ _ _ _ _ (default_q _ _ _ _ _ _ Hp E1) F2 F1) as (G1 & G2 & G3).
  revert E3. apply body_vacuous. intros F EF. exact (matrix_J_again _ _ _ _ _ G1 G2 G3 EF).
Qed.
Print Assumptions C62_invariance_J.
Theorem C62_invariance_ND : forall slv lu gauss det cands row rnd p n d rs b rs', 3 <= p ->
  test_invariance_ND use_hs slv lu gauss det cands row rnd p n d rs = OK (b, rs') -> b = true.
Proof.
  intros slv lu gauss det cands row rnd p n d rs b rs' Hp E. unfold test_invariance_ND in E. apply bind_ok in E. destruct E as ([[prec N] cprec] & E1 & E). cbv zeta in E.
  apply bind_ok in E. destruct E as (x & E2 & E). apply bind_ok in E. destruct E as (b' & E3 & E). injection E as <- _.
  destruct (random_ND_wf _ _ _ _ _ _ _ _ _ E2) as (f & F1 & F2).
  destruct (new_J_ready _ _ _ _ _ _ _ _ (default_q _ _ _ _ _ _ Hp E1) F2 (RunProofs.init_ND_dr _ _ _ _ _ _ F1)) as (G1 & G2 & G3).
  revert E3. apply body_vacuous. intros F EF. exact (matrix_ND_again _ _ _ _ _ G1 G2 G3 EF).
Qed.
Print Assumptions C62_invariance_ND.

(** a wrong program: the right solver, then the first row of the solution set to
    zero.  The test as written passes; with hs2, as meant, it would fail; and the
    right program passes both. *)
Definition good_slv (p q prec : Z) : solver := padic_solver lu_inst inv_fast p q prec.
Definition bad_slv (p q prec : Z) : solver := fun nc T =>
  BU <- good_slv p q prec nc T ;; OK (fst BU, match snd BU with [] => [] | r :: rs => map (fun _ => 0) r :: rs end).
Definition cubic_rs : list Z := [1; 2; 3; 4; 5; 6; 7; 8; 9; 10].
Definition cand3 : mat := [[1; 2; 3]; [0; 1; 4]; [1; 0; 1]].
Definition inv_J so slv := test_invariance_J so slv gauss_inst det_inst [cand3] 0 17 2 3 cubic_rs.
Definition inv_ND so slv := test_invariance_ND so slv lu_inst gauss_inst det_inst [cand3] 0 rnd1 17 2 3 cubic_rs.
Theorem C62_invariance_detects_refuted :
  inv_J use_hs (bad_slv 17) = OK (true, []) /\ inv_J use_hs2 (bad_slv 17) = OK (false, []).
Proof. split; vm_compute; reflexivity. Qed.
Print Assumptions C62_invariance_detects_refuted.
Example C62_invariance_ex :
  inv_J use_hs (good_slv 17) = OK (true, []) /\ inv_J use_hs2 (good_slv 17) = OK (true, []) /\ inv_ND use_hs (bad_slv 17) = OK (true, []).
Proof. split; [|split]; vm_compute; reflexivity. Qed.

(** the whole programs: for every library, every source of primes and all random
    values, if the program ends it ends with PASS *)
Lemma until_fail_true : forall l, (forall x rs b rs', In x l -> x rs = OK (b, rs') -> b = true) ->
  forall rs b rs', until_fail l rs = OK (b, rs') -> b = true.
Proof.
  induction l as [|x l IH]; intros H rs b rs' E; [now injection E as <- _|]. cbn [until_fail] in E. unfold dbind in E. apply bind_ok in E.
  destruct E as ([c rs1] & E1 & E). cbn [fst snd] in E. rewrite (H x rs c rs1 (or_introl eq_refl) E1) in E.
  exact (IH (fun y r b0 r' I => H y r b0 r' (or_intror I)) _ _ _ E).
Qed.
Lemma draw_above_gt gp d : forall rs p rs', draw_above gp d rs = OK (p, rs') -> d < p.
Proof.
  induction rs as [|x rs IH]; intros p rs' E; cbn [draw_above] in E; [discriminate|]. destruct (Z.leb_spec (gp x) d); [eauto|].
  injection E as <- _. lia.
Qed.
Lemma invariance_main_true gp test : (forall k p n d rs b rs', 3 <= p -> test k p n d rs = OK (b, rs') -> b = true) ->
  forall rs b rs', invariance_main gp test rs = OK (b, rs') -> b = true.
Proof.
  intros H. apply until_fail_true. intros x rs b rs' Hx E. apply in_flat_map in Hx. destruct Hx as (d & Hd & Hx). cbv zeta in Hx.
  apply in_map_iff in Hx. destruct Hx as (i & <- & _). unfold dbind in E. apply bind_ok in E. destruct E as ([p rs1] & E1 & E). cbn [fst snd] in E.
  apply draw_above_gt in E1. apply zseq_In in Hd. eapply H; [|exact E]. lia.
Qed.
Theorem C62_main_J : forall slv gauss det (cands : Z * Z -> list mat) (row : Z * Z -> nat) gp rs b rs',
  invariance_main gp (fun k => test_invariance_J use_hs slv gauss det (cands k) (row k)) rs = OK (b, rs') -> b = true.
Proof. intros slv gauss det cands row gp. apply invariance_main_true. intros k. apply C62_invariance_J. Qed.
Print Assumptions C62_main_J.
Theorem C62_main_ND : forall slv lu gauss det (cands : Z * Z -> list mat) (row : Z * Z -> nat) rnd gp rs b rs',
  invariance_main gp (fun k => test_invariance_ND use_hs slv lu gauss det (cands k) (row k) (rnd k)) rs = OK (b, rs') -> b = true.
Proof. intros slv lu gauss det cands row rnd gp. apply invariance_main_true. intros k. apply C62_invariance_ND. Qed.
Print Assumptions C62_main_ND.
(** the runs are 20 for d = 3, 20 for d = 4 and one for d = 5; a test that fails for
    d = 5 only is seen in the last run *)
Example C62_main_ex :
  invariance_main (fun plen x => if plen =? 4 then 11 else x) (fun _ _ _ _ => dret true) (repeat 17 41) = OK (true, []) /\
  invariance_main (fun plen x => if plen =? 4 then 11 else x) (fun k p _ d => dret ((fst k =? d) && negb (p =? 11))) (repeat 17 41) = OK (false, []) /\
  draw_above (fun x => x) 5 [3; 5; 7; 2] = OK (7, [2]).
Proof. repeat split. Qed.

(** the programs report success only if every run did: 20 runs for d = 3 and d = 4, one
    for d = 5; in test_JND_and_invariance 20 runs, of which the second comparison counts *)
Lemma until_all : forall l rs rs', until_fail l rs = OK (true, rs') -> forall x, In x l -> exists r r', x r = OK (true, r').
Proof.
  induction l as [|y l IH]; intros rs rs' E x [].
  - subst y. cbn [until_fail] in E. unfold dbind in E. apply bind_ok in E. destruct E as ([b r1] & E1 & E). cbn [fst snd] in E. destruct b; [eauto|discriminate].
  - cbn [until_fail] in E. unfold dbind in E. apply bind_ok in E. destruct E as ([b r1] & _ & E). cbn [fst snd] in E. destruct b; [eauto|discriminate].
Qed.
Theorem C62_main_all : forall gp test rs rs', invariance_main gp test rs = OK (true, rs') ->
  forall d i, (3 <= d <= 4 /\ 0 <= i < 20) \/ (d = 5 /\ i = 0) -> exists p r r', d < p /\ test (d, i) p 2%nat d r = OK (true, r').
Proof.
  intros gp test rs rs' E d i H. unfold invariance_main in E. set (plen := if d =? 5 then 4 else 5).
  destruct (until_all _ _ _ E (dbind (draw_above (gp plen) d) (fun p => test (d, i) p 2%nat d))) as (r & r' & E1).
  - apply in_flat_map. exists d. split; [apply zseq_In; lia|]. cbv zeta. fold plen. apply in_map_iff. exists i. split; [reflexivity|]. apply zseq_In. destruct (Z.eqb_spec d 5); lia.
  - unfold dbind in E1. apply bind_ok in E1. destruct E1 as ([p r1] & E1 & E2). cbn [fst snd] in E2. apply draw_above_gt in E1. exists p, r1, r'. split; [exact E1|exact E2].
Qed.
Print Assumptions C62_main_all.
Theorem C62_JND_all : forall gp test rs rs', main_JND gp test rs = OK (true, rs') ->
  forall i, 0 <= i < 20 -> exists p b r r', 4 < p /\ test i p 2%nat r = OK ((b, true), r').
Proof.
  intros gp test rs rs' E i H. unfold main_JND in E.
  destruct (until_all _ _ _ E (dbind (draw_above (gp 5) 4) (fun p => dbind (test i p 2%nat) (fun b => dret (snd b))))) as (r & r' & E1).
  - apply in_map_iff. exists i. split; [reflexivity|]. apply zseq_In. lia.
  - unfold dbind in E1. apply bind_ok in E1. destruct E1 as ([p r1] & E1 & E2). cbn [fst snd] in E2. apply bind_ok in E2. destruct E2 as ([[b c] r2] & E2 & E3).
    unfold dret in E3. cbn [fst snd] in E3. injection E3 as E3 E4. subst c. apply draw_above_gt in E1. exists p, b, r1, r2. split; [exact E1|exact E2].
Qed.
Print Assumptions C62_JND_all.

(** ** test_JND_and_invariance *)
(** the matrix of frob_J can be any square matrix X: the run aborts in the same cases *)
Theorem C62_JND_ignores_J : forall Obj (frobJ frobND : Obj -> res (mat * Obj)) fbar transform make p n hs r m X,
  jnd_body frobJ frobND fbar transform make p n hs = OK r -> shape X m m -> (1 <= m)%nat ->
  exists b, jnd_body (fun h => F <- frobJ h ;; OK (X, snd F)) frobND fbar transform make p n hs = OK (b, snd r) /\
    jnd_main [(b, snd r)] = jnd_main [r].
Proof.
  intros Obj frobJ frobND fbar transform make p n hs r m X E HX Hm. unfold jnd_body in *. apply bind_ok in E. destruct E as (FJ & -> & E). cbn [bind fst snd].
  apply bind_ok in E. destruct E as (FN & -> & E). cbn [bind]. apply bind_ok in E. destruct E as (cJ & _ & E).
  rewrite (C13_charpoly Hm HX). cbn [bind].
  do 3 (apply bind_ok in E; destruct E as (? & -> & E); cbn [bind]). cbv zeta in *.
  do 6 (apply bind_ok in E; destruct E as (? & -> & E); cbn [bind]). injection E as <-. eexists. split; reflexivity.
Qed.
Print Assumptions C62_JND_ignores_J.
(** the program can end with exit status 0 although frob_J and frob_ND disagree *)
Definition diag6 (x : Z) : mat := map (fun i => map (fun j => if Nat.eqb i j then x else 0) (seq 0 6)) (seq 0 6).
Definition jnd6 (FJ : mat) : res (bool * bool) :=
  jnd_body (fun _ : unit => OK (FJ, tt)) (fun _ => OK (diag6 5, tt)) (fun _ => []) (fun f => OK f) (fun _ => OK tt) 7 2 tt.
Theorem C62_JND_detects_refuted : exists FJ r, jnd6 FJ = OK r /\ fst r = false /\ jnd_main [r] = OK 0.
Proof. exists (diag6 1), (false, true). split; [vm_compute; reflexivity|]. split; reflexivity. Qed.
Print Assumptions C62_JND_detects_refuted.
(** C62_JND_ignores_J applies to the run with the right matrix *)
Example C62_JND_ex : jnd6 (diag6 5) = OK (true, true) /\ shape (diag6 1) 6 6.
Proof. split; [vm_compute; reflexivity|split; [reflexivity|repeat constructor]]. Qed.

(** the whole program: the matrices of frob_J can be altered at will *)
Lemma until_fail_ext : forall (f g : Z -> draws bool) l, (forall i rs r, f i rs = OK r -> g i rs = OK r) ->
  forall rs r, until_fail (map f l) rs = OK r -> until_fail (map g l) rs = OK r.
Proof.
  intros f g l H. induction l as [|i l IH]; intros rs r E; [exact E|]. cbn [map until_fail] in *. unfold dbind in *. apply bind_ok in E.
  destruct E as ([b rs1] & E1 & E). rewrite (H _ _ _ E1). cbn [bind fst snd] in *. destruct b; auto.
Qed.
Theorem C62_main_JND : forall alter slv lu gauss det (cands : Z -> list mat) (row : Z -> nat) rnd gp rs r,
  (forall F, exists m, (1 <= m)%nat /\ shape (alter F) m m) ->
  let main al := main_JND gp (fun i => test_JND_with al slv lu gauss det (cands i) (row i) (rnd i)) in
  main (fun F => F) rs = OK r -> main alter rs = OK r.
Proof.
  intros alter slv lu gauss det cands row rnd gp rs r HA main. apply until_fail_ext. clear rs r. intros i rs r E. unfold dbind in *. apply bind_ok in E. destruct E as ([p rs1] & -> & E).
  cbn [bind fst snd] in *. apply bind_ok in E. destruct E as (x & E1 & E). unfold test_JND_with in *. apply bind_ok in E1. destruct E1 as ([prec N] & -> & E1). cbn [bind] in *. cbv zeta in *.
  apply bind_ok in E1. destruct E1 as (y & -> & E1). cbn [bind]. apply bind_ok in E1. destruct E1 as (b & E1 & E2). injection E2 as <-.
  unfold jnd_body in E1 at 1. apply bind_ok in E1. destruct E1 as (FJ & E2 & E1). apply bind_ok in E2. destruct E2 as (F0 & E2 & E3). injection E3 as <-. cbn [fst snd] in E1.
  destruct (HA (fst F0)) as (m & Hm & HX). unfold jnd_body. rewrite E2. cbn [bind fst snd].
  apply bind_ok in E1. destruct E1 as (FN & -> & E1). cbn [bind]. apply bind_ok in E1. destruct E1 as (cJ & _ & E1).
  rewrite (C13_charpoly Hm HX). cbn [bind]. do 3 (apply bind_ok in E1; destruct E1 as (? & -> & E1); cbn [bind]). cbv zeta in *.
  do 6 (apply bind_ok in E1; destruct E1 as (? & -> & E1); cbn [bind]). injection E1 as <-. exact E.
Qed.
Print Assumptions C62_main_JND.
(** twenty runs; the first comparison may fail in all of them, the second in none *)
Example C62_main_JND_ex :
  main_JND (fun _ x => x) (fun _ _ _ => dret (false, true)) (repeat 17 20) = OK (true, []) /\
  main_JND (fun _ x => x) (fun i _ _ => dret (true, negb (i =? 19))) (repeat 17 20) = OK (false, []) /\
  (forall F : mat, exists m, (1 <= m)%nat /\ shape ((fun _ => [[5]]) F) m m).
Proof. split; [reflexivity|split; [reflexivity|]]. intros F. exists 1%nat. split; [lia|split; [reflexivity|repeat constructor]]. Qed.

(** ** test_K3p3 *)
(** one run compares three of the 21 columns: another implementation that agrees in
    these has the same outcome; the runs for all values of rand() compare all *)
Theorem C62_K3p3 : forall frob table,
  (forall r, 0 <= r -> test_K3p3 frob table r = OK true) <->
  (forall i, (i < 21)%nat -> frob i (if Nat.eqb i 20 then 8 else 7) = OK (map (fun row => nth i row 0) (map (fun k => nth k table []) (seq 0 21)))).
Proof.
  intros frob table.
  assert (T : forall i, (i < 21)%nat -> nth i (transpose 21 21 table) [] = map (fun row => nth i row 0) (map (fun k => nth k table []) (seq 0 21))).
  { intros i Hi. unfold transpose. rewrite (nth_indep _ [] (map (fun i0 => mget table i0 0) (seq 0 21))) by (rewrite map_length, seq_length; exact Hi).
    rewrite (map_nth (fun j => map (fun i0 => mget table i0 j) (seq 0 21))), seq_nth by exact Hi. rewrite map_map. reflexivity. }
  assert (V : forall a b, veqb a b = true <-> a = b). { intros a b. unfold veqb. destruct (list_eq_dec Z.eq_dec a b); split; congruence. }
  split.
  - intros H i Hi. rewrite <- T by exact Hi.
    assert (K : forall r, 0 <= r -> frob 0%nat 7 = OK (nth 0 (transpose 21 21 table) []) /\ frob 20%nat 8 = OK (nth 20 (transpose 21 21 table) []) /\
        frob (Z.to_nat (Z.rem r 19 + 1)) 7 = OK (nth (Z.to_nat (Z.rem r 19 + 1)) (transpose 21 21 table) [])).
    { intros r Hr. specialize (H r Hr). unfold test_K3p3 in H. cbv zeta in H. apply bind_ok in H. destruct H as (f0 & E0 & H). apply bind_ok in H. destruct H as (f1 & E1 & H).
      apply bind_ok in H. destruct H as (f2 & E2 & H). injection H as H. apply andb_true_iff in H. destruct H as (H & V2). apply andb_true_iff in H. destruct H as (V0 & V1).
      apply V in V0, V1, V2. now subst. }
    destruct (Nat.eqb_spec i 20) as [->|N20]; [exact (proj1 (proj2 (K 0 ltac:(lia))))|].
    destruct (Nat.eq_dec i 0) as [->|N0]; [exact (proj1 (K 0 ltac:(lia)))|].
    destruct (K (Z.of_nat i - 1) ltac:(lia)) as (_ & _ & E). rewrite Z.rem_small in E by lia. replace (Z.to_nat (Z.of_nat i - 1 + 1)) with i in E by lia. exact E.
  - intros H r Hr. unfold test_K3p3. cbv zeta. pose proof (Z.rem_bound_pos r 19 Hr ltac:(lia)) as B. set (i := Z.to_nat (Z.rem r 19 + 1)).
    assert (Hi : (1 <= i < 20)%nat) by (unfold i; lia).
    pose proof (H 0%nat ltac:(lia)) as H0. pose proof (H i ltac:(lia)) as H1. pose proof (H 20%nat ltac:(lia)) as H2.
    cbn [Nat.eqb] in H0, H2. destruct (Nat.eqb_spec i 20); [lia|]. rewrite <- T in H0, H1, H2 by lia. rewrite H0, H1, H2. cbn [bind].
    rewrite !(proj2 (V _ _) eq_refl). reflexivity.
Qed.
Print Assumptions C62_K3p3.
(** a run does not see column 7 unless rand() % 19 = 6 *)
Theorem C62_K3p3_detects_refuted : exists frob table,
  (forall r, 0 <= r -> Z.rem r 19 <> 6 -> test_K3p3 frob table r = OK true) /\ frob 7%nat 7 <> OK (map (fun row => nth 7 row 0) table).
Proof.
  set (col := fun j => map (fun k => Z.of_nat (21 * k + j)) (seq 0 21)).
  exists (fun i _ => if Nat.eqb i 7 then OK [] else OK (col i)), (map (fun k => map (fun j => Z.of_nat (21 * k + j)) (seq 0 21)) (seq 0 21)). split; [|discriminate].
  intros r Hr H6. unfold test_K3p3. cbv zeta. pose proof (Z.rem_bound_pos r 19 Hr ltac:(lia)) as B. set (s := Z.rem r 19) in *.
  assert (I : In s (zseq 0 19)) by (apply zseq_In; lia). clearbody s. vm_compute in I. repeat (destruct I as [<-|I]; [first [reflexivity|lia]|]). destruct I.
Qed.
Print Assumptions C62_K3p3_detects_refuted.

(** ** test_zeta_function *)
Theorem C62_zeta_main : forall lu gauss inv det rnd in1 ex1 ms cs p ex2 in3 ex3 c, 2 <= p ->
  (forall pf, zeta_input_text in1 = OK pf -> 2 <= fst pf) -> (forall pf, zeta_input_text in3 = OK pf -> 2 <= fst pf) ->
  zeta_main lu gauss inv det rnd in1 ex1 ms cs p ex2 in3 ex3 = OK c -> c = 0.
Proof.
  intros lu gauss inv det rnd in1 ex1 ms cs p ex2 in3 ex3 c Hp H1 H3 E.
  assert (Z0 : forall f q r txt, 2 <= q -> zeta_default lu gauss inv det rnd f q = OK r -> compare_expected txt (fst r) = 0).
  { intros f q r txt Hq Er. destruct (zeta_lead _ _ _ _ _ _ _ _ Hq Er) as [L1 L2]. unfold compare_expected.
    rewrite (zx_eqb_nil (fst r) (length (fst r) - 1)); [reflexivity|lia|rewrite L2; lia]. }
  assert (T : forall input txt a, (forall pf, zeta_input_text input = OK pf -> 2 <= fst pf) -> test_text lu gauss inv det rnd input txt = OK a -> a = 0).
  { intros input txt a H Ea. unfold test_text in Ea. apply bind_ok in Ea. destruct Ea as (pf & E1 & Ea). apply bind_ok in Ea. destruct Ea as (r & E2 & Ea). injection Ea as <-. exact (Z0 _ _ _ txt (H pf E1) E2). }
  unfold zeta_main in E. apply bind_ok in E. destruct E as (a & E1 & E). apply bind_ok in E. destruct E as (b & E2 & E). apply bind_ok in E. destruct E as (c' & E3 & E). injection E as <-.
  rewrite (T _ _ _ H1 E1), (T _ _ _ H3 E3). unfold test_vectors in E2. apply bind_ok in E2. destruct E2 as (f & _ & E2). apply bind_ok in E2. destruct E2 as (r & E4 & E2). injection E2 as <-.
  rewrite (Z0 _ _ _ ex2 Hp E4). reflexivity.
Qed.
Print Assumptions C62_zeta_main.

(** the test of a cubic over F_17, with an expected text that is not its zeta
    function, passes *)
Definition hesse_txt : text :=
  print_Z 17 ++ [c_nl] ++ print_vec (print_vec print_Z) (map fst hesse) ++ [c_nl] ++ print_vec print_Z (map snd hesse).
Definition ztest := test_text lu_inst gauss_inst inv_fast det_inst rnd1.
Theorem C62_zeta_detects_refuted : exists pf r e e',
  zeta_input_text hesse_txt = OK pf /\ zeta_default lu_inst gauss_inst inv_fast det_inst rnd1 (snd pf) (fst pf) = OK r /\
  parse_vec parse_Z e = OK (fst r, []) /\ (exists x, parse_vec parse_Z e' = OK (x, []) /\ x <> fst r) /\
  ztest hesse_txt e' = OK 0.
Proof.
  eexists _, _, (print_vec print_Z [17; -6; 1]), (print_vec print_Z [17; 5; 1]).
  split; [vm_compute; reflexivity|]. split; [vm_compute; reflexivity|]. split; [vm_compute; reflexivity|].
  split; [eexists; split; [vm_compute; reflexivity|discriminate]|]. vm_compute; reflexivity.
Qed.
Print Assumptions C62_zeta_detects_refuted.
Example C62_zeta_ex : (forall pf, zeta_input_text hesse_txt = OK pf -> 2 <= fst pf) /\
  zeta_main lu_inst gauss_inst inv_fast det_inst rnd1 hesse_txt [] (map fst hesse) (map snd hesse) 17 [] hesse_txt [] = OK 0.
Proof.
  split; [|vm_compute; reflexivity]. intros pf E.
  assert (X : (match zeta_input_text hesse_txt with OK x => fst x | Err _ => 0 end) = 17) by (vm_compute; reflexivity).
  rewrite E in X. lia.
Qed.
