(** The preparation done by frob_matrix_J for several threads fills the tables;
    then threads only read. *)
From Coq Require Import ZArith List Bool Lia.
From Verif Require Import Base VecModel VecSpec VecProofs ToolsModel ToolsSpec ToolsProofs PolyProofs MatModel MatProofs
  DRModel DRSpec DRProofs DRRed DRStep DRPath DRFinal FrobModel FrobSpec FrobPath FrobProofs FrobSum FrobTop
  ProgModel ProgProofs CacheModel CacheProofs CacheFrob CacheCover.
Import ListNotations.
Open Scope Z_scope.

Section PREP1.
  Variables (sm : bool) (slv : solver) (D : dR) (T : list poly).
  Notation N := (S (r_n D)).
  Notation h := (value slv D T).

  (** the requests whose answers are never erased *)
  Definition kept (r : req) : Prop :=
    match r with QRed true _ | QIncl _ | QFinal _ => True | _ => False end.

  Lemma vfind_some {V} (m : vmap V) v : vsorted N m -> length v = N -> (vfind v m <> None <-> exists x, In (v, x) m).
  Proof.
    intros S L. split.
    - intros H. destruct (vfind v m) as [x|] eqn:E; [|congruence]. exists x. now apply (vfind_In N).
    - intros [x I] H. apply (vfind_In N) in I; auto. congruence.
  Qed.
  Lemma vfind_vinsert {V} (m : vmap V) k x v : vsorted N m -> length k = N -> length v = N ->
    (vfind v m <> None \/ v = k) -> vfind v (vinsert k x m) <> None.
  Proof.
    intros S Lk Lv H. apply vfind_some; auto; [now apply vinsert_sorted|].
    destruct (list_eq_dec Z.eq_dec v k) as [->|Ne].
    - exists x. apply (vinsert_In N); auto.
    - destruct H as [H|]; [|congruence]. apply vfind_some in H; auto. destruct H as [y I]. exists y. apply (vinsert_In N); auto.
  Qed.

  Definition keeps (c c' : cache) : Prop := forall r, kept r -> covered D T c r -> covered D T c' r.
  Lemma keeps_refl c : keeps c c. Proof. intros r _ H. exact H. Qed.
  Lemma keeps_trans a b c : keeps a b -> keeps b c -> keeps a c.
  Proof. intros H1 H2 r K C. auto. Qed.

  Lemma keeps_of c c' : (forall v, length v = N -> vfind v (c_redZ c) <> None -> vfind v (c_redZ c') <> None) ->
    (forall v, length v = N -> vfind v (c_incl c) <> None -> vfind v (c_incl c') <> None) ->
    (length (c_final c) <= length (c_final c'))%nat -> keeps c c'.
  Proof.
    intros H1 H2 H3 [l|[|] v|u|k|p] K; cbn in *; try tauto; try lia.
    - intros [L C]. split; auto.
    - intros [L C]. split; auto.
  Qed.

  Lemma solve_keeps c l x c' : solve_c slv D c l = OK (x, c') -> keeps c c'.
  Proof.
    intros E. apply solve_c_rest in E. destruct E as (_ & E2 & E3 & E4 & _). apply keeps_of; rewrite ?E2, ?E3, ?E4; auto.
  Qed.
  Lemma red_keeps c v x c' : red_c slv D c v = OK (x, c') -> c_redZ c' = c_redZ c /\ c_incl c' = c_incl c /\ c_final c' = c_final c.
  Proof.
    unfold red_c. destruct (vfind v (c_red c)).
    - intros E. injection E as <- <-. auto.
    - intros E. apply bind_ok in E. destruct E as ([BU c1] & E1 & E). apply bind_ok in E. destruct E as (y & _ & E).
      injection E as <- <-. apply solve_c_rest in E1. cbn. tauto.
  Qed.

  Lemma final_loop_keeps k : forall c c', final_loop slv D k c = OK c' ->
    c_redZ c' = c_redZ c /\ c_incl c' = c_incl c /\ (length (c_final c) <= length (c_final c'))%nat.
  Proof.
    induction k as [|k IH]; intros c c' E; cbn [final_loop] in E.
    - injection E as <-. auto.
    - destruct (length (c_final c)) as [|len] eqn:Len.
      + apply bind_ok in E. destruct E as (lG & _ & E). apply IH in E. cbn in E. destruct E as (A1 & A2 & A3).
        split; auto. split; auto. lia.
      + apply bind_ok in E. destruct E as ([BU c1] & E1 & E). cbn [fst snd] in E. apply bind_ok in E. destruct E as (M & _ & E).
        apply IH in E. cbn in E. apply solve_c_rest in E1. destruct E1 as (_ & B2 & B3 & B4 & _). destruct E as (A1 & A2 & A3).
        rewrite app_length, B4 in A3. cbn in A3. split; [congruence|]. split; [congruence|lia].
  Qed.

  Lemma serve_keeps c r x c' : cache_ok slv D T c -> wf_req D T r -> serve sm slv D c r = OK (x, c') ->
    keeps c c' /\ (kept r -> covered D T c' r).
  Proof.
    intros K W E. destruct r as [l|[|] v|u|k|p]; cbn [serve wf_req] in *.
    - split; [|intros []]. eapply solve_keeps; eauto.
    - unfold redZ_c in E. destruct (vfind v (c_redZ c)) as [y|] eqn:F.
      { injection E as <- <-. split; [apply keeps_refl|]. intros _. cbn. split; auto. congruence. }
      assert (H : forall c1, c_redZ c1 = vinsert v x (c_redZ c) -> c_incl c1 = c_incl c -> c_final c1 = c_final c ->
        keeps c c1 /\ (kept (QRed true v) -> covered D T c1 (QRed true v))).
      { intros c1 H1 H2 H3. pose proof (ok_redZ_s _ _ _ _ K) as S. split.
        - apply keeps_of; rewrite ?H1, ?H2, ?H3; auto. intros v' L' C. apply vfind_vinsert; auto.
        - intros _. cbn. split; auto. rewrite H1. apply vfind_vinsert; auto. }
      destruct (vfind v (c_red c)) as [y|] eqn:F'.
      + injection E as <- <-. apply H; reflexivity.
      + apply bind_ok in E. destruct E as ([y c1] & E1 & E). cbn [fst snd] in E. injection E as <- <-.
        apply red_keeps in E1. destruct E1 as (A1 & A2 & A3). apply H; destruct sm; cbn; congruence.
    - split; [|intros []]. apply red_keeps in E. destruct E as (A1 & A2 & A3). apply keeps_of; rewrite ?A1, ?A2, ?A3; auto.
    - unfold incl_c in E. apply bind_ok in E. destruct E as (? & _ & E). destruct (vfind u (c_incl c)) as [y|] eqn:F.
      + injection E as <- <-. split; [apply keeps_refl|]. intros _. cbn. split; auto. congruence.
      + apply bind_ok in E. destruct E as (z & _ & E). injection E as <- <-. pose proof (ok_incl_s _ _ _ _ K) as S. split.
        * apply keeps_of; cbn; auto. intros v' L' C. apply vfind_vinsert; auto.
        * intros _. cbn. split; auto. apply vfind_vinsert; auto.
    - split.
      + unfold final_c in E. do 2 (apply bind_ok in E; destruct E as (? & _ & E)). apply bind_ok in E. destruct E as (c1 & E1 & E).
        apply bind_ok in E. destruct E as (M & _ & E). injection E as <- <-. apply final_loop_keeps in E1.
        destruct E1 as (A1 & A2 & A3). apply keeps_of; rewrite ?A1, ?A2; auto.
      + intros _. destruct (proj1 (final_c_ok slv D T c k K) x c' E) as (_ & _ & L). exact L.
    - split; [|intros []]. destruct (fpow_c_ok slv D T c p K W) as [_ F]. rewrite F in E. injection E as <- <-.
      rewrite (set_fpow_same slv D T c K). apply keeps_refl.
  Qed.

  Lemma srun_covers {A} (m : prog A) : forall c a, cache_ok slv D T c -> ok_req h (wf_req D T) m -> run h m = OK a ->
    exists c', srun (serve sm slv D) c m = OK (a, c') /\ cache_ok slv D T c' /\ keeps c c' /\
      forall r, kept r -> asked h r m -> covered D T c' r.
  Proof. apply (gsrun_covers (serve sm slv D) h (cache_ok slv D T) (wf_req D T) (covered D T) (serve_ok sm slv D T) kept serve_keeps). Qed.
End PREP1.

(** * a longer table of powers gives the same results *)
Lemma foldM_eq {A B} (f g : B -> A -> res B) l : (forall b a, In a l -> f b a = g b a) -> forall b, foldM f l b = foldM g l b.
Proof.
  induction l as [|a l IH]; intros H b; cbn [foldM]; auto. rewrite H by now left.
  destruct (g b a); cbn [bind]; auto. apply IH. intros. apply H. now right.
Qed.
Section PREFIX.
  Variables (slv : solver) (D : dR) (T T' : list poly).
  Hypothesis Hpre : forall k P, get_at T k = OK P -> get_at T' k = OK P.
  Lemma frob_loop_pre r loop dj dictV ei m k : forall st out,
    frob_loop slv D r loop dj dictV ei m T k st = OK out -> frob_loop slv D r loop dj dictV ei m T' k st = OK out.
  Proof.
    induction k as [|k IH]; intros [[H L] fact] out E; cbn [frob_loop] in *; auto.
    apply bind_ok in E. destruct E as (H1 & E1 & E). apply bind_ok in E. destruct E as (HL & E2 & E).
    assert (X : (if m <=? Z.of_nat (r_n D) / r_p D + Z.of_nat (S k)
             then c <- dj (Z.of_nat (r_n D) / r_p D + Z.of_nat (S k) - m) ;;
                  P <- get_at T' (Z.of_nat (r_n D) / r_p D + Z.of_nat (S k) - m) ;; frob_add D dictV ei c fact P H
             else OK H) = OK H1).
    { destruct (m <=? _); auto. apply bind_ok in E1. destruct E1 as (c & -> & E1). cbn [bind].
      apply bind_ok in E1. destruct E1 as (P & EP & E1). now rewrite (Hpre _ _ EP). }
    rewrite X. cbn [bind]. rewrite E2. cbn [bind]. now apply IH.
  Qed.
  Lemma frob_low_pre dj ei m N e : forall st out,
    frob_low slv D dj ei m N T e st = OK out -> frob_low slv D dj ei m N T' e st = OK out.
  Proof.
    induction e as [|e IH]; intros [F fact] out E; cbn [frob_low] in *; auto.
    apply bind_ok in E. destruct E as (? & E0 & E). rewrite E0. cbn [bind].
    apply bind_ok in E. destruct E as (F1 & E1 & E).
    assert (X : (if m <=? Z.of_nat (S e)
             then c <- dj (Z.of_nat (S e) - m) ;; P <- get_at T' (Z.of_nat (S e) - m) ;;
                  frob_low_terms slv D c ei P (Z.of_nat (S e)) fact F
             else OK F) = OK F1).
    { destruct (m <=? _); auto. apply bind_ok in E1. destruct E1 as (c & -> & E1). cbn [bind].
      apply bind_ok in E1. destruct E1 as (P & EP & E1). now rewrite (Hpre _ _ EP). }
    rewrite X. cbn [bind]. now apply IH.
  Qed.
  Lemma frob_high_pre r loop dj ei m N out :
    frob_high slv D r loop dj ei m N T = OK out -> frob_high slv D r loop dj ei m N T' = OK out.
  Proof.
    unfold frob_high. intros E. do 3 (apply bind_ok in E; destruct E as (? & -> & E); cbn [bind]).
    apply bind_ok in E. destruct E as (st & E1 & E). rewrite (frob_loop_pre _ _ _ _ _ _ _ _ _ E1). exact E.
  Qed.
End PREFIX.

Section FPOWS.
  Variables (slv : solver) (D : dR).
  Hypothesis Hq : 2 <= r_q D.
  Hypothesis Wf : wf_poly (r_n D) (r_d D) (r_f D).
  Notation tabok := (tab_ok (r_q D) (r_n D) (r_d D) (r_f D)).

  Lemma fpow_loop_add a b : forall T, fpow_loop (r_q D) (r_f D) (a + b) T = fpow_loop (r_q D) (r_f D) b (fpow_loop (r_q D) (r_f D) a T).
  Proof. induction a as [|a IH]; intros T; cbn [fpow_loop Nat.add]; auto. Qed.
  Lemma fpow_comp T power power' T1 T2 : tabok T -> power <= power' ->
    compute_fpow (r_q D) (r_f D) power T = OK T1 -> compute_fpow (r_q D) (r_f D) power' T = OK T2 ->
    firstn (length T1) T2 = T1 /\ compute_fpow (r_q D) (r_f D) power T2 = OK T2.
  Proof.
    intros HT Hp E1 E2.
    destruct (compute_fpow_ok _ _ _ _ Hq Wf power T HT) as (T1' & F1 & K1 & L1 & P1). rewrite E1 in F1. injection F1 as <-.
    destruct (compute_fpow_ok _ _ _ _ Hq Wf power' T HT) as (T2' & F2 & K2 & L2 & P2). rewrite E2 in F2. injection F2 as <-.
    split; [|unfold compute_fpow; destruct (Z.leb_spec (zlen T2) power); [lia|reflexivity]].
    unfold compute_fpow in E1, E2. destruct (Z.leb_spec (zlen T) power) as [A|A].
    2:{ injection E1 as <-. exact P2. }
    destruct (Z.leb_spec (zlen T) power') as [B|B]; [|lia].
    destruct T as [|t T]; [discriminate|]. set (T0 := t :: T) in *.
    cbn zeta in E1, E2. apply bind_ok in E1. destruct E1 as (? & _ & E1). apply bind_ok in E2. destruct E2 as (? & _ & E2).
    injection E1 as <-. injection E2 as <-.
    set (a := Z.to_nat (power + 1 - zlen T0)). set (b := Z.to_nat (power' + 1 - zlen T0)).
    replace b with (a + (b - a))%nat by (unfold a, b; lia). rewrite fpow_loop_add.
    apply (loop_tab _ _ _ _ Hq Wf). exact K1.
  Qed.
  Lemma get_at_firstn (A B : list poly) k P : firstn (length A) B = A -> get_at A k = OK P -> get_at B k = OK P.
  Proof.
    intros H E. unfold get_at in *. destruct (k <? 0); auto. destruct (nth_error A (Z.to_nat k)) as [x|] eqn:X; [|discriminate].
    assert (nth_error B (Z.to_nat k) = Some x) as ->; auto.
    assert (L : (Z.to_nat k < length A)%nat) by (apply nth_error_Some; congruence).
    rewrite <- (firstn_skipn (length A) B), H. rewrite nth_error_app1; auto.
  Qed.

  Lemma frob_row_grow T T' N i row mx : tabok T -> compute_fpow (r_q D) (r_f D) (mx - 1) T = OK T' ->
    (forall x, In x N -> x <= mx) -> frob_row slv D T N i = OK row -> frob_row slv D T' N i = OK row.
  Proof.
    intros HT ET HN. unfold frob_row, frob_J, frob_J_ZZ, frob_sum_ZZ. intros E.
    apply bind_ok in E. destruct E as (Nm & E1 & E). rewrite E1. cbn [bind]. destruct (0 <? Nm); auto.
    assert (Hm : Nm <= mx).
    { apply HN. unfold get_at in E1. destruct (_ <? 0); [discriminate|]. destruct (nth_error N _) eqn:X; [|discriminate].
      injection E1 as <-. eapply nth_error_In; eauto. }
    apply bind_ok in E. destruct E as (ei & E2 & E). rewrite E2. cbn [bind] in *.
    apply bind_ok in E. destruct E as (Ff & E3 & E).
    apply bind_ok in E3. destruct E3 as (? & E4 & E3). rewrite E4. cbn [bind].
    rewrite E2 in E3. cbn [bind] in E3. apply bind_ok in E3. destruct E3 as (T1 & E5 & E3).
    destruct (fpow_comp T (Nm - 1) (mx - 1) T1 T' HT ltac:(lia) E5 ET) as [P1 P2]. rewrite P2. cbn [bind].
    apply bind_ok in E3. destruct E3 as (F1 & E6 & E3).
    pose proof (fun k P => get_at_firstn T1 T' k P P1) as G.
    rewrite (frob_high_pre slv D T1 T' G _ _ _ _ _ _ _ E6). cbn [bind].
    rewrite (frob_low_pre slv D T1 T' G _ _ _ _ _ _ _ E3). cbn [bind]. exact E.
  Qed.
End FPOWS.

(** * the preparation *)
Section PREP2.
  Variables (sm : bool) (slv : solver) (D : dR).
  Hypothesis inv : dr_inv slv D.
  Hypothesis Hslv : solver_ok (r_q D) slv.
  Hypothesis Hq : 2 <= r_q D.
  Hypothesis Hn : (1 <= r_n D)%nat.
  Hypothesis Hp : 2 <= r_p D.
  Notation N := (S (r_n D)).
  Notation tabok := (tab_ok (r_q D) (r_n D) (r_d D) (r_f D)).
  Let zn := Z.of_nat (r_n D).

  Lemma tuple_red T zz v : is_tuple N (r_d D) v -> exists x, value slv D T (QRed zz v) = OK x.
  Proof.
    intros (L & _ & S). cbn [value].
    destruct (compute_reduction_ok slv D inv Hslv v L S) as (? & ? & Ms & _ & _ & _ & _ & E & _). eauto.
  Qed.
  Lemma tuple_incl T u : is_tuple N zn u -> exists x, value slv D T (QIncl u) = OK x.
  Proof.
    intros (L & _ & S). cbn [value]. destruct (inclusion_ok slv D inv Hn u L S) as (M & E & _). eauto.
  Qed.
  Lemma final_n T : exists x, value slv D T (QFinal zn) = OK x.
  Proof.
    cbn [value]. destruct (final_class_all slv D inv Hslv Hq zn) as (M & E & _); [unfold zn; lia|]. eauto.
  Qed.
  Lemma tl_d : get_at (r_tl D) (r_d D) = OK (enum N (Z.to_nat (r_d D))).
  Proof. apply (inv_tl slv D inv). pose proof (inv_nd slv D inv). nia. Qed.
  Lemma tl_n : get_at (r_tl D) zn = OK (enum N (Z.to_nat zn)).
  Proof. apply (inv_tl slv D inv). pose proof (inv_nd slv D inv). unfold zn. nia. Qed.
  Lemma in_d v : In v (enum N (Z.to_nat (r_d D))) <-> is_tuple N (r_d D) v.
  Proof. rewrite enum_In by lia. rewrite Z2Nat.id; [reflexivity|]. pose proof (inv_nd slv D inv). lia. Qed.
  Lemma in_n v : In v (enum N (Z.to_nat zn)) <-> is_tuple N zn v.
  Proof. rewrite enum_In by lia. rewrite Z2Nat.id; [reflexivity|]. unfold zn. lia. Qed.

  Lemma step1_run T u : is_tuple N (r_d D) u ->
    run (value slv D T) (_ <~ ask (QRed false u) ;; _ <~ ask (QRed true u) ;; Ret tt) = OK tt.
  Proof. intros H. destruct (tuple_red T true u H) as (x & E). cbn in *. now rewrite E. Qed.
  Lemma step2_run T u : is_tuple N zn u -> run (value slv D T) (_ <~ ask (QIncl u) ;; Ret tt) = OK tt.
  Proof. intros H. destruct (tuple_incl T u H) as (x & E). cbn in *. now rewrite E. Qed.

  Lemma everything_run T : run (value slv D T) (compute_everything_p D) = OK tt.
  Proof.
    unfold compute_everything_p. rewrite tl_d. cbn [lift pbind]. rewrite run_bind, run_foldP_tt.
    2:{ intros u Iu. apply step1_run. now apply in_d. }
    cbn [bind]. fold zn. rewrite tl_n. cbn [lift pbind]. rewrite run_bind, run_foldP_tt.
    2:{ intros u Iu. apply step2_run. now apply in_n. }
    cbn [bind]. rewrite run_bind, run_ask. destruct (final_n T) as (x & ->). reflexivity.
  Qed.
  Lemma everything_wf T : ok_req (value slv D T) (wf_req D T) (compute_everything_p D).
  Proof.
    apply (proj1 (B := forall a, run (value slv D T) (compute_everything_p D) = OK a -> True)).
    unfold compute_everything_p. rewrite tl_d. cbn [lift pbind].
    assert (Hask : forall r, wf_req D T r -> forall f : ans r -> prog unit, (forall x, hoare (value slv D T) (wf_req D T) (f x) (fun _ => True)) ->
      hoare (value slv D T) (wf_req D T) (pbind (ask r) f) (fun _ => True)).
    { intros r W f Hf. apply hoare_ask_bind. auto. }
    eapply (hoare_bind _ _ _ _ (fun _ => True)).
    { apply (hoare_foldP _ _ _ (fun _ => True)); auto. intros [] u Iu _. apply in_d in Iu.
      apply Hask; [apply Iu|]. intros _. apply Hask; [apply Iu|]. intros _. now apply hoare_ret. }
    intros [] _. fold zn. rewrite tl_n. cbn [lift pbind]. eapply (hoare_bind _ _ _ _ (fun _ => True)).
    { apply (hoare_foldP _ _ _ (fun _ => True)); auto. intros [] u Iu _. apply in_n in Iu.
      apply Hask; [apply Iu|]. intros _. now apply hoare_ret. }
    intros [] _. apply Hask; [exact I|]. intros _. now apply hoare_ret.
  Qed.
  Lemma everything_asks T :
    (forall v, is_tuple N (r_d D) v -> asked (value slv D T) (QRed true v) (compute_everything_p D)) /\
    (forall u, is_tuple N zn u -> asked (value slv D T) (QIncl u) (compute_everything_p D)) /\
    asked (value slv D T) (QFinal zn) (compute_everything_p D).
  Proof.
    unfold compute_everything_p. rewrite tl_d. cbn [lift pbind]. fold zn. rewrite tl_n. cbn [lift pbind].
    assert (R1 : forall a, In a (enum N (Z.to_nat (r_d D))) ->
      run (value slv D T) (_ <~ ask (QRed false a) ;; _ <~ ask (QRed true a) ;; Ret tt) = OK tt).
    { intros a Ia. apply step1_run. now apply in_d. }
    assert (R2 : forall a, In a (enum N (Z.to_nat zn)) -> run (value slv D T) (_ <~ ask (QIncl a) ;; Ret tt) = OK tt).
    { intros a Ia. apply step2_run. now apply in_n. }
    split; [|split].
    - intros v Hv. apply asked_l. apply (asked_foldP _ _ _ _ v); auto; [now apply in_d|].
      cbn [pbind ask asked]. right. destruct (tuple_red T false v Hv) as (x & ->). now left.
    - intros u Hu. eapply asked_r; [apply run_foldP_tt; auto|]. apply asked_l. apply (asked_foldP _ _ _ _ u); auto; [now apply in_n|].
      now left.
    - eapply asked_r; [apply run_foldP_tt; auto|]. eapply asked_r; [apply run_foldP_tt; auto|]. now left.
  Qed.

  Lemma cache_refpow T T' c : cache_ok slv D T c -> cache_ok slv D T' (set_fpow c T').
  Proof. intros []. constructor; cbn; auto. Qed.

  Lemma prepare_ok T c NN mx : wf_poly (r_n D) (r_d D) (r_f D) -> tabok T -> cache_ok slv D T c -> vmax NN = OK mx ->
    exists T' c', compute_fpow (r_q D) (r_f D) (mx - 1) T = OK T' /\ tabok T' /\ mx <= zlen T' /\
      srun (serve sm slv D) c (frob_prepare D NN) = OK (tt, c') /\ cache_ok slv D T' c' /\
      forall r, cov D T' r -> covered D T' c' r.
  Proof.
    intros Wf HT K Hm. destruct (srun_covers sm slv D T (compute_everything_p D) c tt K (everything_wf T) (everything_run T))
      as (c1 & E1 & K1 & _ & C1).
    destruct (compute_fpow_ok _ _ _ _ Hq Wf (mx - 1) T HT) as (T' & E2 & HT' & L & _).
    exists T', (set_fpow c1 T'). split; auto. split; auto. split; [lia|]. split.
    - unfold frob_prepare. rewrite srun_bind, E1. cbn [bind fst snd]. rewrite Hm. cbn [lift pbind ask srun serve].
      unfold fpow_c. rewrite (ok_fpow slv D T c1 K1), E2. reflexivity.
    - split; [now apply (cache_refpow T)|]. destruct (everything_asks T) as (A1 & A2 & A3).
      intros [l|[|] v|u|k|pw] Hr; cbn [cov] in Hr; try tauto.
      + apply (C1 (QRed true v) I (A1 v Hr)).
      + apply (C1 (QIncl u) I (A2 u Hr)).
      + pose proof (C1 (QFinal zn) I A3) as X. cbn in X. cbn. unfold zn in X. lia.
  Qed.

  Lemma pos_basis b : In b (r_basis D) -> pos_vec D b.
  Proof.
    intros Hb. destruct (basis_elem slv D inv Hslv b Hb) as (i & _ & L1 & L2 & _). now split.
  Qed.

  Theorem threads_matrix T c NN : wf_poly (r_n D) (r_d D) (r_f D) -> tabok T -> cache_ok slv D T c ->
    NN <> [] -> forall rows, mapM (frob_row slv D T NN) (seq 0 (length (r_basis D))) = OK rows ->
    exists c', srun (serve sm slv D) c (frob_prepare D NN) = OK (tt, c') /\
      let threads := map (frob_row_p D NN) (seq 0 (length (r_basis D))) in
      (forall sched, exists ts, threads_run (serve sm slv D) sched c' threads = OK (c', ts) /\
         (forall out, finished ts = Some out -> out = rows) /\
         exists more, threads_run (serve sm slv D) (sched ++ more) c' threads = OK (c', map Ret rows)).
  Proof.
    intros Wf HT K Hne rows E. destruct (vmax_ok NN Hne) as (mx & Em & _ & Hmx).
    destruct (prepare_ok T c NN mx Wf HT K Em) as (T' & c' & F1 & F2 & F3 & F4 & F5 & F6).
    exists c'. split; auto. intros threads.
    assert (F : Forall2 (fun t a => ok_req (value slv D T') (covered D T' c') t /\ run (value slv D T') t = OK a) threads rows).
    { unfold threads. clear threads. revert rows E. generalize (seq 0 (length (r_basis D))). induction l as [|i l IH]; intros rows E; cbn [mapM map] in *.
      - injection E as <-. constructor.
      - apply bind_ok in E. destruct E as (row & E1 & E). apply bind_ok in E. destruct E as (rs & E2 & E). injection E as <-.
        constructor; auto. split.
        + eapply ok_req_mono; [exact F6|]. apply frob_row_cov; auto.
          * pose proof (inv_nd slv D inv). lia.
          * intros P IP u x I. apply In_nth_error in IP. destruct IP as (j & IP). destruct (proj2 F2 j P IP) as (_ & _ & X & _).
            destruct (X u x I) as (X1 & X2 & _). now split.
          * apply pos_basis.
          * intros x I. specialize (Hmx x I). lia.
        + rewrite frob_row_run. exact (frob_row_grow slv D Hq Wf T T' NN i row mx HT F1 Hmx E1). }
    exact (gthreads (serve sm slv D) (value slv D T') (cache_ok slv D T') (covered D T') (serve_covered sm slv D T') c' F5 threads rows F).
  Qed.
End PREP2.
