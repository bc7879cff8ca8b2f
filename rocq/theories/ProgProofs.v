(** Proofs about programs using an object with memo tables (ProgModel.v). *)
From Coq Require Import ZArith List Bool Lia.
From Verif Require Import Base VecModel MatModel MatProofs DRProofs ProgModel.
Import ListNotations.
Open Scope Z_scope.

(** * run is a monad morphism *)
Section RUN.
  Context {Q : Type} {ans : Q -> Type}.
  Variable h : forall r : Q, res (ans r).

  Lemma run_bind {A B} (m : gprog Q ans A) (f : A -> gprog Q ans B) :
    run h (pbind m f) = (a <- run h m ;; run h (f a)).
  Proof.
    induction m as [a|e|r k IH]; cbn [pbind run]; auto.
    destruct (h r) as [x|e]; cbn [bind]; auto.
  Qed.
  Lemma run_lift {A} (x : res A) : run h (lift x) = x.
  Proof. now destruct x. Qed.
  Lemma run_ask r : run h (ask r) = h r.
  Proof. cbn [run ask]. now destruct (h r). Qed.
  Lemma run_foldP {A S} (f : S -> A -> gprog Q ans S) (g : S -> A -> res S) l :
    (forall s a, run h (f s a) = g s a) -> forall s, run h (foldP f l s) = foldM g l s.
  Proof.
    intros H. induction l as [|a l IH]; intros s; cbn [foldP foldM]; auto.
    rewrite run_bind, H. destruct (g s a); cbn [bind]; auto.
  Qed.

  (** every request made on the way satisfies P *)
  Fixpoint all_req {A} (P : Q -> Prop) (m : gprog Q ans A) : Prop :=
    match m with
    | Ask r k => P r /\ forall x, h r = OK x -> all_req P (k x)
    | _ => True
    end.

  (** every request that is answered satisfies P *)
  Fixpoint ok_req {A} (P : Q -> Prop) (m : gprog Q ans A) : Prop :=
    match m with
    | Ask r k => forall x, h r = OK x -> P r /\ ok_req P (k x)
    | _ => True
    end.
  Lemma ok_req_mono {A} (P P' : Q -> Prop) (m : gprog Q ans A) : (forall r, P r -> P' r) -> ok_req P m -> ok_req P' m.
  Proof.
    intros PP. induction m as [a|e|r k IH]; cbn [ok_req]; auto. intros H x E. destruct (H x E). auto.
  Qed.
  Lemma ok_req_bind {A B} (P : Q -> Prop) (m : gprog Q ans A) (f : A -> gprog Q ans B) :
    ok_req P m -> (forall a, run h m = OK a -> ok_req P (f a)) -> ok_req P (pbind m f).
  Proof.
    induction m as [a|e|r k IH]; cbn [pbind ok_req run]; auto.
    intros H1 H3 x E. destruct (H1 x E) as [H4 H5]. split; auto. apply IH; auto.
    intros a Ea. apply H3. rewrite E. exact Ea.
  Qed.
  Lemma ok_req_lift_bind {A B} P (x : res A) (f : A -> gprog Q ans B) :
    (forall a, x = OK a -> ok_req P (f a)) -> ok_req P (pbind (lift x) f).
  Proof. destruct x; cbn; auto. Qed.
  Lemma ok_req_lift {A} P (x : res A) : ok_req P (lift x).
  Proof. destruct x; exact I. Qed.
  Lemma ok_req_ask_bind {B} (P : Q -> Prop) r (f : ans r -> gprog Q ans B) :
    (forall x, h r = OK x -> P r /\ ok_req P (f x)) -> ok_req P (pbind (ask r) f).
  Proof. intros H x E. exact (H x E). Qed.
  Lemma ok_req_foldP {A S} (P : Q -> Prop) (f : S -> A -> gprog Q ans S) (I : S -> Prop) l :
    (forall s a, In a l -> I s -> ok_req P (f s a) /\ forall s', run h (f s a) = OK s' -> I s') ->
    forall s, I s -> ok_req P (foldP f l s) /\ forall s', run h (foldP f l s) = OK s' -> I s'.
  Proof.
    induction l as [|a l IH]; intros H s Hs; cbn [foldP].
    - split; [exact Logic.I|]. cbn [run]. intros s' E. now injection E as <-.
    - destruct (H s a (or_introl eq_refl) Hs) as [H1 H2].
      assert (IH' := IH (fun s a Ia => H s a (or_intror Ia))). split.
      + apply ok_req_bind; auto. intros s' E. now apply IH', H2.
      + intros s' E. rewrite run_bind in E. destruct (run h (f s a)) as [s1|] eqn:E1; [|discriminate].
        cbn [bind] in E. eapply IH'; [apply H2; reflexivity|exact E].
  Qed.
  Lemma run_mapP {A B} (f : A -> gprog Q ans B) l : run h (mapP f l) = mapM (fun a => run h (f a)) l.
  Proof.
    induction l as [|a l IH]; cbn [mapP mapM]; [reflexivity|]. rewrite run_bind. destruct (run h (f a)); cbn [bind]; auto.
    rewrite run_bind, IH. destruct (mapM _ l); reflexivity.
  Qed.
End RUN.

(** * Hoare triples for programs *)
Section HOARE.
  Context {Q : Type} {ans : Q -> Type}.
  Variable h : forall r : Q, res (ans r).
  Variable P : Q -> Prop.
  Definition hoare {A} (m : gprog Q ans A) (Po : A -> Prop) : Prop :=
    ok_req h P m /\ forall a, run h m = OK a -> Po a.

  Lemma hoare_ret {A} (a : A) (Po : A -> Prop) : Po a -> hoare (Ret a) Po.
  Proof. intros H. split; [exact I|]. intros b E. now injection E as <-. Qed.
  Lemma hoare_fail {A} e (Po : A -> Prop) : hoare (Fail e) Po.
  Proof. split; [exact I|]. discriminate. Qed.
  Lemma hoare_bind {A B} (m : gprog Q ans A) (f : A -> gprog Q ans B) (Po1 : A -> Prop) (Po : B -> Prop) :
    hoare m Po1 -> (forall a, Po1 a -> hoare (f a) Po) -> hoare (pbind m f) Po.
  Proof.
    intros [M1 M2] F. split.
    - apply ok_req_bind; auto. intros a E. now apply F, M2.
    - intros b E. rewrite run_bind in E. apply bind_ok in E. destruct E as (a & E1 & E2). eapply F; eauto.
  Qed.
  Lemma hoare_lift {A} (x : res A) (Po : A -> Prop) : (forall a, x = OK a -> Po a) -> hoare (lift x) Po.
  Proof. intros H. split; [apply ok_req_lift|]. rewrite run_lift. exact H. Qed.
  Lemma hoare_lift_bind {A B} (x : res A) (f : A -> gprog Q ans B) (Po : B -> Prop) :
    (forall a, x = OK a -> hoare (f a) Po) -> hoare (pbind (lift x) f) Po.
  Proof. intros H. eapply hoare_bind; [apply hoare_lift; intros a E; exact E|]. exact H. Qed.
  Lemma hoare_ask_bind {B} r (f : ans r -> gprog Q ans B) (Po : B -> Prop) :
    (forall x, h r = OK x -> P r /\ hoare (f x) Po) -> hoare (pbind (ask r) f) Po.
  Proof.
    intros H. apply (hoare_bind _ _ (fun x => h r = OK x)).
    - split; [|rewrite run_ask; auto]. intros x E. destruct (H x E). split; [auto|exact Logic.I].
    - intros x E. now apply H.
  Qed.
  Lemma hoare_foldP {A S} (f : S -> A -> gprog Q ans S) (I : S -> Prop) l :
    (forall s a, In a l -> I s -> hoare (f s a) I) -> forall s, I s -> hoare (foldP f l s) I.
  Proof.
    intros H s Hs. apply (ok_req_foldP h P f I l); auto.
  Qed.
  Lemma hoare_conseq {A} (m : gprog Q ans A) (Po Po' : A -> Prop) : hoare m Po -> (forall a, Po a -> Po' a) -> hoare m Po'.
  Proof. intros [H1 H2] H. split; auto. Qed.
End HOARE.

Section ASKED.
  Context {Q : Type} {ans : Q -> Type}.
(** r is one of the requests of the run *)
Fixpoint asked {A} (h : forall r : Q, res (ans r)) (r : Q) (m : gprog Q ans A) : Prop :=
  match m with
  | Ask r0 k => r = r0 \/ match h r0 with OK x => asked h r (k x) | Err _ => False end
  | _ => False
  end.
Lemma asked_l {A B} (h : forall r, res (ans r)) r (m : gprog Q ans A) (f : A -> gprog Q ans B) : asked h r m -> asked h r (pbind m f).
Proof.
  induction m as [a|e|r0 k IH]; cbn [asked pbind]; try tauto.
  intros [H|H]; auto. right. destruct (h r0); auto.
Qed.
Lemma asked_r {A B} (h : forall r, res (ans r)) r (m : gprog Q ans A) (f : A -> gprog Q ans B) a : run h m = OK a -> asked h r (f a) -> asked h r (pbind m f).
Proof.
  revert a. induction m as [b|e|r0 k IH]; cbn [asked pbind run]; intros a E H; try discriminate.
  - now injection E as ->.
  - right. destruct (h r0) as [x|]; [|discriminate]. cbn [bind] in E. eapply IH; eauto.
Qed.
Lemma run_foldP_tt {A} (h : forall r, res (ans r)) (f : unit -> A -> gprog Q ans unit) l :
  (forall a, In a l -> run h (f tt a) = OK tt) -> run h (foldP f l tt) = OK tt.
Proof.
  induction l as [|a l IH]; intros H; cbn [foldP]; [reflexivity|]. rewrite run_bind, H by now left. cbn [bind].
  apply IH. intros b Ib. apply H. now right.
Qed.
Lemma asked_foldP {A} (h : forall r, res (ans r)) r (f : unit -> A -> gprog Q ans unit) l a :
  (forall a, In a l -> run h (f tt a) = OK tt) -> In a l -> asked h r (f tt a) -> asked h r (foldP f l tt).
Proof.
  induction l as [|b l IH]; intros H Ia Ha; [destruct Ia|]. cbn [foldP]. destruct Ia as [->|Ia].
  - now apply asked_l.
  - eapply asked_r; [apply H; now left|]. apply IH; auto. intros c Ic. apply H. now right.
Qed.

Lemma srun_bind {C A B} (h : C -> forall r, res (ans r * C)) c (m : gprog Q ans A) (f : A -> gprog Q ans B) :
  srun h c (pbind m f) = (ac <- srun h c m ;; srun h (snd ac) (f (fst ac))).
Proof.
  revert c. induction m as [a|e|r k IH]; intros c; cbn [pbind srun]; auto.
  destruct (h c r) as [xc|]; cbn [bind]; auto.
Qed.

End ASKED.

(** * Objects with tables *)
Section TAB.
  Context {Q : Type} {ans : Q -> Type} {C : Type}.
  Variables (serve : C -> forall r : Q, res (ans r * C)) (value : forall r : Q, res (ans r)).
  (** [ok c]: the tables of c are sound; [wf r]: admissible request;
      [covered c r]: the answer to r is stored in c *)
  Variables (ok : C -> Prop) (wf : Q -> Prop) (covered : C -> Q -> Prop).
  Hypothesis serve_ok : forall c r, ok c -> wf r ->
    (forall x c', serve c r = OK (x, c') -> value r = OK x /\ ok c') /\
    (forall x, value r = OK x -> exists c', serve c r = OK (x, c')).
  Hypothesis serve_covered : forall c r x, ok c -> covered c r -> value r = OK x -> serve c r = OK (x, c).

  Lemma gsrun_ok {A} (m : gprog Q ans A) : forall c, ok c -> all_req value wf m ->
    (forall a c', srun serve c m = OK (a, c') -> run value m = OK a /\ ok c') /\
    (forall a, run value m = OK a -> exists c', srun serve c m = OK (a, c')).
  Proof.
    induction m as [a|e|r k IH]; intros c K W; cbn [srun run].
    - split; [|intros a' E; injection E as <-; eauto]. intros a' c' E. injection E as <- <-. auto.
    - split; discriminate.
    - destruct W as [W1 W2]. destruct (serve_ok c r K W1) as [S1 S2]. split.
      + intros a c' E. apply bind_ok in E. destruct E as ([x c1] & E1 & E). cbn [fst snd] in E.
        destruct (S1 x c1 E1) as [V K1]. rewrite V. cbn [bind]. eapply IH; eauto.
      + intros a E. apply bind_ok in E. destruct E as (x & V & E). destruct (S2 x V) as (c1 & E1). rewrite E1. cbn [bind fst snd].
        destruct (S1 x c1 E1) as [_ K1]. eapply IH; eauto.
  Qed.

  (** requests whose answers are never erased; [keeps c c']: they are still there *)
  Variable kept : Q -> Prop.
  Definition gkeeps (c c' : C) : Prop := forall r, kept r -> covered c r -> covered c' r.
  Hypothesis serve_keeps : forall c r x c', ok c -> wf r -> serve c r = OK (x, c') -> gkeeps c c' /\ (kept r -> covered c' r).

  Lemma gsrun_covers {A} (m : gprog Q ans A) : forall c a, ok c -> ok_req value wf m -> run value m = OK a ->
    exists c', srun serve c m = OK (a, c') /\ ok c' /\ gkeeps c c' /\
      forall r, kept r -> asked value r m -> covered c' r.
  Proof.
    induction m as [b|e|r k IH]; intros c a K W R; cbn [run srun asked] in *.
    - injection R as ->. exists c. split; auto. split; auto. split; [intros ? _ H; exact H|tauto].
    - discriminate.
    - apply bind_ok in R. destruct R as (x & V & R). destruct (W x V) as [W1 W2].
      destruct (serve_ok c r K W1) as [S1 S2]. destruct (S2 x V) as (c1 & E1). rewrite E1. cbn [bind fst snd].
      destruct (S1 x c1 E1) as [_ K1]. destruct (serve_keeps c r x c1 K W1 E1) as [G1 G2].
      destruct (IH x c1 a K1 W2 R) as (c' & I1 & I2 & I3 & I4). exists c'. split; auto. split; auto.
      split; [intros r' Kr Cr; apply I3; auto|]. intros r' Kr [->|Ha]; [now apply I3, G2|]. rewrite V in Ha. now apply I4.
  Qed.

  (** ** threads *)
  Notation fine c := (fun t a => ok_req value (covered c) t /\ run value t = OK a).
  Lemma gthreads_ok {A} c (K : ok c) sched : forall (ts : list (gprog Q ans A)) (vals : list A),
    Forall2 (fine c) ts vals ->
    exists ts', threads_run serve sched c ts = OK (c, ts') /\ Forall2 (fine c) ts' vals.
  Proof.
    induction sched as [|i sched IH]; intros ts vals F; cbn [threads_run]; [eauto|].
    destruct (nth_error ts i) as [t|] eqn:Et; [|now apply IH].
    destruct (Forall2_nth_error _ _ _ _ _ F Et) as (a & Ea & W & R).
    destruct t as [b|e|r k]; [now apply IH|discriminate|].
    cbn [run] in R. apply bind_ok in R. destruct R as (x & V & R). destruct (W x V) as [W1 W2].
    rewrite (serve_covered c r x K W1 V). cbn [bind fst snd]. apply IH.
    clear IH sched. revert i vals F Et Ea. induction ts as [|t ts IH]; intros i vals F Et Ea; [destruct i; discriminate|].
    inversion F as [|? a' ? vals' Fa F']; subst. destruct i as [|i]; cbn in *.
    - injection Et as ->. injection Ea as ->. constructor; auto.
    - constructor; eauto.
  Qed.

  Lemma gfinished_vals {A} (ts : list (gprog Q ans A)) vals out :
    Forall2 (fun t a => run value t = OK a) ts vals -> finished ts = Some out -> out = vals.
  Proof.
    intros F. revert out. induction F as [|t a ts vals R F IH]; intros out E; cbn [finished] in E; [congruence|].
    destruct t; try discriminate. cbn [run] in R. injection R as ->.
    destruct (finished ts) as [l|]; [|discriminate]. cbn in E. injection E as <-. f_equal. now apply IH.
  Qed.

  (** after any schedule there is a continuation in which all threads end *)
  Lemma gone_finishes {A} c (K : ok c) (i : nat) (t : gprog Q ans A) : forall (ts : list (gprog Q ans A)) a,
    nth_error ts i = Some t -> ok_req value (covered c) t -> run value t = OK a ->
    exists sched, threads_run serve sched c ts = OK (c, upd ts i (Ret a)).
  Proof.
    induction t as [b|e|r k IH]; intros ts a Et W R; cbn [run] in R.
    - injection R as ->. exists []. cbn. do 2 f_equal. symmetry. clear -Et. revert i Et. induction ts as [|t ts IH]; intros [|i] E; try discriminate; cbn in *.
      + congruence.
      + f_equal. now apply IH.
    - discriminate.
    - apply bind_ok in R. destruct R as (x & V & R). destruct (W x V) as [W1 W2].
      assert (Li : (i < length ts)%nat) by (apply nth_error_Some; congruence).
      destruct (IH x (upd ts i (k x)) a) as (sched & Es); auto.
      { clear -Li. revert i Li. induction ts as [|t ts IH]; intros [|i] L; cbn in *; try lia; auto. apply IH. lia. }
      exists (i :: sched). cbn [threads_run]. rewrite Et. rewrite (serve_covered c r x K W1 V). cbn [bind fst snd].
      rewrite Es. do 2 f_equal. clear. revert i. induction ts as [|t ts IH]; intros [|i]; cbn; auto. now rewrite IH.
  Qed.
  Lemma threads_app {A} (hh : C -> forall r : Q, res (ans r * C)) s1 s2 : forall c (ts : list (gprog Q ans A)),
    threads_run hh (s1 ++ s2) c ts = (ct <- threads_run hh s1 c ts ;; threads_run hh s2 (fst ct) (snd ct)).
  Proof.
    induction s1 as [|i s1 IH]; intros c ts; cbn [threads_run app]; [reflexivity|].
    destruct (nth_error ts i) as [[a|e|r k]|]; auto. destruct (hh c r); cbn [bind]; auto.
  Qed.
  Lemma gall_finish {A} c (K : ok c) (ts : list (gprog Q ans A)) vals : Forall2 (fine c) ts vals ->
    exists sched, threads_run serve sched c ts = OK (c, map Ret vals).
  Proof.
    intros F.
    cut (forall (pre : list A) ts vals, Forall2 (fine c) ts vals ->
      exists sched, threads_run serve sched c (map Ret pre ++ ts) = OK (c, map Ret (pre ++ vals))).
    { intros H. apply (H [] ts vals F). }
    clear ts vals F. intros pre ts vals F. revert pre.
    induction F as [|t a ts vals [W R] F IH]; intros pre.
    - exists []. cbn. now rewrite map_app.
    - destruct (gone_finishes c K (length pre) t (map Ret pre ++ t :: ts) a) as (s1 & E1); auto.
      { rewrite nth_error_app2 by (rewrite map_length; lia). rewrite map_length, Nat.sub_diag. reflexivity. }
      destruct (IH (pre ++ [a])) as (s2 & E2). exists (s1 ++ s2). rewrite threads_app, E1. cbn [bind fst snd].
      replace (upd (map Ret pre ++ t :: ts) (length pre) (Ret a)) with (map Ret (pre ++ [a]) ++ ts).
      + rewrite E2. do 3 f_equal. now rewrite <- app_assoc.
      + rewrite map_app, <- app_assoc. cbn. clear. induction pre as [|x pre IH]; cbn; [reflexivity|]. now rewrite IH.
  Qed.
  Lemma finished_ret {A} (vals : list A) : finished (map (@Ret Q ans A) vals) = Some vals.
  Proof. induction vals as [|a l IH]; cbn; auto. now rewrite IH. Qed.

  (** the three together: threads that only make covered requests *)
  Lemma gthreads {A} c (K : ok c) (ts : list (gprog Q ans A)) vals : Forall2 (fine c) ts vals ->
    forall sched, exists ts', threads_run serve sched c ts = OK (c, ts') /\
      (forall out, finished ts' = Some out -> out = vals) /\
      exists more, threads_run serve (sched ++ more) c ts = OK (c, map Ret vals).
  Proof.
    intros F sched. destruct (gthreads_ok c K sched ts vals F) as (ts' & G1 & G2).
    exists ts'. split; auto. split.
    - intros out. apply gfinished_vals. clear -G2. induction G2 as [|? ? ? ? [? ?]]; constructor; auto.
    - destruct (gall_finish c K ts' vals G2) as (more & H). exists more. rewrite threads_app, G1. exact H.
  Qed.
End TAB.
