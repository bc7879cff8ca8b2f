(** C70: the four test programs of dr/test and dr_nd/test never report a failure. *)
From Coq Require Import ZArith List Bool Lia Znumtheory.
From Verif Require Import Base VecModel VecSpec VecProofs ToolsModel ToolsSpec ToolsProofs MatModel MatProofs DRModel DRSpec DRProofs DRRed DRPath NDModel NDSpec NDRed NDBasis FrobModel FrobTop
  SolveModel SolveSpec SolveProofs LuInst TestModel UniqCode TestProofs TestBasis UniqProps DRLemmas NDProps BasisProps TestProps CtorModel CtorSpec CtorProps RunProofs InvProofs TmainModel.
Import ListNotations.
Open Scope Z_scope.

(** what is required of GenPrime_long(13): primes, and not only primes below 43 *)
Definition prime_source (gp : Z -> Z) : Prop := (forall x, prime (gp x)) /\ exists x, 43 <= gp x.
(** for every sequence of random numbers the program ends without a failure, or it
    waits for more numbers and some more numbers let it end without a failure *)
Definition always_passes (main : draws unit) : Prop := forall rs,
  (exists rest, main rs = OK (tt, rest)) \/ (main rs = Err EFuel /\ exists more, main (rs ++ more) = OK (tt, [])).

Lemma passes (L : draws unit) : live (fun _ => True) L -> always_passes L.
Proof.
  intros H rs. destruct (live_outcome _ _ H rs) as [([] & rest & _ & E)|(E & more & [] & _ & E')]; eauto.
Qed.
Lemma live_also {A} (P Q : A -> Prop) L : live P L -> (forall rs x, L rs = OK x -> Q (fst x)) -> live (fun a => P a /\ Q a) L.
Proof.
  intros H HQ rs. destruct (H rs) as [(x & us & re & X1 & X2 & X3 & X4)|(E & mo & x & X1 & X2)].
  - left. exists x, us, re. split; [split; auto; apply (HQ _ _ X3)|auto].
  - right. split; auto. exists mo, x. split; auto. split; auto. exact (HQ _ _ (X2 [])).
Qed.
Lemma draw_prime_live gp : prime_source gp -> live (fun p => prime p /\ 43 <= p) (draw_prime gp 0).
Proof.
  intros (H1 & x0 & H2). set (stop := fun p => negb (p <? 43)).
  apply (live_ext _ _ (gloop stop (fun p => p) (fun _ x => gp x) 0)).
  - intros rs. generalize 0 as p. induction rs as [|x rs IH]; intros p; cbn [draw_prime gloop]; unfold stop; destruct (p <? 43); cbn [negb]; auto.
  - apply (gloop_live stop (fun p => p) (fun _ x => gp x) (fun p => p = 0 \/ prime p) _ (fun p => if p <? 43 then 1%nat else 0%nat)); auto; unfold stop; intros s.
    + intros [->|Ps]; [discriminate|]. destruct (Z.ltb_spec s 43); [discriminate|auto].
    + intros _ E. exists x0. destruct (Z.ltb_spec (gp x0) 43); [lia|]. destruct (s <? 43); [lia|discriminate].
Qed.
Lemma in_order_live l : (forall x, In x l -> live (fun _ => True) x) -> live (fun _ => True) (in_order l).
Proof.
  induction l as [|x l IH]; intros H; cbn [in_order]; [now apply live_ret|].
  apply (live_bind (fun _ => True)); [apply H; now left|]. intros _ _. apply IH. intros y Hy. apply H. now right.
Qed.
Lemma one_case_live {A} (P : A -> Prop) ctor test : live P ctor -> (forall a, P a -> live (fun b => b = true) (test a)) -> live (fun _ => True) (one_case ctor test).
Proof.
  intros H1 H2. unfold one_case. eapply live_bind; [exact H1|]. intros a Pa. eapply live_bind; [exact (H2 a Pa)|]. intros b ->. now apply live_ret.
Qed.
Lemma cases_in bound n d : In (n, d) (cases bound) -> (n = 2 \/ n = 3) /\ n + 1 <= d <= bound n.
Proof.
  intros H. unfold cases in H. apply in_flat_map in H. destruct H as (m & Hm & H). apply in_map_iff in H. destruct H as (e & E & He). injection E as -> ->.
  apply zseq_In in Hm. apply zseq_In in He. lia.
Qed.
Lemma test_main_live gp bound body : prime_source gp -> (forall i n, (n = 2 -> bound i n <= 5) /\ (n = 3 -> bound i n <= 4)) ->
  (forall p n d, prime p -> 43 <= p -> (n = 2 /\ 3 <= d <= 5 \/ n = 3 /\ d = 4) -> live (fun _ => True) (body p n d)) -> live (fun _ => True) (test_main gp bound body).
Proof.
  intros Hg Hb H. apply in_order_live. intros x Hx. apply in_map_iff in Hx. destruct Hx as (i & <- & _).
  apply (live_bind (fun p => prime p /\ 43 <= p)); [now apply draw_prime_live|]. intros p (P1 & P2). apply in_order_live.
  intros y Hy. apply in_map_iff in Hy. destruct Hy as ((n, d) & <- & Hc). cbn [fst snd]. apply cases_in in Hc. apply H; auto. specialize (Hb i n). lia.
Qed.

Section Objects.
  Variables (lu : ech_fun) (inv : inv_fun) (p n d : Z).
  Hypothesis Pp : prime p.
  Hypothesis Hp : 43 <= p.
  Hypothesis HE : ech_spec p lu.
  Hypothesis HI : inv_spec p inv.
  Hypothesis Hnd : n = 2 /\ 3 <= d <= 5 \/ n = 3 /\ d = 4.
  Notation slv := (padic_solver lu inv p (p ^ 4)).
  Lemma sok : solver_ok (p ^ 4) (slv 4).
  Proof. apply padic_solver_ok; auto; lia. Qed.
  Lemma tuples : exists tl, init_tuples (Z.to_nat n) d = OK tl.
  Proof. apply init_tuples_total. nia. Qed.
  Lemma nodiv : ~ (p | d).
  Proof. intros D. apply Z.divide_pos_le in D; lia. Qed.
  Lemma obj_J : live (fun D => exists f, init (slv 4) (p ^ 4) p 4 f = OK D /\ wf_poly (r_n D) (r_d D) f /\ r_n D = Z.to_nat n /\ r_d D = d) (main_J lu inv p n d).
  Proof.
    destruct tuples as (tl & Htl). pose proof (C57_random_returns p 4 lu inv (Z.to_nat n) d tl Pp ltac:(lia) HE HI ltac:(lia) Htl ltac:(lia) nodiv) as (R & _).
    eapply live_mono; [|apply (live_also _ (fun D => exists f, init (slv 4) (p ^ 4) p 4 f = OK D /\ wf_poly (Z.to_nat n) d f) _ R)].
    2:{ intros rs x E. exact (random_J_wf _ _ _ _ _ _ _ _ _ E). }
    intros D (_ & f & E & W). destruct (init_dims _ _ _ _ _ _ _ _ W E) as (E1 & E2 & _). exists f. rewrite E1, E2. auto.
  Qed.
  Lemma obj_ND : live (fun X => exists f, init_ND (slv 4) (p ^ 4) p 4 f = OK X /\ wf_poly (r_n (nd_dr X)) (r_d (nd_dr X)) f /\ r_n (nd_dr X) = Z.to_nat n /\ r_d (nd_dr X) = d) (main_ND lu inv p n d).
  Proof.
    destruct tuples as (tl & Htl). pose proof (C57_random_returns p 4 lu inv (Z.to_nat n) d tl Pp ltac:(lia) HE HI ltac:(lia) Htl ltac:(lia) nodiv) as (_ & R).
    eapply live_mono; [|apply (live_also _ (fun X => exists f, init_ND (slv 4) (p ^ 4) p 4 f = OK X /\ wf_poly (Z.to_nat n) d f) _ R)].
    2:{ intros rs x E. exact (random_ND_wf _ _ _ _ _ _ _ _ _ E). }
    intros X (_ & f & E & W). assert (E0 := E). unfold init_ND in E0. apply bind_ok in E0. destruct E0 as (D & H1 & H). do 4 (apply bind_ok in H; destruct H as (? & _ & H)). injection H as <-.
    cbn [nd_dr]. destruct (init_dims _ _ _ _ _ _ _ _ W H1) as (E1 & E2 & _). exists f. cbn [nd_dr] in *. rewrite E1, E2. auto.
  Qed.
  (** pole orders are at most n *)
  Lemma poles slv0 q f D : init slv0 q p 4 f = OK D -> wf_poly (r_n D) (r_d D) f -> solver_ok q slv0 -> r_n D = Z.to_nat n -> r_d D = d ->
    forall b, In b (r_basis D) -> pole_of (r_n D) (r_d D) b <= 3.
  Proof.
    intros E W S E1 E2 b Hb. destruct (C22_basis_wellformed _ _ _ _ _ _ E W S) as (_ & B). destruct (B b Hb) as (k & Hk & (_ & _ & T) & _).
    unfold pole_of. rewrite T. replace (k * r_d D - (Z.of_nat (r_n D) + 1) + Z.of_nat (r_n D) + 1) with (k * r_d D) by ring. rewrite Z.div_mul by lia. lia.
  Qed.
End Objects.

(** a program ends normally only if every test passed: ten rounds, for n = 2, 3 and
    n < d <= the bound on the degree *)
Lemma in_order_all : forall l rs rs', in_order l rs = OK (tt, rs') -> forall x, In x l -> exists r r', x r = OK (tt, r').
Proof.
  induction l as [|y l IH]; intros rs rs' E x []; cbn [in_order] in E; unfold dbind in E; destruct (y rs) as [[[] r1]|] eqn:E1; try discriminate; cbn [bind fst snd] in E; [subst y; eauto|eauto].
Qed.
Theorem C70_reports : forall A gp bound (ctor : Z -> Z -> Z -> draws A) (test : Z -> Z -> Z -> A -> draws bool) rs rs',
  test_main gp bound (fun p n d => one_case (ctor p n d) (test p n d)) rs = OK (tt, rs') ->
  forall i n d, 0 <= i < 10 -> 2 <= n <= 3 -> n < d <= bound i n ->
  exists p D r r1 r2, 43 <= p /\ ctor p n d r = OK (D, r1) /\ test p n d D r1 = OK (true, r2).
Proof.
  intros A gp bound ctor test rs rs' E i n d Hi Hn Hd. unfold test_main in E.
  match type of E with in_order (map ?g _) _ = _ => destruct (in_order_all _ _ _ E (g i)) as (r & r' & E1); [apply (in_map g); apply zseq_In; lia|] end.
  unfold dbind in E1. destruct (draw_prime gp 0 r) as [[p r1]|] eqn:E2; [|discriminate]. cbn [bind fst snd] in E1.
  match type of E1 with in_order (map ?g _) _ = _ => destruct (in_order_all _ _ _ E1 (g (n, d))) as (r2 & r3 & E3); [apply (in_map g)|] end.
  { unfold cases. apply in_flat_map. exists n. split; [apply zseq_In; lia|]. apply in_map_iff. exists d. split; [reflexivity|]. apply zseq_In. lia. }
  cbn [fst snd] in E3. unfold one_case, dbind in E3. destruct (ctor p n d r2) as [[D r4]|] eqn:E4; [|discriminate]. cbn [bind fst snd] in E3.
  destruct (test p n d D r4) as [[b r5]|] eqn:E5; [|discriminate]. cbn [bind fst snd] in E3. destruct b; [|discriminate].
  exists p, D, r2, r4, r5. split; [|split; [exact E4|exact E5]].
  clear - E2. revert E2. generalize 0. induction r as [|x r IH]; intros z E2; cbn [draw_prime] in E2.
  - destruct (Z.ltb_spec z 43); [discriminate|]. injection E2 as <- <-. lia.
  - destruct (Z.ltb_spec z 43); [eauto|]. injection E2 as <- <-. lia.
Qed.
Print Assumptions C70_reports.
(** a test that fails only for the curves of degree 5 ends the program *)
Example C70_reports_ex :
  test_main (fun x => x) (fun _ n => if n =? 3 then 4 else 5) (fun p n d => one_case (dret d) (fun D => dret (D <? 5))) (repeat 47 10) = Err EAbort /\
  test_main (fun x => x) (fun _ n => if n =? 3 then 4 else 5) (fun p n d => one_case (dret d) (fun D => dret (D <? 6))) (repeat 47 10) = OK (tt, []).
Proof. repeat split. Qed.

Section Programs.
  Variables (lu : ech_fun) (inv : inv_fun) (gp : Z -> Z).
  Hypothesis HE : forall p, prime p -> ech_spec p lu.
  Hypothesis HI : forall p, prime p -> inv_spec p inv.
  Hypothesis HG : prime_source gp.

  Theorem C70_paths_J : always_passes (main_paths_J lu inv gp).
  Proof.
    apply passes, test_main_live; auto; [intros i n; destruct (Z.eqb_spec n 3); lia|]. intros p n d Pp Hp H.
    eapply one_case_live; [apply obj_J; auto|]. intros D (f & E & W & E1 & E2). destruct (init_inv _ _ _ _ _ _ E W) as (iv & Eq & _).
    apply (test_paths_J_live p 4); auto; try lia; [apply sok; auto|destruct (n =? 3); lia|destruct (n =? 3); lia].
  Qed.
  Theorem C70_basis_J : always_passes (main_basis_J lu inv gp).
  Proof.
    apply passes, test_main_live; auto; [intros i n; destruct (Z.eqb_spec n 3); lia|]. intros p n d Pp Hp H.
    eapply one_case_live; [apply obj_J; auto|]. intros D (f & E & W & E1 & E2). assert (S := sok lu inv p Pp (HE p Pp) (HI p Pp)).
    eapply live_lift; [|reflexivity]. apply (C56_test_monomial_to_basis_J _ p 4 f D); auto; try lia; [destruct (n =? 3); lia|].
    intros b Hb. pose proof (poles p n d H _ _ _ _ E W S E1 E2 b Hb). destruct (n =? 3); lia.
  Qed.
  Theorem C70_paths_ND : always_passes (main_paths_ND lu inv gp).
  Proof.
    apply passes, test_main_live; auto; [intros i n; destruct (Z.eqb_spec n 3); lia|]. intros p n d Pp Hp H.
    eapply one_case_live; [apply obj_ND; auto|]. intros X (f & E & W & E1 & E2). destruct (init_ND_inv _ _ _ _ _ _ E W) as (iv & Eq & _).
    apply (test_paths_ND_live p 4); auto; try lia; [apply sok; auto|destruct (n =? 3); lia|destruct (n =? 3); lia].
  Qed.
  Theorem C70_basis_ND : always_passes (main_basis_ND lu inv gp).
  Proof.
    apply passes, test_main_live; auto; [intros i n; destruct (Z.eqb_spec n 3); destruct (Z.rem i 4 =? 0); lia|]. intros p n d Pp Hp H.
    eapply one_case_live; [apply obj_ND; auto|]. intros X (f & E & W & E1 & E2). assert (S := sok lu inv p Pp (HE p Pp) (HI p Pp)).
    eapply live_lift; [|reflexivity]. apply (C56_test_monomial_to_basis_ND _ p 4 f X); auto; try lia; [destruct (n =? 3); lia|].
    assert (E0 := E). unfold init_ND in E0. apply bind_ok in E0. destruct E0 as (D & H1 & H2). do 4 (apply bind_ok in H2; destruct H2 as (? & _ & H2)). injection H2 as <-. cbn [nd_dr] in *.
    intros b Hb. pose proof (poles p n d H _ _ _ _ H1 W S E1 E2 b Hb). destruct (n =? 3); lia.
  Qed.
End Programs.
Print Assumptions C70_paths_J.
Print Assumptions C70_basis_J.
Print Assumptions C70_paths_ND.
Print Assumptions C70_basis_ND.

(** an instance: some random numbers let each program end *)
Example C70_ex_source : prime_source (fun x => if x =? 0 then 2 else 43).
Proof.
  split; [|exists 1; vm_compute; discriminate]. intros x. destruct (x =? 0); [apply prime_2|].
  apply prime_intro; [lia|]. intros k Hk. apply Zgcd_1_rel_prime. assert (In k (zseq 1 43)) as I by (apply zseq_In; lia).
  vm_compute in I. repeat (destruct I as [<-|I]; [reflexivity|]). destruct I.
Qed.
Example C70_ex : exists rs, main_paths_ND lu_inst inv_inst (fun x => if x =? 0 then 2 else 43) rs = OK (tt, []) /\ draw_prime (fun x => if x =? 0 then 2 else 43) 0 [0; 0; 7; 1] = OK (43, [1]).
Proof.
  destruct (C70_paths_ND lu_inst inv_inst _ lu_inst_spec inv_inst_ok C70_ex_source []) as [(rest & E)|(_ & more & E)].
  - exfalso. revert E. unfold main_paths_ND, test_main. change (zseq 0 10) with (0 :: zseq 1 10). cbn [map in_order]. unfold dbind at 1 2. cbn [draw_prime]. change (0 <? 43) with true. cbn [bind]. discriminate.
  - exists more. split; [exact E|reflexivity].
Qed.
Example C70_ex_cases : cases (fun n => if n =? 3 then 4 else 5) = [(2, 3); (2, 4); (2, 5); (3, 4)] /\
  cases (fun n => if n =? 3 then (if Z.rem 5 4 =? 0 then 4 else 0) else 5) = [(2, 3); (2, 4); (2, 5)].
Proof. split; reflexivity. Qed.
