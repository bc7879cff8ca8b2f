(** Proofs for the models of the test programs (InvModel). *)
From Coq Require Import ZArith List Bool Lia.
From Verif Require Import Base VecModel VecSpec VecProofs ToolsModel ToolsSpec ToolsProofs PolyProofs MatModel MatProofs DRModel DRSpec DRProofs
  FrobModel FrobTop NDModel FrobNDModel SolveModel ChangeModel ArgsModel CharModel TestModel CtorModel CtorProofs CtorRand IoModel ZetaModel RunModel CachePrep NDCachePrep ArgsProofs RunProofs FrobND InvModel.
Import ListNotations.
Open Scope Z_scope.

(** ** the random constructors store a well-formed polynomial, whatever the solver *)
Lemma draw_wf p q n d l : (forall t, In t l -> is_tuple (S n) d t) -> forall f rs f' rs', wf_poly n d f ->
  draw_coeffs p q l f rs = OK (f', rs') -> wf_poly n d f'.
Proof.
  induction l as [|t l IH]; intros Hl f rs f' rs' W E; cbn [draw_coeffs] in E.
  - injection E as <- _. exact W.
  - unfold dbind, random_bnd in E. destruct rs as [|x rs]; [discriminate|]. cbn [bind fst snd] in E.
    eapply (IH ltac:(intros; apply Hl; now right)); [|exact E].
    assert (Ht : is_tuple (S n) d t) by (apply Hl; now left). destruct W as [W1 W2]. split.
    + apply vinsert_sorted; auto. apply Ht.
    + intros a c I. apply (vinsert_In (S n)) in I; auto; [|apply Ht]. destruct I as [[-> _]|[_ I]]; eauto.
Qed.

Lemma random_wf get q p n d tl l : init_tuples n d = OK tl -> forall fuel f rs x, wf_poly n d f ->
  random_loop get q p n d tl l fuel f rs = OK x -> wf_poly n d (fst (fst x)).
Proof.
  intros Htl. induction fuel as [|fuel IH]; intros f rs x W E; cbn [random_loop] in E; [discriminate|].
  assert (Hd : 0 <= d).
  { unfold dbind at 1 in E. unfold dlift at 1 in E. apply bind_ok in E. destruct E as (y & E & _). apply bind_ok in E. destruct E as (z & E & _).
    unfold get_at in E. destruct (Z.ltb_spec d 0); [discriminate|lia]. }
  unfold dbind at 1 in E. unfold dlift at 1 in E. rewrite (init_tuples_ok n d tl d Htl) in E by nia. cbn [bind fst snd] in E.
  unfold dbind at 1 in E. apply bind_ok in E. destruct E as ((f1, rs1) & E1 & E). cbn [fst snd] in E.
  assert (W1 : wf_poly n d f1).
  { eapply draw_wf; [|exact W|exact E1]. intros t Ht. apply enum_In in Ht; [|lia]. rewrite Z2Nat.id in Ht by lia. exact Ht. }
  unfold dbind at 1 in E. apply bind_ok in E. destruct E as (xt & _ & E).
  destruct (Nat.eqb _ 0).
  - injection E as <-. exact W1.
  - eapply IH; eauto.
Qed.

Lemma random_J_wf slv1 slv q p prec n d rs x : ctor_random slv1 slv q p prec n d rs = OK x ->
  exists f, init slv q p prec f = OK (fst x) /\ wf_poly n d f.
Proof.
  intros E. unfold ctor_random, dbind, dlift in E. apply bind_ok in E. destruct E as (tl' & E1 & E).
  apply bind_ok in E1. destruct E1 as (tl & Htl & E1). injection E1 as <-. cbn [fst snd] in E.
  apply bind_ok in E. destruct E as (ft & E2 & E). apply bind_ok in E. destruct E as (D & E3 & E). injection E as <-. rewrite init_t_nil in E3.
  exists (fst (fst ft)). split; [exact E3|]. eapply random_wf; [exact Htl| |exact E2]. split; [apply vsorted_nil|intros k c []].
Qed.
Lemma random_ND_wf slv1 slv q p prec n d rs x : ctor_random_ND slv1 slv q p prec n d rs = OK x ->
  exists f, init_ND slv q p prec f = OK (fst x) /\ wf_poly n d f.
Proof.
  intros E. unfold ctor_random_ND, dbind, dlift in E. apply bind_ok in E. destruct E as (tl' & E1 & E).
  apply bind_ok in E1. destruct E1 as (tl & Htl & E1). injection E1 as <-. cbn [fst snd] in E.
  apply bind_ok in E. destruct E as (ft & E2 & E). apply bind_ok in E. destruct E as (D & E3 & E). injection E as <-. rewrite init_ND_t_nil in E3.
  exists (fst (fst ft)). split; [exact E3|]. eapply random_wf; [exact Htl| |exact E2]. split; [apply vsorted_nil|intros k c []].
Qed.

(** ** the second call on an object gives the matrix of the first *)
Section ROWS.
  Variable D : dR.
  Hypothesis Hq : 2 <= r_q D.
  Hypothesis Wf : wf_poly (r_n D) (r_d D) (r_f D).
  Notation tabok := (tab_ok (r_q D) (r_n D) (r_d D) (r_f D)).
  Notation cf := (compute_fpow (r_q D) (r_f D)).
  Variable N : list Z.
  Variable row : list poly -> nat -> res (list Z).
  Notation Nm i := (get_at N (pole_order D (nth i (r_basis D) []) - 1)).
  Hypothesis Hgrow : forall T T' i k mx r, tabok T -> Nm i = OK k -> k <= mx -> cf (mx - 1) T = OK T' -> row T i = OK r -> row T' i = OK r.

  Lemma tab_len T : tabok T -> 1 <= zlen T.
  Proof. intros [H _]. unfold zlen. destruct T; [congruence|]. cbn [length]. lia. Qed.
  Lemma cf_id m T : m < zlen T -> cf m T = OK T.
  Proof. intros H. unfold compute_fpow, zlen in *. destruct (Z.leb_spec (Z.of_nat (length T)) m); [lia|reflexivity]. Qed.
  Lemma cf_grow m T : tabok T -> zlen T <= m -> cf m T = OK (fpow_loop (r_q D) (r_f D) (Z.to_nat (m + 1 - zlen T)) T).
  Proof.
    intros HT L. destruct (compute_fpow_ok _ _ _ _ Hq Wf m T HT) as (T1 & F1 & _). rewrite F1. unfold compute_fpow in F1.
    destruct (Z.leb_spec (zlen T) m); [|lia]. destruct T as [|t T]; [discriminate|]. apply bind_ok in F1. destruct F1 as (u & _ & F1). injection F1 as <-. reflexivity.
  Qed.
  Lemma cf_comp a b T T1 T2 : tabok T -> cf a T = OK T1 -> cf b T1 = OK T2 -> cf (Z.max a b) T = OK T2.
  Proof.
    intros HT E1 E2. destruct (compute_fpow_ok _ _ _ _ Hq Wf a T HT) as (T1' & F1 & K1 & L1 & _). rewrite E1 in F1. injection F1 as <-.
    destruct (Z_lt_ge_dec b (zlen T1)) as [A|A].
    - rewrite cf_id in E2 by lia. injection E2 as <-. destruct (Z.max_spec a b) as [[B ->]|[B ->]]; auto.
      assert (b < zlen T) by lia. rewrite cf_id in * by lia. exact E1.
    - rewrite Z.max_r by lia. destruct (Z_lt_ge_dec a (zlen T)) as [B|B].
      + rewrite cf_id in E1 by lia. injection E1 as <-. exact E2.
      + rewrite cf_grow in E1 by (auto; lia). injection E1 as E1. rewrite cf_grow in E2 by (auto; lia). injection E2 as <-.
        rewrite cf_grow by (auto; lia). f_equal. rewrite <- E1 at 2. rewrite <- fpow_loop_add. f_equal. lia.
  Qed.
  Definition good_row (T : list poly) (i : nat) (r : list Z) : Prop :=
    row T i = OK r /\ exists k, Nm i = OK k /\ (if 0 <? k then cf (k - 1) T = OK T else True).

  Lemma rows_first : forall is acc T out, tabok T -> rows_t D row N is (acc, T) = OK out -> tabok (snd out) /\
    (exists m, 0 <= m /\ cf m T = OK (snd out)) /\ exists rs, fst out = acc ++ rs /\ Forall2 (good_row (snd out)) is rs.
  Proof.
    induction is as [|i is IH]; intros acc T out HT E; unfold rows_t in E; cbn [foldM] in E.
    - injection E as <-. cbn [fst snd]. split; auto. split; [exists 0; split; [lia|]; apply cf_id; pose proof (tab_len T HT); lia|].
      exists []. rewrite app_nil_r. auto.
    - cbn [fst snd] in E. apply bind_ok in E. destruct E as (st & E0 & E). apply bind_ok in E0. destruct E0 as (r & Er & E0).
      apply bind_ok in E0. destruct E0 as (k & Ek & E0). apply bind_ok in E0. destruct E0 as (T1 & E1 & E0). injection E0 as <-.
      assert (HT1 : tabok T1 /\ exists a, 0 <= a /\ k <= a + 1 /\ cf a T = OK T1).
      { destruct (Z.ltb_spec 0 k).
        - destruct (compute_fpow_ok _ _ _ _ Hq Wf (k - 1) T HT) as (T1' & F1 & K1 & L1 & _). rewrite E1 in F1. injection F1 as <-. split; auto. exists (k - 1). split; [lia|]. split; [lia|auto].
        - injection E1 as <-. split; auto. exists 0. split; [lia|]. split; [lia|]. apply cf_id. pose proof (tab_len T HT). lia. }
      destruct HT1 as (HT1 & a & A0 & A1 & A2).
      fold (rows_t D row N is (acc ++ [r], T1)) in E. destruct (IH _ _ _ HT1 E) as (J1 & (m & J2 & J3) & rs & J4 & J5).
      split; auto. pose proof (cf_comp a m T T1 (snd out) HT A2 J3) as C. split; [exists (Z.max a m); split; [lia|exact C]|].
      exists (r :: rs). rewrite J4, <- app_assoc. split; [reflexivity|]. constructor; auto. split.
      + apply (Hgrow T (snd out) i k (Z.max a m + 1)); auto; [lia|]. now replace (Z.max a m + 1 - 1) with (Z.max a m) by lia.
      + exists k. split; auto. destruct (Z.ltb_spec 0 k); auto. apply cf_id.
        destruct (compute_fpow_ok _ _ _ _ Hq Wf (Z.max a m) T HT) as (T2 & F1 & _ & L1 & _). rewrite C in F1. injection F1 as <-. lia.
  Qed.
  Lemma rows_second T : forall is rs acc, Forall2 (good_row T) is rs -> rows_t D row N is (acc, T) = OK (acc ++ rs, T).
  Proof.
    intros is rs acc F. revert acc. induction F as [|i r is rs [G1 (k & G2 & G3)] F IH]; intros acc; unfold rows_t; cbn [foldM].
    - now rewrite app_nil_r.
    - cbn [fst snd]. rewrite G1. cbn [bind]. rewrite G2. cbn [bind].
      replace (if 0 <? k then cf (k - 1) T else OK T) with (OK (A := list poly) T) by (destruct (0 <? k); auto). cbn [bind].
      fold (rows_t D row N is (acc ++ [r], T)). rewrite IH, <- app_assoc. reflexivity.
  Qed.
  Lemma rows_again is T out : tabok T -> rows_t D row N is ([], T) = OK out -> rows_t D row N is ([], snd out) = OK out.
  Proof.
    intros HT E. destruct (rows_first is [] T out HT E) as (_ & _ & rs & E1 & F). rewrite (rows_second (snd out) is rs [] F). destruct out as [o1 o2]. cbn [fst snd app] in *. now subst.
  Qed.
End ROWS.

Lemma get_at_repeat (N : list Z) j k : get_at N j = OK k -> get_at (repeat k (length N)) j = OK k.
Proof.
  unfold get_at. destruct (j <? 0); auto. destruct (nth_error N (Z.to_nat j)) eqn:E; [|discriminate]. intros H. injection H as ->.
  assert (L : (Z.to_nat j < length N)%nat) by (apply nth_error_Some; congruence).
  now rewrite nth_error_repeat.
Qed.
Lemma row_J_grow slv D : 2 <= r_q D -> wf_poly (r_n D) (r_d D) (r_f D) -> forall N T T' i k mx r, tab_ok (r_q D) (r_n D) (r_d D) (r_f D) T ->
  get_at N (pole_order D (nth i (r_basis D) []) - 1) = OK k -> k <= mx -> compute_fpow (r_q D) (r_f D) (mx - 1) T = OK T' ->
  frob_row slv D T N i = OK r -> frob_row slv D T' N i = OK r.
Proof.
  intros Hq Wf N T T' i k mx r HT Ek Hk E Er.
  assert (X : forall U, frob_row slv D U N i = frob_row slv D U (repeat k (length N)) i).
  { intros U. unfold frob_row. now rewrite Ek, (get_at_repeat _ _ _ Ek). }
  rewrite X in *. eapply frob_row_grow; eauto. intros x Hx. apply repeat_spec in Hx. now subst.
Qed.
Lemma row_ND_grow slv o : 2 <= r_q (nd_dr o) -> wf_poly (r_n (nd_dr o)) (r_d (nd_dr o)) (r_f (nd_dr o)) -> forall N T T' i k mx r,
  tab_ok (r_q (nd_dr o)) (r_n (nd_dr o)) (r_d (nd_dr o)) (r_f (nd_dr o)) T ->
  get_at N (pole_order (nd_dr o) (nth i (r_basis (nd_dr o)) []) - 1) = OK k -> k <= mx -> compute_fpow (r_q (nd_dr o)) (r_f (nd_dr o)) (mx - 1) T = OK T' ->
  frob_row_ND slv o T N i = OK r -> frob_row_ND slv o T' N i = OK r.
Proof.
  intros Hq Wf N T T' i k mx r HT Ek Hk E Er.
  assert (X : forall U, frob_row_ND slv o U N i = frob_row_ND slv o U (repeat k (length N)) i).
  { intros U. unfold frob_row_ND. now rewrite Ek, (get_at_repeat _ _ _ Ek). }
  rewrite X in *. eapply row_grow; eauto. intros x Hx. apply repeat_spec in Hx. now subst.
Qed.

Lemma matrix_J_again slv N D T F : 2 <= r_q D -> wf_poly (r_n D) (r_d D) (r_f D) -> tab_ok (r_q D) (r_n D) (r_d D) (r_f D) T ->
  matrix_J_obj slv N (D, T) = OK F -> matrix_J_obj slv N (snd F) = OK F.
Proof.
  intros Hq Wf HT E. unfold matrix_J_obj in E. cbv zeta in E. cbn [fst snd] in E. apply bind_ok in E. destruct E as (u & E1 & E).
  apply bind_ok in E. destruct E as (rt & E2 & E). injection E as <-. unfold matrix_J_obj. cbv zeta. cbn [fst snd]. rewrite E1. cbn [bind].
  rewrite (rows_again D Hq Wf N (fun T => frob_row slv D T N) (fun T T' i k mx r => row_J_grow slv D Hq Wf N T T' i k mx r) _ T rt HT E2). reflexivity.
Qed.
Lemma matrix_ND_again slv N o T F : 2 <= r_q (nd_dr o) -> wf_poly (r_n (nd_dr o)) (r_d (nd_dr o)) (r_f (nd_dr o)) ->
  tab_ok (r_q (nd_dr o)) (r_n (nd_dr o)) (r_d (nd_dr o)) (r_f (nd_dr o)) T ->
  matrix_ND_obj slv N (o, T) = OK F -> matrix_ND_obj slv N (snd F) = OK F.
Proof.
  intros Hq Wf HT E. unfold matrix_ND_obj in E. cbv zeta in E. cbn [fst snd] in E. apply bind_ok in E. destruct E as (u & E1 & E).
  apply bind_ok in E. destruct E as (rt & E2 & E). injection E as <-. unfold matrix_ND_obj. cbv zeta. cbn [fst snd]. rewrite E1. cbn [bind].
  rewrite (rows_again (nd_dr o) Hq Wf N (fun T => frob_row_ND slv o T N) (fun T T' i k mx r => row_ND_grow slv o Hq Wf N T T' i k mx r) _ T rt HT E2). reflexivity.
Qed.

(** ** the test as written *)
Lemma body_vacuous {Obj} (frob : Obj -> res (mat * Obj)) fbar transform make cp_of hs b :
  (forall F, frob hs = OK F -> frob (snd F) = OK F) -> invariance_body frob fbar transform make cp_of use_hs hs = OK b -> b = true.
Proof.
  intros H E. unfold invariance_body in E. apply bind_ok in E. destruct E as (F & E1 & E). apply bind_ok in E. destruct E as (cp & E2 & E).
  apply bind_ok in E. destruct E as (g & _ & E). apply bind_ok in E. destruct E as (h2 & _ & E). rewrite (H F E1) in E. cbn [bind] in E.
  rewrite E2 in E. cbn [bind] in E. injection E as <-. apply veqb_refl.
Qed.

Lemma new_J_ready slv q p prec n d f D : 2 <= q -> wf_poly n d f -> init slv q p prec f = OK D ->
  2 <= r_q D /\ wf_poly (r_n D) (r_d D) (r_f D) /\ tab_ok (r_q D) (r_n D) (r_d D) (r_f D) (fpow_init (r_q D) (r_n D)).
Proof.
  intros Hq W E. destruct (init_dims _ _ _ _ _ _ _ _ W E) as (En & Ed & Eq & Ep).
  destruct (init_inv _ _ _ _ _ _ E) as (_ & _ & Ef); [rewrite En, Ed; exact W|]. rewrite En, Ed, Eq, Ef. split; auto. split; auto. apply init_ok; auto.
Qed.
Lemma default_q p n d prec N c : 3 <= p -> default_args p n d = OK (prec, N, c) -> 2 <= p ^ prec.
Proof.
  intros Hp E. destruct (default_args_ok _ _ _ _ Hp E) as (H & _). assert (p ^ 1 <= p ^ prec) by (apply Z.pow_le_mono_r; lia). lia.
Qed.

(** ** the leading coefficient of the lifted polynomial *)
Lemma sign_cases p prec cp degree dim is s : cpf_sign p prec cp degree dim is = OK s -> s = 1 \/ s = -1.
Proof.
  induction is as [|i is IH]; cbn [cpf_sign]; intros E; [injection E as <-; auto|].
  apply bind_ok in E. destruct E as (pp & _ & E). destruct (_ && _); [|auto]. apply bind_ok in E. destruct E as (pw & _ & E).
  destruct (_ =? 0); [injection E as <-; auto|]. apply bind_ok in E. destruct E as (u & _ & E). injection E as <-. auto.
Qed.
Lemma mapM_length {A B} (g : A -> res B) l l' : mapM g l = OK l' -> length l' = length l.
Proof. intros H. apply mapM_ok in H. induction H; cbn [length]; congruence. Qed.

Lemma lead_from cp prec p dim out : 2 <= p -> (2 <= length prec)%nat -> 1 <= nth (length prec - 1) prec 0 ->
  charpoly_frob_from cp prec p dim = OK out -> length out = length prec /\ nth (length prec - 1) out 0 = 1.
Proof.
  intros Hp Hl Hlast E. unfold charpoly_frob_from in E. cbv zeta in E. set (degree := (length cp - 1)%nat) in *.
  apply bind_ok in E. destruct E as (u & E0 & E). destruct (Nat.eqb_spec (length prec) (length cp)) as [L|]; [|discriminate]. clear u E0.
  apply bind_ok in E. destruct E as (cp1 & E1 & E). unfold cpf_reduce in E1. apply mapM_length in E1. rewrite seq_length in E1.
  apply bind_ok in E. destruct E as (sg & E2 & E). assert (Hs : sg = 1 \/ sg = -1).
  { destruct (Nat.even dim); [eapply sign_cases; eauto|injection E2 as <-; auto]. }
  apply bind_ok in E. destruct E as (pw & E3 & E). unfold power_ZZ in E3. destruct (Z.ltb_spec (Z.of_nat degree * Z.of_nat dim / 2) 0); [discriminate|]. injection E3 as <-.
  apply bind_ok in E. destruct E as ([prec2 cp2] & E4 & E).
  apply bind_ok in E. destruct E as (u & _ & E). apply bind_ok in E. destruct E as (st & _ & E). match type of E with OK ?m = _ => remember m as fin eqn:Efin end. injection E as <-. subst fin.
  rewrite map_length, seq_length. assert (D1 : (length prec - 1)%nat = degree) by (unfold degree; lia). rewrite D1 in *. split; [lia|].
  rewrite (nth_map_lt _ _ _ _ 0%nat) by (rewrite seq_length; lia). rewrite seq_nth by lia. cbn [Nat.add]. rewrite Nat.eqb_refl.
  set (sh := Z.of_nat degree * Z.of_nat dim / 2) in *.
  set (cp0 := upd (upd cp1 degree 1) 0 (sg * p ^ sh)) in *.
  assert (L0 : length cp0 = S degree) by (unfold cp0; rewrite !upd_length; lia).
  assert (P0 : 0 < p ^ sh) by (apply Z.pow_pos_nonneg; lia).
  assert (C0 : nth degree cp0 0 = 1).
  { unfold cp0. rewrite nth_upd_neq by lia. apply nth_upd_eq. lia. }
  cbn [seq foldM] in E4. apply bind_ok in E4. destruct E4 as ([prec1 cp3] & E5 & E4).
  assert (S0 : shift degree dim 0 = sh) by (unfold shift, sh; do 2 f_equal; lia).
  assert (I1 : length cp3 = S degree /\ nth degree cp3 0 = 1).
  { unfold cpf_sym1 in E5. rewrite S0 in E5. cbv zeta in E5. rewrite !Nat.sub_0_r in E5. apply bind_ok in E5. destruct E5 as (pw & E6 & E5).
    unfold power_ZZ in E6. destruct (Z.ltb_spec sh 0); [discriminate|]. injection E6 as <-.
    destruct (Z.leb_spec (nth degree prec 0 + sh) (nth 0 prec 0)) as [A|A].
    - apply bind_ok in E5. destruct E5 as (m & E6 & E5). unfold power_ZZ in E6. destruct (Z.ltb_spec (nth 0 prec 0 - sh) 0); [discriminate|]. injection E6 as <-.
      apply bind_ok in E5. destruct E5 as (u3 & _ & E5). injection E5 as _ <-. rewrite upd_length. split; auto. rewrite nth_upd_eq by lia.
      assert (X : nth 0 cp0 0 = sg * p ^ sh) by (unfold cp0; apply nth_upd_eq; rewrite upd_length; lia). rewrite X.
      replace (sg * (sg * p ^ sh)) with (1 * p ^ sh) by (destruct Hs; subst; ring). rewrite Z.div_mul by lia.
      apply Z.mod_small. assert (p ^ 1 <= p ^ (nth 0 prec 0 - sh)) by (apply Z.pow_le_mono_r; lia). lia.
    - apply bind_ok in E5. destruct E5 as (m & _ & E5). injection E5 as _ <-. rewrite upd_length. split; auto. now rewrite nth_upd_neq by lia. }
  clear E5. destruct I1 as [I1 I2].
  assert (G : forall is st out, (forall i, In i is -> (1 <= i)%nat /\ (2 * i <= degree)%nat) -> length (snd st) = S degree -> nth degree (snd st) 0 = 1 ->
    foldM (cpf_sym1 p sg degree dim) is st = OK out -> nth degree (snd out) 0 = 1).
  { clear - Hp. induction is as [|i is IH]; intros [pr c] out Hi Hc Hn E; cbn [foldM] in E; [now injection E as <-|].
    apply bind_ok in E. destruct E as (st & E1 & E). revert E. apply IH; [intros; apply Hi; now right| |].
    - unfold cpf_sym1 in E1. cbv zeta in E1. apply bind_ok in E1. destruct E1 as (pw & _ & E1). cbn [snd] in Hc.
      destruct (_ <=? _); repeat (apply bind_ok in E1; destruct E1 as (? & _ & E1)); injection E1 as <-; cbn [snd]; now rewrite upd_length.
    - unfold cpf_sym1 in E1. cbv zeta in E1. apply bind_ok in E1. destruct E1 as (pw & _ & E1). cbn [snd] in Hc, Hn. destruct (Hi i (or_introl eq_refl)).
      destruct (_ <=? _); repeat (apply bind_ok in E1; destruct E1 as (? & _ & E1)); injection E1 as <-; cbn [snd]; rewrite nth_upd_neq by lia; auto. }
  apply (G _ (prec1, cp3) (prec2, cp2)) in E4; auto. intros i Hi. apply in_seq in Hi. pose proof (Nat.div_mod degree 2). pose proof (Nat.mod_upper_bound degree 2). lia.
Qed.

Lemma default_last p n d prec N c : default_args p n d = OK (prec, N, c) -> (2 <= length c)%nat /\ 1 <= nth (length c - 1) c 0.
Proof.
  intros E. apply default_args_cases in E. repeat destruct E as [E|E]; destruct E as (_ & _ & E);
    unfold args_2_3, args_2_4, args_2_5, args_2_6, args_2_7, args_2_8, args_2_9, args_3_4, args_3_5, args_3_6 in E;
    repeat match type of E with _ = if ?b then _ else _ => destruct b end; injection E as -> -> ->; cbn [length nth Nat.sub]; lia.
Qed.

Lemma zx_eqb_nil cp k : (k < length cp)%nat -> nth k cp 0 <> 0 -> zx_eqb cp [] = false.
Proof.
  intros Hk Hn. unfold zx_eqb. apply not_true_iff_false. rewrite forallb_forall. intros H. specialize (H k).
  rewrite in_seq in H. specialize (H ltac:(cbn [length]; lia)). apply Z.eqb_eq in H. destruct k; cbn [nth] in *; congruence.
Qed.

Lemma zeta_lead lu gauss inv det rnd f p r : 2 <= p -> zeta_default lu gauss inv det rnd f p = OK r ->
  (2 <= length (fst r))%nat /\ nth (length (fst r) - 1) (fst r) 0 = 1.
Proof.
  intros Hp E. unfold zeta_default, zeta_function in E. destruct f as [|[a0 c0] f]; [discriminate|]. cbv zeta in E.
  apply bind_ok in E. destruct E as ([[[prec N] cprec] lift] & E1 & E). unfold zeta_args in E1. apply bind_ok in E1. destruct E1 as ([[pr N0] c1] & E0 & E1).
  cbn [Z.ltb Z.compare] in E1. injection E1 as -> -> -> <-.
  do 3 (apply bind_ok in E; destruct E as (? & _ & E)). apply bind_ok in E. destruct E as (Fr & _ & E). apply bind_ok in E. destruct E as (cp & E2 & E). injection E as <-. cbn [fst].
  unfold zeta_finish, charpoly_frob in E2. apply bind_ok in E2. destruct E2 as (cp' & _ & E2).
  destruct (default_last _ _ _ _ _ _ E0) as [L1 L2]. destruct (lead_from _ _ _ _ _ Hp L1 L2 E2) as [L3 L4]. rewrite L3. auto.
Qed.
