(** charpoly_frob recovers the polynomial. *)
From Coq Require Import ZArith List Bool Lia Znumtheory.
From Verif Require Import Base VecModel MatModel MatProofs CharModel CharSpec.
Import ListNotations.
Open Scope Z_scope.

Lemma half_nonneg d m i : 0 <= half d m i.
Proof. unfold half. apply Z.div_pos; [apply Z.mul_nonneg_nonneg|]; lia. Qed.
Lemma shift_half d m i : shift d m i = half d m i.
Proof. reflexivity. Qed.
Lemma half_even d m i : Nat.even (d * m) = true -> (2 * i <= d)%nat -> 2 * half d m i = Z.of_nat (d - 2 * i) * Z.of_nat m.
Proof.
  intros H Hi. unfold half. apply Nat.even_spec in H. destruct H as (k & H).
  assert (E : Z.of_nat (d - 2 * i) * Z.of_nat m = 2 * (Z.of_nat k - Z.of_nat i * Z.of_nat m)) by nia.
  rewrite E. rewrite Z.mul_comm at 1. rewrite (Z.mul_comm 2 (_ - _)), Z.div_mul by lia. lia.
Qed.
Lemma power_ZZ_ok p e : 0 <= e -> power_ZZ p e = OK (p ^ e).
Proof. intros. unfold power_ZZ. destruct (Z.ltb_spec e 0); [lia|reflexivity]. Qed.

Lemma pow_div p a b : 0 <= a <= b -> (p ^ a | p ^ b).
Proof. intros. exists (p ^ (b - a)). rewrite <- Z.pow_add_r by lia. f_equal. lia. Qed.

Lemma alt_inv k x : alt k (alt k x) = x.
Proof. unfold alt. destruct (Nat.even k); lia. Qed.
Lemma alt_cong q k x y : cong q x y -> cong q (alt k x) (alt k y).
Proof. unfold alt. intros H. destruct (Nat.even k); [auto|]. now rewrite H. Qed.

Section FROB.
  Variables (p : Z) (degree dim : nat) (eps : Z) (P prec0 cp0 : list Z).
  Hypothesis Hp : 3 <= p.
  Hypothesis Hodd : Z.odd p = true.
  Hypothesis Hd : (1 <= degree)%nat.
  Hypothesis W : weil p degree dim eps P.
  Hypothesis Lp : length prec0 = S degree.
  Hypothesis Lc : length cp0 = S degree.
  Hypothesis Hprec : forall i, 0 <= nth i prec0 0.
  Hypothesis Hcp : forall i, (i <= degree)%nat -> cong (p ^ nth i prec0 0) (nth i cp0 0) (nth i P 0).

  Notation sh := (half degree dim).
  Notation fin := (full_prec degree dim prec0).

  Lemma ppos e : 0 <= e -> 0 < p ^ e.
  Proof. intros. apply Z.pow_pos_nonneg; lia. Qed.

  Definition cp1 : list Z := upd (map (fun i => nth i cp0 0 mod p ^ nth i prec0 0) (seq 0 (S degree))) degree 1.

  Lemma reduce_ok : cpf_reduce p prec0 cp0 = OK (map (fun i => nth i cp0 0 mod p ^ nth i prec0 0) (seq 0 (S degree))).
  Proof. unfold cpf_reduce. rewrite Lc. apply mapM_total. intros i _. now rewrite power_ZZ_ok by apply Hprec. Qed.
  Lemma cp1_len : length cp1 = S degree.
  Proof. unfold cp1. now rewrite upd_length, map_length, seq_length. Qed.
  Lemma cp1_lt i : (i < degree)%nat -> nth i cp1 0 = nth i cp0 0 mod p ^ nth i prec0 0.
  Proof.
    intros Hi. unfold cp1. rewrite nth_upd_neq by lia.
    set (F := fun i => nth i cp0 0 mod p ^ nth i prec0 0).
    rewrite nth_indep with (d' := F 0%nat) by (rewrite map_length, seq_length; lia).
    rewrite (map_nth F), seq_nth by lia. reflexivity.
  Qed.
  Lemma cp1_deg : nth degree cp1 0 = 1.
  Proof. unfold cp1. apply nth_upd_eq. rewrite map_length, seq_length. lia. Qed.
  Lemma cp1_cong i : (i <= degree)%nat -> cong (p ^ nth i prec0 0) (nth i cp1 0) (nth i P 0).
  Proof.
    intros Hi. destruct (Nat.eq_dec i degree) as [->|N].
    - rewrite cp1_deg, (weil_monic _ _ _ _ _ W). reflexivity.
    - rewrite cp1_lt by lia. rewrite cong_mod. apply Hcp. lia.
  Qed.

  (** ** the sign *)
  Lemma sign_step i : (1 <= i)%nat -> (2 * i <= degree)%nat ->
    let pp := p ^ Z.min (nth i prec0 0) (nth (degree - i) prec0 0 + sh i) in
    cong pp (nth i cp1 0) (nth i P 0) /\ cong pp (nth i cp1 0) (eps * (nth (degree - i) cp1 0 * p ^ sh i)).
  Proof.
    intros H1 H2 pp. pose proof (half_nonneg degree dim i) as HN. pose proof (Hprec i). pose proof (Hprec (degree - i)).
    assert (C1 : cong pp (nth i cp1 0) (nth i P 0)).
    { apply (cong_divide (p ^ nth i prec0 0)); [apply pow_div; lia|]. apply cp1_cong. lia. }
    split; auto. rewrite C1, (weil_eq _ _ _ _ _ W i H2).
    apply (cong_divide (p ^ (nth (degree - i) prec0 0 + sh i))); [apply pow_div; lia|].
    destruct (cp1_cong (degree - i) ltac:(lia)) as (k & E). rewrite Z.pow_add_r by lia.
    exists (- (eps * k)). replace (nth (degree - i) cp1 0) with (nth (degree - i) P 0 + k * p ^ nth (degree - i) prec0 0) by lia. ring.
  Qed.
  Lemma eqb_mod_div a b : 0 < b -> (a mod b =? 0) = true <-> (b | a).
  Proof. intros. rewrite Z.eqb_eq. apply Z.mod_divide. lia. Qed.

  Lemma detect_test i : (1 <= i)%nat -> (2 * i <= degree)%nat ->
    let pp := p ^ Z.min (nth i prec0 0) (nth (degree - i) prec0 0 + sh i) in
    negb (nth i cp1 0 mod pp =? 0) && negb (nth (degree - i) cp1 0 mod pp =? 0) = true <-> detects p degree dim prec0 P i.
  Proof.
    intros H1 H2 pp. pose proof (half_nonneg degree dim i) as HN. pose proof (Hprec i) as P1. pose proof (Hprec (degree - i)) as P2.
    assert (PP : 0 < pp) by (apply ppos; lia).
    destruct (sign_step i H1 H2) as [C _]. fold pp in C.
    assert (D1 : (pp | nth i cp1 0) <-> (pp | nth i P 0)).
    { rewrite <- !cong_0. split; intros D; [now rewrite <- C|now rewrite C]. }
    set (qq := p ^ Z.min (nth i prec0 0) (nth (degree - i) prec0 0)).
    assert (D2 : (pp | nth (degree - i) cp1 0) <-> (qq | nth (degree - i) P 0)).
    { assert (C2 : cong qq (nth (degree - i) cp1 0) (nth (degree - i) P 0)).
      { apply (cong_divide (p ^ nth (degree - i) prec0 0)); [apply pow_div; lia|]. apply cp1_cong. lia. }
      assert (Q : (qq | pp)) by (apply pow_div; lia). split; intros D.
      - apply (Z.divide_trans _ _ _ Q) in D. rewrite <- cong_0 in *. now rewrite <- C2.
      - rewrite <- cong_0 in D. rewrite <- C2 in D. rewrite cong_0 in D.
        destruct (Z.le_gt_cases (nth i prec0 0) (nth (degree - i) prec0 0)) as [L|L].
        + replace pp with qq; auto. unfold pp, qq. f_equal. lia.
        + assert (Eq : qq = p ^ nth (degree - i) prec0 0) by (unfold qq; f_equal; lia).
          rewrite cp1_lt in * by lia. rewrite Eq in D.
          pose proof (Z.mod_pos_bound (nth (degree - i) cp0 0) (p ^ nth (degree - i) prec0 0) (ppos _ P2)) as B.
          destruct D as (k & D). assert (k = 0) by nia. exists 0. subst k. lia. }
    rewrite andb_true_iff, !negb_true_iff, <- !not_true_iff_false, !eqb_mod_div by auto. unfold detects. fold qq. fold pp.
    rewrite D1, D2. tauto.
  Qed.

  Definition good_sign : Prop := eps = 1 \/ exists i, detects p degree dim prec0 P i.

  Lemma two_coprime e a : 0 <= e -> (p ^ e | 2 * a) -> (p ^ e | a).
  Proof.
    intros He H. apply Gauss with 2; auto.
    assert (R : rel_prime p 2).
    { apply rel_prime_sym, prime_rel_prime; [apply prime_2|]. intros D. apply Z.odd_spec in Hodd. destruct Hodd as (k & E). destruct D as (l & E'). lia. }
    clear H. revert e He. apply natlike_ind.
    - cbn. apply rel_prime_1.
    - intros x Hx IH. rewrite Z.pow_succ_r by lia. apply rel_prime_sym, rel_prime_mult; now apply rel_prime_sym.
  Qed.

  Lemma sign_ok is : (forall i, In i is -> (1 <= i)%nat /\ (2 * i <= degree)%nat) ->
    ((exists i, In i is /\ detects p degree dim prec0 P i) -> cpf_sign p prec0 cp1 degree dim is = OK eps) /\
    (~ (exists i, In i is /\ detects p degree dim prec0 P i) -> cpf_sign p prec0 cp1 degree dim is = OK 1).
  Proof.
    induction is as [|i is IH]; intros Hi; cbn [cpf_sign].
    - split; [intros (i & [] & _)|reflexivity].
    - destruct (Hi i (or_introl eq_refl)) as [H1 H2]. pose proof (half_nonneg degree dim i) as HN.
      pose proof (Hprec i) as P1. pose proof (Hprec (degree - i)) as P2.
      rewrite shift_half, !power_ZZ_ok by lia. cbn [bind].
      set (pp := p ^ Z.min (nth i prec0 0) (nth (degree - i) prec0 0 + sh i)).
      assert (PP : 0 < pp) by (apply ppos; lia).
      pose proof (detect_test i H1 H2) as DT. cbv zeta in DT. fold pp in DT.
      destruct (sign_step i H1 H2) as [_ C]. fold pp in C.
      destruct (_ && _) eqn:T.
      + assert (Dt : detects p degree dim prec0 P i) by now apply DT. clear DT.
        assert (G : (if (nth i cp1 0 + nth (degree - i) cp1 0 * p ^ sh i) mod pp =? 0 then OK (-1)
          else _ <- check ((nth i cp1 0 - nth (degree - i) cp1 0 * p ^ sh i) mod pp =? 0) EAssert;; OK 1) = OK eps).
        { destruct (weil_eps _ _ _ _ _ W) as [-> | ->].
          - destruct ((nth i cp1 0 + nth (degree - i) cp1 0 * p ^ sh i) mod pp =? 0) eqn:T2.
            + exfalso. apply eqb_mod_div in T2; auto. 
              assert (T' : ~ (pp | nth i cp1 0)) by (intros D; apply eqb_mod_div in D; auto; rewrite D in T; discriminate).
              apply T'.
              apply two_coprime; [lia|]. fold pp. destruct C as (k & C). destruct T2 as (l & T2).
              exists (l + k). lia.
            + assert (T3 : ((nth i cp1 0 - nth (degree - i) cp1 0 * p ^ sh i) mod pp =? 0) = true).
              { apply eqb_mod_div; auto. rewrite <- cong_0. rewrite C. apply cong_of_eq. ring. }
              rewrite T3. reflexivity.
          - assert (T3 : ((nth i cp1 0 + nth (degree - i) cp1 0 * p ^ sh i) mod pp =? 0) = true).
            { apply eqb_mod_div; auto. rewrite <- cong_0. rewrite C. apply cong_of_eq. ring. }
            rewrite T3. reflexivity. }
        split; [intros _; exact G|]. intros N. exfalso. apply N. exists i. split; auto. now left.
      + assert (Dt : ~ detects p degree dim prec0 P i) by (rewrite <- DT; discriminate).
        destruct IH as [I1 I2]; [intros j J; apply Hi; now right|]. split.
        * intros (j & [->|J] & D); [contradiction|]. apply I1. eauto.
        * intros N. apply I2. intros (j & J & D). apply N. exists j. split; auto. now right.
  Qed.

  (** ** the symmetry loop *)
  Definition done (m j : nat) : bool := Nat.ltb j m || Nat.ltb (degree - j) m.
  Definition prec_at (m j : nat) : Z := if done m j then fin j else nth j prec0 0.

  Record sym_inv (m : nat) (st : list Z * list Z) : Prop := {
    si_lp : length (fst st) = S degree;
    si_lc : length (snd st) = S degree;
    si_prec : forall j, (j <= degree)%nat -> nth j (fst st) 0 = prec_at m j }.

  Lemma fin_nonneg j : 0 <= fin j.
  Proof. unfold full_prec. pose proof (Hprec j). destruct (Nat.leb _ _); lia. Qed.
  Lemma prec_at_nonneg m j : 0 <= prec_at m j.
  Proof. unfold prec_at. destruct (done m j); [apply fin_nonneg|apply Hprec]. Qed.

  (** precisions do not depend on the sign *)
  Lemma sym_step sg i st st' : (2 * i <= degree)%nat -> sym_inv i st -> cpf_sym1 p sg degree dim st i = OK st' -> sym_inv (S i) st'.
  Proof.
    intros Hi [L1 L2 Hpr] E. destruct st as [prec cp]. cbn [fst snd] in *. unfold cpf_sym1 in E.
    assert (D1 : done i i = false). { unfold done. destruct (Nat.ltb_spec i i); [lia|]. destruct (Nat.ltb_spec (degree - i) i); [lia|reflexivity]. }
    assert (D2 : done i (degree - i) = false).
    { unfold done. destruct (Nat.ltb_spec (degree - i) i); [lia|]. destruct (Nat.ltb_spec (degree - (degree - i)) i); [lia|reflexivity]. }
    pose proof (Hpr i ltac:(lia)) as E1. pose proof (Hpr (degree - i)%nat ltac:(lia)) as E2. unfold prec_at in E1, E2. rewrite D1 in E1. rewrite D2 in E2.
    rewrite E1, E2, shift_half in E. pose proof (half_nonneg degree dim i) as HN. pose proof (Hprec i) as P1. pose proof (Hprec (degree - i)) as P2.
    rewrite (power_ZZ_ok p (sh i)) in E by lia. cbn [bind] in E.
    assert (F1 : fin i = Z.max (nth i prec0 0) (nth (degree - i) prec0 0 + sh i)).
    { unfold full_prec. destruct (Nat.leb_spec (2 * i) degree); [reflexivity|lia]. }
    assert (F2 : fin (degree - i) = Z.max (nth (degree - i) prec0 0) (nth i prec0 0 - sh i)).
    { unfold full_prec. destruct (Nat.leb_spec (2 * (degree - i)) degree) as [L|L].
      - assert (degree = 2 * i)%nat by lia. replace (degree - (degree - i))%nat with i by lia. replace (degree - i)%nat with i by lia.
        assert (sh i = 0). { unfold half. replace (degree - 2 * i)%nat with 0%nat by lia. reflexivity. } lia.
      - replace (degree - (degree - i))%nat with i by lia. reflexivity. }
    assert (DN : forall j, (j <= degree)%nat -> j <> i -> j <> (degree - i)%nat -> done (S i) j = done i j).
    { intros j Hj N1 N2. unfold done. destruct (Nat.ltb_spec j (S i)), (Nat.ltb_spec j i), (Nat.ltb_spec (degree - j) (S i)), (Nat.ltb_spec (degree - j) i); try reflexivity; lia. }
    assert (DI : done (S i) i = true) by (unfold done; destruct (Nat.ltb_spec i (S i)); [reflexivity|lia]).
    assert (DJ : done (S i) (degree - i) = true).
    { unfold done. apply orb_true_iff. right. apply Nat.ltb_lt. lia. }
    destruct (Z.leb_spec (nth (degree - i) prec0 0 + sh i) (nth i prec0 0)) as [T|T].
    - rewrite power_ZZ_ok in E by lia. cbn [bind] in E. apply bind_ok in E. destruct E as (u & _ & E). injection E as <-.
      constructor; cbn [fst snd]; rewrite ?upd_length; auto. intros j Hj. rewrite nth_upd.
      destruct (Nat.eqb_spec (degree - i) j) as [<-|N].
      + destruct (Nat.ltb_spec (degree - i) (length prec)); [|lia]. unfold prec_at. rewrite DJ, F2. lia.
      + destruct (Nat.eq_dec j i) as [->|N2].
        * rewrite E1. unfold prec_at. rewrite DI, F1. lia.
        * rewrite Hpr by auto. unfold prec_at. rewrite (DN j) by lia. reflexivity.
    - rewrite power_ZZ_ok in E by lia. cbn [bind] in E. injection E as <-.
      constructor; cbn [fst snd]; rewrite ?upd_length; auto. intros j Hj. rewrite nth_upd.
      destruct (Nat.eqb_spec i j) as [<-|N].
      + destruct (Nat.ltb_spec i (length prec)); [|lia]. unfold prec_at. rewrite DI, F1. lia.
      + destruct (Nat.eq_dec j (degree - i)) as [->|N2].
        * rewrite E2. unfold prec_at. rewrite DJ, F2. lia.
        * rewrite Hpr by auto. unfold prec_at. rewrite (DN j) by lia. reflexivity.
  Qed.

  Definition sym_val (st : list Z * list Z) : Prop :=
    (forall j, (j <= degree)%nat -> cong (p ^ nth j (fst st) 0) (nth j (snd st) 0) (nth j P 0)) /\
    (1 <= fin degree -> nth degree (snd st) 0 = 1).

  Lemma sym_step_ok i st : (2 * i <= degree)%nat -> sym_inv i st -> sym_val st -> 
    exists st', cpf_sym1 p eps degree dim st i = OK st' /\ sym_val st'.
  Proof.
    intros Hi SI [V V1]. pose proof SI as [L1 L2 Hpr]. destruct st as [prec cp]. cbn [fst snd] in *.
    assert (D1 : done i i = false). { unfold done. destruct (Nat.ltb_spec i i); [lia|]. destruct (Nat.ltb_spec (degree - i) i); [lia|reflexivity]. }
    assert (D2 : done i (degree - i) = false).
    { unfold done. destruct (Nat.ltb_spec (degree - i) i); [lia|]. destruct (Nat.ltb_spec (degree - (degree - i)) i); [lia|reflexivity]. }
    pose proof (Hpr i ltac:(lia)) as E1. pose proof (Hpr (degree - i)%nat ltac:(lia)) as E2. unfold prec_at in E1, E2. rewrite D1 in E1. rewrite D2 in E2.
    pose proof (half_nonneg degree dim i) as HN. pose proof (Hprec i) as P1. pose proof (Hprec (degree - i)) as P2.
    assert (EE : eps * eps = 1) by (destruct (weil_eps _ _ _ _ _ W) as [-> | ->]; lia).
    pose proof (V i ltac:(lia)) as Vi. pose proof (V (degree - i)%nat ltac:(lia)) as Vj. rewrite E1 in Vi. rewrite E2 in Vj.
    pose proof (weil_eq _ _ _ _ _ W i Hi) as FE. pose proof (ppos (sh i) HN) as PS.
    unfold cpf_sym1. rewrite shift_half, E1, E2, (power_ZZ_ok p (sh i)) by lia. cbn [bind].
    destruct (Z.leb_spec (nth (degree - i) prec0 0 + sh i) (nth i prec0 0)) as [T|T].
    - rewrite power_ZZ_ok by lia. cbn [bind].
      destruct Vi as (k & Vi).
      assert (X : eps * nth i cp 0 = (nth (degree - i) P 0 + eps * k * p ^ (nth i prec0 0 - sh i)) * p ^ sh i).
      { replace (nth i cp 0) with (nth i P 0 + k * p ^ nth i prec0 0) by lia. rewrite FE.
        replace (p ^ nth i prec0 0) with (p ^ (nth i prec0 0 - sh i) * p ^ sh i) by (rewrite <- Z.pow_add_r by lia; f_equal; lia).
        transitivity (eps * eps * nth (degree - i) P 0 * p ^ sh i + eps * k * p ^ (nth i prec0 0 - sh i) * p ^ sh i); [ring|]. rewrite EE. ring. }
      rewrite X, Z.mod_mul, Z.eqb_refl, Z.div_mul by lia. cbn [check bind]. eexists; split; [reflexivity|]. split; cbn [fst snd].
      + intros j Hj. rewrite !nth_upd, L1, L2. destruct (Nat.eqb_spec (degree - i) j) as [<-|N]; [|now apply V].
        destruct (Nat.ltb_spec (degree - i) (S degree)); [|lia]. rewrite cong_mod. exists (eps * k). ring.
      + intros F. rewrite nth_upd, L2. destruct (Nat.eqb_spec (degree - i) degree) as [N|N]; [|now apply V1].
        assert (i = 0)%nat by lia. subst i. rewrite Nat.sub_0_r in *.
        destruct (Nat.ltb_spec degree (S degree)); [|lia].
        (* cp[0] need not be exact here: use that the value is known modulo p^(..) with exponent >= 1 *)
        rewrite (weil_monic _ _ _ _ _ W) in *.
        rewrite Z.mod_add by (pose proof (ppos (nth 0 prec0 0 - sh 0) ltac:(lia)); lia).
        apply Z.mod_small. split; [lia|]. unfold full_prec in F. destruct (Nat.leb_spec (2 * degree) degree); [lia|].
        rewrite Nat.sub_diag in F. assert (1 <= nth 0 prec0 0 - sh 0) by lia.
        pose proof (Z.pow_le_mono_r p 1 (nth 0 prec0 0 - sh 0)). rewrite Z.pow_1_r in *. lia.
    - rewrite power_ZZ_ok by lia. cbn [bind]. eexists; split; [reflexivity|]. split; cbn [fst snd].
      + intros j Hj. rewrite !nth_upd, L1, L2. destruct (Nat.eqb_spec i j) as [<-|N]; [|now apply V].
        destruct (Nat.ltb_spec i (S degree)); [|lia]. rewrite cong_mod. rewrite FE. destruct Vj as (k & Vj).
        rewrite Z.pow_add_r by lia. exists (eps * k).
        replace (nth (degree - i) cp 0) with (nth (degree - i) P 0 + k * p ^ nth (degree - i) prec0 0) by lia. ring.
      + intros F. rewrite nth_upd_neq by lia. now apply V1.
  Qed.

  Lemma sym_loop_ok st : sym_inv 0 st -> sym_val st -> forall m, (2 * m <= degree + 2)%nat ->
    exists st', foldM (cpf_sym1 p eps degree dim) (seq 0 m) st = OK st' /\ sym_inv m st' /\ sym_val st'.
  Proof.
    intros S0 V0. induction m as [|m IH]; intros Hm.
    - exists st. cbn. auto.
    - destruct IH as (st1 & E & S1 & V1); [lia|].
      destruct (sym_step_ok m st1 ltac:(lia) S1 V1) as (st2 & E2 & V2).
      exists st2. split; [|split; auto; eapply sym_step; eauto; lia].
      rewrite seq_S. cbn [Nat.add].
      assert (FA : forall l1 l2 s, foldM (cpf_sym1 p eps degree dim) (l1 ++ l2) s = (s' <- foldM (cpf_sym1 p eps degree dim) l1 s ;; foldM (cpf_sym1 p eps degree dim) l2 s')).
      { induction l1 as [|a l1 IH1]; intros l2 s; [reflexivity|]. cbn [app foldM]. destruct (cpf_sym1 p eps degree dim s a); cbn [bind]; auto. }
      rewrite FA, E. cbn [bind foldM]. rewrite E2. reflexivity.
  Qed.

  (** ** the power sum loop *)
  Hypothesis Hen : enough p degree dim prec0.

  Lemma fin_degree : 1 <= fin degree /\ sh 0 < fin 0.
  Proof.
    pose proof (Hen degree ltac:(lia)) as H. rewrite Nat.sub_diag in H.
    pose proof (half_even degree dim 0 (weil_even _ _ _ _ _ W) ltac:(lia)) as HE. rewrite Nat.mul_0_r, Nat.sub_0_r in HE.
    pose proof (half_nonneg degree dim 0) as HN.
    assert (L : sh 0 < fin 0).
    { destruct (Z.lt_ge_cases (sh 0) (fin 0)) as [L|L]; auto. exfalso. pose proof (fin_nonneg 0) as FN.
      pose proof (Z.pow_le_mono_r p (2 * fin 0) (2 * sh 0) ltac:(lia) ltac:(lia)) as M.
      replace (Z.of_nat dim * Z.of_nat degree) with (2 * sh 0) in H by lia.
      pose proof (ppos (2 * fin 0) ltac:(lia)). nia. }
    split; auto. unfold full_prec in *. destruct (Nat.leb_spec (2 * degree) degree); [lia|].
    destruct (Nat.leb_spec (2 * 0) degree); [|lia]. rewrite Nat.sub_diag. rewrite Nat.sub_0_r in L. lia.
  Qed.

  Section LOOP.
    Variables (prec cp : list Z).
    Hypothesis Hpr : forall j, (j <= degree)%nat -> nth j prec 0 = fin j.
    Hypothesis Hv : forall j, (j <= degree)%nat -> cong (p ^ fin j) (nth j cp 0) (nth j P 0).
    Variable s : nat -> Z.
    Hypothesis Hs : power_sums degree P s.
    Hypothesis Hb : forall k, (1 <= k <= degree)%nat -> s k ^ 2 <= Z.of_nat degree ^ 2 * p ^ (Z.of_nat dim * Z.of_nat k).
    Let e := map (fun k => alt k (nth (degree - k) cp 0)) (seq 0 (S degree)).

    Lemma e_nth k : (k <= degree)%nat -> nth k e 0 = alt k (nth (degree - k) cp 0).
    Proof.
      intros Hk. unfold e. set (F := fun k => alt k (nth (degree - k) cp 0)).
      rewrite nth_indep with (d' := F 0%nat) by (rewrite map_length, seq_length; lia).
      rewrite (map_nth F), seq_nth by lia. reflexivity.
    Qed.

    Definition E (k : nat) : Z := alt k (nth (degree - k) P 0).
    Definition loop_inv (k : nat) (st : list Z * list Z) : Prop :=
      length (fst st) = k /\ length (snd st) = k /\
      forall i, (1 <= i < k)%nat -> nth i (fst st) 0 = E i /\ nth i (snd st) 0 = s i.

    Lemma alt_mul i k x y : (i <= k)%nat -> alt (k - i) x * ((if Nat.even i then -1 else 1) * y) = - (alt k (x * y)).
    Proof.
      intros H. unfold alt. replace k with ((k - i) + i)%nat at 2 by lia. rewrite Nat.even_add.
      destruct (Nat.even (k - i)), (Nat.even i); cbn [Bool.eqb]; ring.
    Qed.

    Lemma small_cases (b k a pN r : Z) : 1 <= k -> 0 <= a -> b ^ 2 <= a ^ 2 -> (2 * a) ^ 2 < pN ^ 2 -> 0 < pN ->
      r = b mod pN -> (if a ^ 2 <? r ^ 2 then - ((- r) mod pN) else r) = b.
    Proof.
      intros Hk Ha H1 H2 H3 Er. assert (- a <= b <= a) by nia. assert (2 * a < pN) by nia.
      destruct (Z.le_gt_cases 0 b) as [L|L].
      - rewrite Z.mod_small in Er by lia. subst r. destruct (Z.ltb_spec (a ^ 2) (b ^ 2)); [lia|reflexivity].
      - assert (r = b + pN). { rewrite Er. replace b with (b + pN + (-1) * pN) by lia. rewrite Z.mod_add by lia. rewrite Z.mod_small by lia. lia. }
        clear Er. subst r. destruct (Z.ltb_spec (a ^ 2) ((b + pN) ^ 2)); [|nia].
        replace (- (b + pN)) with (- b + (-1) * pN) by lia. rewrite Z.mod_add by lia. rewrite Z.mod_small by lia. lia.
    Qed.

    Lemma loop_step k st : (1 <= k <= degree)%nat -> loop_inv k st ->
      exists st', cpf_step p degree dim prec e st k = OK st' /\ loop_inv (S k) st'.
    Proof.
      intros Hk (L1 & L2 & HI). destruct st as [es ss]. cbn [fst snd] in *. unfold cpf_step.
      rewrite Hpr by lia. pose proof (fin_nonneg (degree - k)) as FN. rewrite power_ZZ_ok by lia. cbn [bind].
      set (sum := zsum _). pose proof (ppos _ FN) as PF.
      assert (ES : sum = - alt k (sumf (fun i => nth (degree - (k - i)) P 0 * s i) (seq 1 (k - 1)))).
      { unfold sum. change (zsum (map ?f ?l)) with (sumf f l).
        rewrite (sumf_ext _ (fun i => (alt k (-1)) * (nth (degree - (k - i)) P 0 * s i))).
        - rewrite sumf_scal. unfold alt. destruct (Nat.even k); ring.
        - intros i I. apply in_seq in I. destruct (HI (k - i)%nat ltac:(lia)) as [-> _]. destruct (HI i ltac:(lia)) as [_ ->].
          unfold E. transitivity (alt (k - i) (nth (degree - (k - i)) P 0) * ((if Nat.even i then -1 else 1) * s i)); [ring|].
          rewrite alt_mul by lia. unfold alt. destruct (Nat.even k); ring. }
      pose proof (Hs k Hk) as NW.
      assert (SK : sumf (fun i => nth (degree - (k - i)) P 0 * s i) (seq 1 k) =
        sumf (fun i => nth (degree - (k - i)) P 0 * s i) (seq 1 (k - 1)) + s k).
      { replace (seq 1 k) with (seq 1 (k - 1) ++ [k]).
        - rewrite sumf_app, sumf_cons, sumf_nil. rewrite Nat.sub_diag, Nat.sub_0_r, (weil_monic _ _ _ _ _ W). lia.
        - replace [k] with [(1 + (k - 1))%nat] by (f_equal; lia). rewrite <- seq_S. f_equal. lia. }
      rewrite SK in NW. set (tail := sumf _ (seq 1 (k - 1))) in *.
      assert (ST : s k = alt k (sum - Z.of_nat k * E k)).
      { rewrite ES. unfold E. unfold alt in *. destruct (Nat.even k); lia. }
      assert (CS : cong (Z.of_nat k * p ^ fin (degree - k)) (alt k (sum - Z.of_nat k * nth k e 0)) (s k)).
      { rewrite ST. apply alt_cong. rewrite e_nth by lia. unfold E.
        destruct (alt_cong _ k _ _ (Hv (degree - k)%nat ltac:(lia))) as (c & X). exists (- c).
        replace (alt k (nth (degree - k) cp 0)) with (alt k (nth (degree - k) P 0) + c * p ^ fin (degree - k)) by lia. ring. }
      assert (PN : 0 < Z.of_nat k * p ^ fin (degree - k)) by (apply Z.mul_pos_pos; lia).
      apply cong_iff_mod in CS; [|lia]. rewrite CS.
      set (pN := Z.of_nat k * p ^ fin (degree - k)) in *.
      assert (RES : (if Z.of_nat degree ^ 2 * p ^ (Z.of_nat dim * Z.of_nat k) <? (s k mod pN) ^ 2 then - ((- (s k mod pN)) mod pN) else s k mod pN) = s k).
      { pose proof (Hb k Hk) as B. pose proof (Hen k Hk) as EN.
        set (A := Z.of_nat degree ^ 2 * p ^ (Z.of_nat dim * Z.of_nat k)) in *.
        assert (EN' : 4 * A < pN ^ 2).
        { unfold pN, A. rewrite Z.pow_mul_l, <- Z.pow_mul_r by lia. replace (fin (degree - k) * 2) with (2 * fin (degree - k)) by lia. lia. }
        assert (A0 : 0 <= A) by (unfold A; apply Z.mul_nonneg_nonneg; apply Z.pow_nonneg; lia).
        clearbody pN A. clear - B EN' A0 PN. generalize dependent (s k). intros b B.
        assert (- pN < 2 * b < pN) by nia.
        destruct (Z.le_gt_cases 0 b) as [L|L].
        - rewrite (Z.mod_small b) by lia. destruct (Z.ltb_spec A (b ^ 2)); [lia|reflexivity].
        - assert (b mod pN = b + pN) as ->. { replace b with (b + pN + (-1) * pN) at 1 by lia. rewrite Z.mod_add by lia. rewrite Z.mod_small by lia. lia. }
          destruct (Z.ltb_spec A ((b + pN) ^ 2)); [|nia].
          replace (- (b + pN)) with (- b + (-1) * pN) by lia. rewrite Z.mod_add by lia. rewrite Z.mod_small by lia. lia. }
      rewrite RES.
      assert (X : sum + (if Nat.even k then - s k else s k) = E k * Z.of_nat k).
      { rewrite ST. unfold alt. destruct (Nat.even k); ring. }
      rewrite X, Z.mod_mul, Z.eqb_refl, Z.div_mul by lia. cbn [check bind]. eexists; split; [reflexivity|].
      split; [|split]; cbn [fst snd]; rewrite ?app_length; cbn [length]; try lia.
      intros i Hi. destruct (Nat.eq_dec i k) as [->|N].
      - rewrite !app_nth2 by lia. rewrite L1, L2, Nat.sub_diag. auto.
      - rewrite !app_nth1 by lia. apply HI. lia.
    Qed.

    Lemma loop_ok m st : loop_inv 1 st -> (m <= degree)%nat ->
      exists st', foldM (cpf_step p degree dim prec e) (seq 1 m) st = OK st' /\ loop_inv (S m) st'.
    Proof.
      intros L0. induction m as [|m IH]; intros Hm; [exists st; auto|].
      destruct IH as (st1 & E1 & I1); [lia|]. destruct (loop_step (S m) st1 ltac:(lia) I1) as (st2 & E2 & I2).
      exists st2. split; auto. rewrite seq_S. cbn [Nat.add].
      assert (FA : forall l1 l2 s, foldM (cpf_step p degree dim prec e) (l1 ++ l2) s = (s' <- foldM (cpf_step p degree dim prec e) l1 s ;; foldM (cpf_step p degree dim prec e) l2 s')).
      { induction l1 as [|a l1 IH1]; intros l2 s0; [reflexivity|]. cbn [app foldM]. destruct (cpf_step p degree dim prec e s0 a); cbn [bind]; auto. }
      rewrite FA, E1. cbn [bind foldM]. rewrite E2. reflexivity.
    Qed.
  End LOOP.

  (** ** assembling *)
  Lemma detects_dec is : (forall i, In i is -> (1 <= i)%nat /\ (2 * i <= degree)%nat) ->
    (exists i, In i is /\ detects p degree dim prec0 P i) \/ ~ (exists i, In i is /\ detects p degree dim prec0 P i).
  Proof.
    induction is as [|i is IH]; intros Hi; [right; intros (i & [] & _)|].
    destruct (Hi i (or_introl eq_refl)) as [H1 H2]. pose proof (detect_test i H1 H2) as DT. cbv zeta in DT.
    destruct (_ && _) eqn:T.
    - left. exists i. split; [now left|]. now apply DT.
    - assert (N : ~ detects p degree dim prec0 P i) by (rewrite <- DT; discriminate).
      destruct IH as [(j & J & D)|N2]; [intros j J; apply Hi; now right| |].
      + left. exists j. split; auto. now right.
      + right. intros (j & [->|J] & D); [contradiction|]. apply N2. eauto.
  Qed.
  Lemma sign_list i : In i (seq 1 (degree / 2)) <-> (1 <= i)%nat /\ (2 * i <= degree)%nat.
  Proof.
    rewrite in_seq. pose proof (Nat.div_mod degree 2 ltac:(lia)). pose proof (Nat.mod_upper_bound degree 2 ltac:(lia)). lia.
  Qed.
  Lemma sign_good : good_sign -> cpf_sign p prec0 cp1 degree dim (seq 1 (degree / 2)) = OK eps.
  Proof.
    intros G. destruct (sign_ok (seq 1 (degree / 2))) as [S1 S2]; [intros i; apply sign_list|].
    destruct (detects_dec (seq 1 (degree / 2))) as [D|D]; [intros i; apply sign_list|auto|].
    destruct G as [->|(i & D2)]; auto. exfalso. apply D. exists i. split; auto. apply sign_list. unfold detects in D2. tauto.
  Qed.
  Lemma sign_bad : ~ good_sign -> cpf_sign p prec0 cp1 degree dim (seq 1 (degree / 2)) = OK 1.
  Proof.
    intros G. destruct (sign_ok (seq 1 (degree / 2))) as [S1 S2]; [intros i; apply sign_list|].
    apply S2. intros (i & _ & D). apply G. right. eauto.
  Qed.

  Notation pw0 := (p ^ (Z.of_nat degree * Z.of_nat dim / 2)).
  Definition cp2 (sg : Z) : list Z := upd cp1 0 (sg * pw0).

  Lemma half_0 : half degree dim 0 = Z.of_nat degree * Z.of_nat dim / 2.
  Proof. unfold half. now rewrite Nat.mul_0_r, Nat.sub_0_r. Qed.

  Lemma start_inv sg : sym_inv 0 (prec0, cp2 sg).
  Proof.
    constructor; cbn [fst snd].
    - exact Lp.
    - unfold cp2. rewrite upd_length. apply cp1_len.
    - intros j Hj. unfold prec_at, done. reflexivity.
  Qed.
  Lemma start_val : sym_val (prec0, cp2 eps).
  Proof.
    split; cbn [fst snd].
    - intros j Hj. unfold cp2. rewrite nth_upd, cp1_len. destruct (Nat.eqb_spec 0 j) as [<-|N]; [|now apply cp1_cong].
      cbn [Nat.ltb Nat.leb]. rewrite (weil_eq _ _ _ _ _ W 0 ltac:(lia)), Nat.sub_0_r, (weil_monic _ _ _ _ _ W), half_0.
      apply cong_of_eq. ring.
    - intros _. unfold cp2. rewrite nth_upd_neq by lia. apply cp1_deg.
  Qed.

  (** the rest of the function, once the sign is known *)
  Definition tail (sg : Z) : res (list Z) :=
    st <- foldM (cpf_sym1 p sg degree dim) (seq 0 (S (degree / 2))) (prec0, cp2 sg) ;;
    let '(prec, cp) := st in
    let e := map (fun k => alt k (nth (degree - k) cp 0)) (seq 0 (S degree)) in
    _ <- check (forallb (fun k => prec_test p degree dim (nth (degree - k) prec 0) k) (seq 1 degree)) EAssert ;;
    st <- foldM (cpf_step p degree dim prec e) (seq 1 degree) ([nth 0 e 0], [0]) ;;
    let es := fst st in
    OK (map (fun i => if Nat.eqb i degree then nth i cp 0 else alt (degree - i) (nth (degree - i) es 0)) (seq 0 (S degree))).

  Lemma frob_eq sg : (if Nat.even dim then cpf_sign p prec0 cp1 degree dim (seq 1 (degree / 2)) else OK 1) = OK sg ->
    charpoly_frob_from cp0 prec0 p dim = tail sg.
  Proof.
    intros Hsg. unfold charpoly_frob_from. rewrite Lp, Lc, Nat.eqb_refl. cbn [check bind].
    replace (S degree - 1)%nat with degree by lia. rewrite reduce_ok. cbn [bind]. fold cp1.
    rewrite Hsg. cbn [bind]. rewrite power_ZZ_ok by (rewrite <- half_0; apply half_nonneg). reflexivity.
  Qed.

  Lemma half_count : (2 * S (degree / 2) <= degree + 2)%nat /\ (degree < 2 * S (degree / 2))%nat.
  Proof. pose proof (Nat.div_mod degree 2 ltac:(lia)). pose proof (Nat.mod_upper_bound degree 2 ltac:(lia)). lia. Qed.

  Lemma all_done j : (j <= degree)%nat -> prec_at (S (degree / 2)) j = fin j.
  Proof.
    intros Hj. unfold prec_at, done. pose proof half_count.
    destruct (Nat.ltb_spec j (S (degree / 2))); [reflexivity|]. destruct (Nat.ltb_spec (degree - j) (S (degree / 2))); [reflexivity|lia].
  Qed.

  Lemma tests_ok prec : (forall j, (j <= degree)%nat -> nth j prec 0 = fin j) ->
    forallb (fun k => prec_test p degree dim (nth (degree - k) prec 0) k) (seq 1 degree) = true.
  Proof.
    intros Hpr. apply forallb_forall. intros k I. apply in_seq in I. unfold prec_test. rewrite Hpr by lia.
    apply Z.ltb_lt. apply Hen. lia.
  Qed.

  Lemma tail_ok : tail eps = OK P.
  Proof.
    destruct (sym_loop_ok _ (start_inv eps) start_val (S (degree / 2))) as ([prec cp] & E1 & SI & [V V1]); [apply half_count|].
    cbn [fst snd] in *. destruct SI as [L1 L2 Hpr]. cbn [fst snd] in *.
    assert (Hpr' : forall j, (j <= degree)%nat -> nth j prec 0 = fin j) by (intros j Hj; rewrite Hpr by auto; now apply all_done).
    assert (V' : forall j, (j <= degree)%nat -> cong (p ^ fin j) (nth j cp 0) (nth j P 0)).
    { intros j Hj. rewrite <- (Hpr' j Hj). now apply V. }
    unfold tail. rewrite E1. cbn [bind]. rewrite tests_ok by auto. cbn [check bind].
    destruct (weil_bound _ _ _ _ _ W) as (s & Hs & Hb).
    destruct (loop_ok prec cp Hpr' V' s Hs Hb degree ([nth 0 (map (fun k => alt k (nth (degree - k) cp 0)) (seq 0 (S degree))) 0], [0])) as ([es ss] & E2 & I1 & I2 & I3).
    { split; [reflexivity|]. split; [reflexivity|]. intros i Hi. lia. }
    { lia. }
    rewrite E2. cbn [bind fst snd] in *. f_equal. apply (nth_ext _ _ 0 0).
    - rewrite map_length, seq_length. symmetry. apply (weil_len _ _ _ _ _ W).
    - intros i Hi. rewrite map_length, seq_length in Hi.
      set (F := fun i => if Nat.eqb i degree then nth i cp 0 else alt (degree - i) (nth (degree - i) es 0)).
      rewrite nth_indep with (d' := F 0%nat) by now rewrite map_length, seq_length.
      rewrite (map_nth F), seq_nth by lia. cbn [Nat.add]. unfold F. destruct (Nat.eqb_spec i degree) as [->|N].
      + rewrite V1 by apply fin_degree. symmetry. apply (weil_monic _ _ _ _ _ W).
      + destruct (I3 (degree - i)%nat ltac:(lia)) as [-> _]. unfold E. rewrite alt_inv. f_equal. lia.
  Qed.

  Theorem frob_ok : (if Nat.even dim then good_sign else eps = 1) -> charpoly_frob_from cp0 prec0 p dim = OK P.
  Proof.
    intros G. rewrite (frob_eq eps); [apply tail_ok|]. destruct (Nat.even dim); [now apply sign_good|congruence].
  Qed.

  (** ** the wrong sign *)
  Lemma sym_keeps0 sg l st st' : (forall i, In i l -> (1 <= i)%nat /\ (2 * i <= degree)%nat) ->
    foldM (cpf_sym1 p sg degree dim) l st = OK st' -> nth 0 (snd st') 0 = nth 0 (snd st) 0.
  Proof.
    revert st. induction l as [|i l IH]; intros st Hi E; cbn [foldM] in E; [congruence|].
    apply bind_ok in E. destruct E as (st1 & E1 & E2). rewrite (IH st1) by (auto; intros; apply Hi; now right).
    destruct (Hi i (or_introl eq_refl)) as [H1 H2]. destruct st as [prec cp]. unfold cpf_sym1 in E1.
    apply bind_ok in E1. destruct E1 as (pw & _ & E1).
    destruct (_ <=? _).
    - apply bind_ok in E1. destruct E1 as (m & _ & E1). apply bind_ok in E1. destruct E1 as (u & _ & E1). injection E1 as <-.
      cbn [snd]. apply nth_upd_neq. lia.
    - apply bind_ok in E1. destruct E1 as (m & _ & E1). injection E1 as <-. cbn [snd]. apply nth_upd_neq. lia.
  Qed.
  Lemma sym_inv_loop sg m st st' : (2 * m <= degree + 2)%nat -> sym_inv 0 st ->
    foldM (cpf_sym1 p sg degree dim) (seq 0 m) st = OK st' -> sym_inv m st'.
  Proof.
    intros Hm S0. enough (H : forall a st, sym_inv a st -> (2 * (a + m) <= degree + 2)%nat ->
      foldM (cpf_sym1 p sg degree dim) (seq a m) st = OK st' -> sym_inv (a + m) st').
    { intros E. specialize (H 0%nat st S0). now apply H. }
    clear Hm S0 st. induction m as [|m IH]; intros a st SI Ha E; cbn [seq foldM] in E.
    - rewrite Nat.add_0_r. congruence.
    - apply bind_ok in E. destruct E as (st1 & E1 & E). replace (a + S m)%nat with (S a + m)%nat by lia.
      apply (IH (S a) st1); auto; [|lia]. eapply sym_step; eauto. lia.
  Qed.

  Lemma loop_cong prec e l : forall st st' a, foldM (cpf_step p degree dim prec e) (seq a l) st = OK st' ->
    (forall j, (j <= degree)%nat -> 0 <= nth j prec 0) -> length (fst st) = a -> (1 <= a)%nat -> (a + l <= S degree)%nat ->
    length (fst st') = (a + l)%nat /\
    forall k, (a <= k < a + l)%nat -> cong (p ^ nth (degree - k) prec 0) (nth k (fst st') 0) (nth k e 0).
  Proof.
    induction l as [|l IH]; intros st st' a Eq Hpr La Ha Hl; cbn [seq foldM] in Eq.
    - injection Eq as <-. split; [lia|]. intros k Hk. lia.
    - apply bind_ok in Eq. destruct Eq as (st1 & E1 & E2).
      destruct st as [es ss]. unfold cpf_step in E1. rewrite power_ZZ_ok in E1 by (apply Hpr; lia). cbn [bind] in E1.
      set (sum := zsum _) in E1. set (pN := Z.of_nat a * p ^ nth (degree - a) prec 0) in E1.
      set (s0 := alt a (sum - Z.of_nat a * nth a e 0)) in E1.
      set (s1 := if _ <? _ then _ else _) in E1.
      assert (PP : 0 < p ^ nth (degree - a) prec 0) by (apply ppos, Hpr; lia).
      assert (C1 : cong pN s1 s0).
      { unfold s1. destruct (_ <? _).
        - rewrite cong_mod. rewrite Z.opp_involutive. apply cong_mod.
        - apply cong_mod. }
      apply bind_ok in E1. destruct E1 as (u & Ck & E1). injection E1 as <-.
      unfold check in Ck. destruct (_ =? 0) eqn:Z0 in Ck; [|discriminate]. apply Z.eqb_eq in Z0.
      set (x := sum + (if Nat.even a then - s1 else s1)) in *.
      assert (DX : x = Z.of_nat a * (x / Z.of_nat a)) by (apply Z_div_exact_full_2; lia).
      destruct (IH _ _ _ E2 Hpr) as [I1 I2]; cbn [fst] in *; try (rewrite ?app_length; cbn [length]; lia).
      split; [lia|]. intros k Hk. destruct (Nat.eq_dec k a) as [->|N]; [|apply I2; lia].
      (* the entry just written stays *)
      assert (KEEP : forall l st st' a k, foldM (cpf_step p degree dim prec e) (seq a l) st = OK st' -> (k < length (fst st))%nat ->
        nth k (fst st') 0 = nth k (fst st) 0).
      { clear. induction l as [|l IH]; intros st st' a k E Hk; cbn [seq foldM] in E; [congruence|].
        apply bind_ok in E. destruct E as (st1 & E1 & E2). destruct st as [es ss]. unfold cpf_step in E1.
        apply bind_ok in E1. destruct E1 as (m & _ & E1). apply bind_ok in E1. destruct E1 as (u & _ & E1). injection E1 as <-.
        cbn [fst] in *. rewrite (IH _ _ _ k E2) by (cbn [fst]; rewrite app_length; cbn [length]; lia). cbn [fst]. now rewrite app_nth1. }
      rewrite (KEEP _ _ _ _ a E2) by (cbn [fst]; rewrite app_length; cbn [length]; lia). cbn [fst].
      rewrite app_nth2 by lia. replace (a - length es)%nat with 0%nat by lia. cbn [nth].
      destruct C1 as (c & C1).
      assert (X : x = Z.of_nat a * nth a e 0 + (alt a (- c)) * pN).
      { unfold x, alt, s0 in *. unfold alt in C1. destruct (Nat.even a); lia. }
      exists (alt a (- c)). unfold pN in X. nia.
  Qed.

  Theorem wrong_sign : ~ good_sign -> Nat.even dim = true -> charpoly_frob_from cp0 prec0 p dim <> OK P.
  Proof.
    intros G Ev Eq. rewrite (frob_eq 1) in Eq by (rewrite Ev; now apply sign_bad).
    assert (eps = -1). { destruct (weil_eps _ _ _ _ _ W) as [X|X]; auto. exfalso. apply G. now left. }
    unfold tail in Eq. apply bind_ok in Eq. destruct Eq as ([prec cp] & E1 & Eq).
    pose proof (sym_inv_loop 1 _ _ _ (proj1 half_count) (start_inv 1) E1) as SI. destruct SI as [L1 L2 Hpr]. cbn [fst snd] in *.
    assert (Hpr' : forall j, (j <= degree)%nat -> nth j prec 0 = fin j) by (intros j Hj; rewrite Hpr by auto; now apply all_done).
    set (e := map _ _) in Eq. apply bind_ok in Eq. destruct Eq as (u & _ & Eq). apply bind_ok in Eq. destruct Eq as ([es ss] & E2 & Eq).
    cbn [fst] in Eq. injection Eq as Eq.
    (* constant term after the symmetry loop *)
    assert (C0 : cong (p ^ fin 0) (nth 0 cp 0) pw0).
    { cbn [seq foldM] in E1. apply bind_ok in E1. destruct E1 as (st1 & E0 & E1).
      pose proof (sym_keeps0 1 (seq 1 (degree / 2)) st1 (prec, cp) ltac:(intros i; apply sign_list) E1) as K. cbn [snd] in K. rewrite K.
      unfold cpf_sym1 in E0. rewrite shift_half, half_0 in E0. pose proof (half_nonneg degree dim 0) as HN. rewrite half_0 in HN.
      rewrite (power_ZZ_ok p _ HN) in E0. cbn [bind] in E0. rewrite Nat.sub_0_r in E0.
      pose proof (Hprec 0) as P0. pose proof (Hprec degree) as P1.
      assert (Z0 : nth 0 (cp2 1) 0 = pw0). { unfold cp2. rewrite nth_upd_eq by (rewrite cp1_len; lia). ring. }
      assert (Zd : nth degree (cp2 1) 0 = 1). { unfold cp2. rewrite nth_upd_neq by lia. apply cp1_deg. }
      assert (F0 : fin 0 = Z.max (nth 0 prec0 0) (nth degree prec0 0 + Z.of_nat degree * Z.of_nat dim / 2)).
      { unfold full_prec. destruct (Nat.leb_spec (2 * 0) degree); [|lia]. now rewrite Nat.sub_0_r, half_0. }
      destruct (Z.leb_spec (nth degree prec0 0 + Z.of_nat degree * Z.of_nat dim / 2) (nth 0 prec0 0)) as [T|T].
      - rewrite power_ZZ_ok in E0 by lia. cbn [bind] in E0. apply bind_ok in E0. destruct E0 as (w & _ & E0). injection E0 as <-.
        cbn [snd]. rewrite nth_upd_neq by lia. rewrite Z0. reflexivity.
      - rewrite power_ZZ_ok in E0 by lia. cbn [bind] in E0. injection E0 as <-. cbn [snd].
        rewrite nth_upd_eq by (unfold cp2; rewrite upd_length, cp1_len; lia). rewrite Zd.
        replace (fin 0) with (nth degree prec0 0 + Z.of_nat degree * Z.of_nat dim / 2) by lia. rewrite cong_mod. apply cong_of_eq. ring. }
    destruct (loop_cong prec e degree _ _ 1 E2) as [_ LC]; cbn [fst]; auto; try lia.
    { intros j Hj. rewrite Hpr' by auto. apply fin_nonneg. }
    specialize (LC degree ltac:(lia)). rewrite Nat.sub_diag, Hpr' in LC by lia. cbn [fst] in LC.
    assert (N0 : nth 0 P 0 = alt degree (nth degree es 0)).
    { rewrite <- Eq. cbn [nth]. rewrite Nat.sub_0_r. destruct degree; [lia|reflexivity]. }
    assert (Ee : nth degree e 0 = alt degree (nth 0 cp 0)) by (unfold e; rewrite e_nth by lia; now rewrite Nat.sub_diag).
    rewrite Ee in LC. apply (alt_cong _ degree) in LC. rewrite alt_inv, <- N0, C0 in LC.
    rewrite (weil_eq _ _ _ _ _ W 0 ltac:(lia)), Nat.sub_0_r, (weil_monic _ _ _ _ _ W), half_0 in LC. rewrite H in LC.
    destruct LC as (c & LC).
    pose proof (Hen degree ltac:(lia)) as En. rewrite Nat.sub_diag in En. pose proof (fin_nonneg 0) as FN.
    pose proof (half_even degree dim 0 (weil_even _ _ _ _ _ W) ltac:(lia)) as HE. rewrite Nat.mul_0_r, Nat.sub_0_r, half_0 in HE.
    replace (Z.of_nat dim * Z.of_nat degree) with (2 * (Z.of_nat degree * Z.of_nat dim / 2)) in En by lia.
    pose proof (half_nonneg degree dim 0) as HN. rewrite half_0 in HN.
    rewrite (Z.mul_comm 2 (_ / 2)), (Z.mul_comm 2 (fin 0)), !Z.pow_mul_r in En by lia.
    pose proof (ppos _ HN) as W1. pose proof (ppos _ FN) as W2.
    set (w := pw0) in *. set (v := p ^ fin 0) in *. clearbody w v.
    assert (D0 : 0 < Z.of_nat degree ^ 2) by (apply Z.pow_pos_nonneg; lia).
    assert (4 * w ^ 2 < v ^ 2) by (apply (Z.mul_lt_mono_pos_l (Z.of_nat degree ^ 2)); lia).
    clear - H0 W1 W2 LC.
    assert (2 * w < v) by nia.
    assert (c = 0 \/ c <= -1 \/ 1 <= c) as [?|[?|?]] by lia; nia.
  Qed.
End FROB.
