(** The functional equation modulo the working precisions holds for everything
    charpoly_frob returns, whatever the matrix is. *)
From Coq Require Import ZArith List Bool Lia.
From Verif Require Import Base VecModel MatModel MatProofs CharModel CharSpec CharProofs.
Import ListNotations.
Open Scope Z_scope.

Lemma bind_ok {A B} (m : res A) (f : A -> res B) b : bind m f = OK b -> exists a, m = OK a /\ f a = OK b.
Proof. destruct m; cbn; [eauto|discriminate]. Qed.
Lemma nth_map_seq {B} (g : nat -> B) d i x : (i < d)%nat -> nth i (map g (seq 0 d)) x = g i.
Proof. intros H. rewrite (nth_indep _ x (g O)) by (rewrite map_length, seq_length; lia). rewrite map_nth, seq_nth by lia. reflexivity. Qed.

Section Sym.
  Variables (p : Z) (degree dim : nat) (sg : Z) (prec0 : list Z).
  Hypothesis Hp : 2 <= p.
  Hypothesis Hsg : sg = 1 \/ sg = -1.
  Hypothesis Lp : length prec0 = S degree.
  Hypothesis Hpr : forall j, (j <= degree)%nat -> 0 <= nth j prec0 0.
  Notation sh := (half degree dim).
  Notation fin := (full_prec degree dim prec0).

  Definition sinv (m : nat) (st : list Z * list Z) : Prop :=
    length (fst st) = S degree /\ length (snd st) = S degree /\
    (forall j, (m <= j)%nat -> (j + m <= degree)%nat -> nth j (fst st) 0 = nth j prec0 0) /\
    (forall j, (j < m)%nat -> (2 * j < degree)%nat ->
       nth j (fst st) 0 = fin j /\ nth (degree - j) (fst st) 0 = fin j - sh j /\ 0 <= fin j - sh j /\
       (p ^ fin j | nth j (snd st) 0 - sg * nth (degree - j) (snd st) 0 * p ^ sh j)).

  Lemma power_inv a e x : power_ZZ a e = OK x -> 0 <= e /\ x = a ^ e.
  Proof. unfold power_ZZ. destruct (Z.ltb_spec e 0); [discriminate|]. intros E. injection E as <-. auto. Qed.

  Lemma sinv_step m st st' : (2 * m <= degree)%nat -> sinv m st -> cpf_sym1 p sg degree dim st m = OK st' -> sinv (S m) st'.
  Proof.
    intros Hm (L1 & L2 & U & I) E. destruct st as [pr cp]. cbn [fst snd] in *. unfold cpf_sym1 in E. rewrite shift_half in E. cbv zeta in E.
    apply bind_ok in E. destruct E as (pw & E0 & E). apply power_inv in E0. destruct E0 as (S0 & ->).
    pose proof (U m ltac:(lia) ltac:(lia)) as Um. pose proof (U (degree - m)%nat ltac:(lia) ltac:(lia)) as Ud.
    pose proof (Hpr m ltac:(lia)) as Pm. pose proof (Hpr (degree - m)%nat ltac:(lia)) as Pd.
    assert (P0 : 0 < p ^ sh m) by (apply Z.pow_pos_nonneg; lia).
    assert (Fm : fin m = Z.max (nth m prec0 0) (nth (degree - m) prec0 0 + sh m)).
    { unfold full_prec. destruct (Nat.leb_spec (2 * m) degree); [reflexivity|lia]. }
    destruct (Z.leb_spec (nth (degree - m) pr 0 + sh m) (nth m pr 0)) as [A|A].
    - apply bind_ok in E. destruct E as (md & E1 & E). apply power_inv in E1. destruct E1 as (S1 & ->).
      apply bind_ok in E. destruct E as (u & E2 & E). destruct (Z.eqb_spec ((sg * nth m cp 0) mod p ^ sh m) 0) as [D|]; [|discriminate]. injection E as <-.
      unfold sinv. cbn [fst snd]. rewrite !upd_length. split; [auto|]. split; [auto|]. split.
      + intros j J1 J2. rewrite nth_upd_neq by lia. apply U; lia.
      + intros j J1 J2. destruct (Nat.eq_dec j m) as [->|N].
        * rewrite nth_upd_neq by lia. rewrite !nth_upd_eq by lia. rewrite (nth_upd_neq cp) by lia.
          assert (F : fin m = nth m pr 0) by lia. split; [lia|]. split; [lia|]. split; [lia|].
          apply Z.mod_divide in D; [|lia]. destruct D as (t & D). rewrite D, Z.div_mul by lia.
          rewrite Z.mod_eq by (apply Z.pow_nonzero; lia). set (c := t / _). rewrite F.
          assert (X : nth m cp 0 = sg * (t * p ^ sh m)) by (rewrite <- D; destruct Hsg; subst sg; ring).
          rewrite X. exists (sg * c). replace (p ^ nth m pr 0) with (p ^ (nth m pr 0 - sh m) * p ^ sh m) by (rewrite <- Z.pow_add_r by lia; f_equal; lia). ring.
        * rewrite (nth_upd_neq pr (degree - m) j) by lia. rewrite (nth_upd_neq cp (degree - m) j) by lia.
          rewrite (nth_upd_neq pr (degree - m) (degree - j)) by lia. rewrite (nth_upd_neq cp (degree - m) (degree - j)) by lia. apply I; lia.
    - apply bind_ok in E. destruct E as (md & E1 & E). apply power_inv in E1. destruct E1 as (S1 & ->). injection E as <-.
      unfold sinv. cbn [fst snd]. rewrite !upd_length. split; [auto|]. split; [auto|]. split.
      + intros j J1 J2. rewrite nth_upd_neq by lia. apply U; lia.
      + intros j J1 J2. destruct (Nat.eq_dec j m) as [->|N].
        * rewrite !nth_upd_eq by lia. rewrite (nth_upd_neq pr) by lia. rewrite (nth_upd_neq cp) by lia.
          assert (F : fin m = nth (degree - m) pr 0 + sh m) by lia. split; [lia|]. split; [lia|]. split; [lia|].
          rewrite F. rewrite Z.mod_eq by (apply Z.pow_nonzero; lia). set (c := _ / _). exists (- c). ring.
        * rewrite (nth_upd_neq pr m j) by lia. rewrite (nth_upd_neq cp m j) by lia.
          rewrite (nth_upd_neq pr m (degree - j)) by lia. rewrite (nth_upd_neq cp m (degree - j)) by lia. apply I; lia.
  Qed.

  Lemma sinv_loop k : forall m st st', (2 * (m + k) <= degree + 2)%nat -> sinv m st -> foldM (cpf_sym1 p sg degree dim) (seq m k) st = OK st' -> sinv (m + k) st'.
  Proof.
    induction k as [|k IH]; intros m st st' Hk HS E; cbn [seq foldM] in E.
    - injection E as <-. now rewrite Nat.add_0_r.
    - apply bind_ok in E. destruct E as (st1 & E1 & E). replace (m + S k)%nat with (S m + k)%nat by lia.
      apply (IH (S m) st1 st'); [lia| |exact E]. apply (sinv_step m st st1); auto. lia.
  Qed.
End Sym.

Section Steps.
  Variables (p : Z) (degree dim : nat) (prec e : list Z).
  Hypothesis Hp : 2 <= p.
  Lemma cpf_step_cong es ss k st : (1 <= k)%nat -> length es = k -> cpf_step p degree dim prec e (es, ss) k = OK st ->
    length (fst st) = S k /\ (forall j, (j < k)%nat -> nth j (fst st) 0 = nth j es 0) /\
    0 <= nth (degree - k) prec 0 /\ (p ^ nth (degree - k) prec 0 | nth k (fst st) 0 - nth k e 0).
  Proof.
    intros Hk L E. unfold cpf_step in E. cbv zeta in E. apply bind_ok in E. destruct E as (m & E0 & E). apply power_inv in E0. destruct E0 as (S0 & ->).
    apply bind_ok in E. destruct E as (u & E1 & E).
    match type of E1 with check (?x mod _ =? 0) _ = _ => set (x0 := x) in * end.
    destruct (Z.eqb_spec (x0 mod Z.of_nat k) 0) as [D|]; [|discriminate]. injection E as <-. cbn [fst].
    rewrite app_length. cbn [length]. split; [lia|]. split; [intros j J; now rewrite app_nth1 by lia|]. split; [auto|].
    rewrite app_nth2, L, Nat.sub_diag by lia. cbn [nth].
    set (sum := zsum _) in *. set (m := p ^ nth (degree - k) prec 0) in *. assert (M0 : 0 < m) by (apply Z.pow_pos_nonneg; lia).
    set (pN := Z.of_nat k * m) in *. assert (N0 : 0 < pN) by (unfold pN; nia).
    set (s0 := alt k (sum - Z.of_nat k * nth k e 0)) in *.
    match goal with x0 := sum + (if _ then - ?s else ?s) |- _ => set (s1 := s) in * end.
    assert (C : (pN | s1 - s0)).
    { unfold s1. destruct (_ <? _).
      - rewrite !Z.mod_eq by lia. set (c := s0 / pN). set (c' := (- (s0 - pN * c)) / pN). exists (c' - c). ring.
      - rewrite Z.mod_eq by lia. exists (- (s0 / pN)). ring. }
    apply Z.mod_divide in D; [|lia]. destruct D as (t & D). rewrite D, Z.div_mul by lia. destruct C as (c & C).
    assert (X : Z.of_nat k * (t - nth k e 0) = (if Nat.even k then - c else c) * pN).
    { unfold x0, s0, alt in *. destruct (Nat.even k); nia. }
    unfold pN in X. assert (Y : t - nth k e 0 = (if Nat.even k then - c else c) * m).
    { apply (Z.mul_reg_l _ _ (Z.of_nat k)); [lia|]. rewrite X. ring. }
    rewrite Y. apply Z.divide_factor_r.
  Qed.

  Lemma cpf_steps_cong n : forall k es ss st, (1 <= k)%nat -> length es = k -> foldM (cpf_step p degree dim prec e) (seq k n) (es, ss) = OK st ->
    length (fst st) = (k + n)%nat /\ (forall j, (j < k)%nat -> nth j (fst st) 0 = nth j es 0) /\
    forall j, (k <= j < k + n)%nat -> 0 <= nth (degree - j) prec 0 /\ (p ^ nth (degree - j) prec 0 | nth j (fst st) 0 - nth j e 0).
  Proof.
    induction n as [|n IH]; intros k es ss st Hk L E; cbn [seq foldM] in E.
    - injection E as <-. cbn [fst]. split; [lia|]. split; [auto|]. intros; lia.
    - apply bind_ok in E. destruct E as ([es1 ss1] & E1 & E). destruct (cpf_step_cong _ _ _ _ Hk L E1) as (A1 & A2 & A3 & A4). cbn [fst] in *.
      destruct (IH (S k) es1 ss1 st ltac:(lia) A1 E) as (B1 & B2 & B3). split; [lia|]. split.
      + intros j J. rewrite B2 by lia. auto.
      + intros j J. destruct (Nat.eq_dec j k) as [->|]; [|apply B3; lia]. rewrite B2 by lia. auto.
  Qed.
End Steps.

Lemma sign_pm p prec cp degree dim is s : cpf_sign p prec cp degree dim is = OK s -> s = 1 \/ s = -1.
Proof.
  induction is as [|i is IH]; cbn [cpf_sign]; intros E; [injection E as <-; auto|].
  apply bind_ok in E. destruct E as (pp & _ & E). destruct (_ && _); [|auto]. apply bind_ok in E. destruct E as (pw & _ & E).
  destruct (_ =? 0); [injection E as <-; auto|]. apply bind_ok in E. destruct E as (u & _ & E). injection E as <-. auto.
Qed.
Lemma mapM_len {A B} (g : A -> res B) l l' : mapM g l = OK l' -> length l' = length l.
Proof. intros H. apply mapM_ok in H. induction H; cbn [length]; congruence. Qed.

Lemma reduce_prec p prec cp out : cpf_reduce p prec cp = OK out -> length out = length cp /\ forall j, (j < length cp)%nat -> 0 <= nth j prec 0.
Proof.
  unfold cpf_reduce. intros E. split; [rewrite (mapM_len _ _ _ E); apply seq_length|]. intros j J.
  assert (G : forall l o, mapM (fun i => m <- power_ZZ p (nth i prec 0) ;; OK (nth i cp 0 mod m)) l = OK o -> In j l -> 0 <= nth j prec 0).
  { induction l as [|a l IH]; intros o X I; [destruct I|]. cbn [mapM] in X. apply bind_ok in X. destruct X as (b & X1 & X). apply bind_ok in X. destruct X as (bs & X2 & _).
    destruct I as [->|I]; [|eauto]. apply bind_ok in X1. destruct X1 as (m & X1 & _). now apply power_inv in X1. }
  apply (G _ _ E). apply in_seq. lia.
Qed.

(** everything about the result of charpoly_frob that does not depend on the matrix *)
Lemma frob_from_equation cp prec p dim out : 2 <= p -> charpoly_frob_from cp prec p dim = OK out -> (1 <= length cp)%nat ->
  length prec = length cp /\ length out = length cp /\
  let degree := (length cp - 1)%nat in
  exists sg, (sg = 1 \/ sg = -1) /\ (Nat.even dim = false -> sg = 1) /\
    forall i, (2 * i < degree)%nat -> half degree dim i <= full_prec degree dim prec i /\
      (p ^ full_prec degree dim prec i | nth i out 0 - sg * nth (degree - i) out 0 * p ^ half degree dim i).
Proof.
  intros Hp E Lc. unfold charpoly_frob_from in E. cbv zeta in E. set (degree := (length cp - 1)%nat) in *.
  apply bind_ok in E. destruct E as (u & E0 & E). destruct (Nat.eqb_spec (length prec) (length cp)) as [L|]; [|discriminate]. clear u E0.
  apply bind_ok in E. destruct E as (cp1 & E1 & E). apply reduce_prec in E1. destruct E1 as (L1 & Pr).
  apply bind_ok in E. destruct E as (sg & E2 & E).
  assert (Hs : (sg = 1 \/ sg = -1) /\ (Nat.even dim = false -> sg = 1)).
  { destruct (Nat.even dim); [split; [eapply sign_pm; eauto|discriminate]|injection E2 as <-; auto]. }
  apply bind_ok in E. destruct E as (pw & E3 & E). apply power_inv in E3. destruct E3 as (S0 & ->).
  apply bind_ok in E. destruct E as ([prec2 cp2] & E4 & E).
  apply bind_ok in E. destruct E as (u & _ & E). apply bind_ok in E. destruct E as ([es ss] & E5 & E).
  match type of E with OK ?m = _ => remember m as fin eqn:Efin end. injection E as <-. subst fin. cbn [fst].
  split; [auto|]. split; [rewrite map_length, seq_length; unfold degree; lia|]. cbv zeta. exists sg. split; [tauto|]. split; [tauto|]. intros i Hi.
  assert (LS : length prec = S degree) by (unfold degree; lia).
  set (cp0 := upd (upd cp1 degree 1) 0 (sg * p ^ (Z.of_nat degree * Z.of_nat dim / 2))) in *.
  assert (I : sinv p degree dim sg prec (0 + S (degree / 2)) (prec2, cp2)).
  { apply (sinv_loop p degree dim sg prec) with (st := (prec, cp0)); auto; [tauto| | |].
    - intros j J. apply Pr. unfold degree in *. lia.
    - pose proof (Nat.div_mod degree 2). lia.
    - unfold sinv. cbn [fst snd]. split; [auto|]. split; [unfold cp0; rewrite !upd_length; unfold degree; lia|]. split; [auto|]. intros; lia. }
  destruct I as (I1 & I2 & _ & I4). cbn [fst snd] in *.
  assert (Hd : (degree < 2 * S (degree / 2))%nat) by (pose proof (Nat.div_mod degree 2); pose proof (Nat.mod_upper_bound degree 2); lia).
  destruct (I4 i ltac:(lia) Hi) as (J1 & J2 & J3 & J4).
  set (e := map (fun k => alt k (nth (degree - k) cp2 0)) (seq 0 (S degree))) in *.
  destruct (cpf_steps_cong p degree dim prec2 e Hp degree 1 [nth 0 e 0] [0] (es, ss) ltac:(lia) eq_refl E5) as (K1 & _ & K3). cbn [fst] in *.
  split; [lia|]. match goal with |- (_ | nth i ?o 0 - _) => set (out := o) in * end.
  assert (C : forall j, (j <= degree)%nat -> (p ^ nth j prec2 0 | nth j out 0 - nth j cp2 0)).
  { intros j J. unfold out. rewrite nth_map_seq by lia. destruct (Nat.eqb_spec j degree) as [->|N]; [rewrite Z.sub_diag; apply Z.divide_0_r|].
    destruct (K3 (degree - j)%nat ltac:(lia)) as (_ & (c & K4)). replace (degree - (degree - j))%nat with j in K4 by lia.
    unfold e in K4. rewrite nth_map_seq in K4 by lia. replace (degree - (degree - j))%nat with j in K4 by lia.
    unfold alt in *. destruct (Nat.even (degree - j)); [exists c; lia|exists (- c); lia]. }
  destruct (C i ltac:(lia)) as (a & Ca), (C (degree - i)%nat ltac:(lia)) as (b & Cb), J4 as (c & J4).
  rewrite J1 in Ca. rewrite J2 in Cb.
  replace (nth i out 0) with (nth i cp2 0 + a * p ^ full_prec degree dim prec i) by lia.
  replace (nth (degree - i) out 0) with (nth (degree - i) cp2 0 + b * p ^ (full_prec degree dim prec i - half degree dim i)) by lia.
  pose proof (half_nonneg degree dim i) as HN.
  assert (X : p ^ full_prec degree dim prec i = p ^ (full_prec degree dim prec i - half degree dim i) * p ^ half degree dim i) by (rewrite <- Z.pow_add_r by lia; f_equal; lia).
  exists (c + a - sg * b). set (P1 := p ^ (_ - _)) in *. set (P2 := p ^ half _ _ _) in *. set (P3 := p ^ full_prec _ _ _ _) in *.
  transitivity ((nth i cp2 0 - sg * nth (degree - i) cp2 0 * P2) + a * P3 - sg * b * (P1 * P2)); [ring|]. rewrite J4, <- X. ring.
Qed.
