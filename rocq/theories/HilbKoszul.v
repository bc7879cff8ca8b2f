(** Koszul complexes, over an abstract family of commuting operators. *)
From Coq Require Import ZArith List Bool Lia.
From Verif Require Import Base.
Import ListNotations.
Open Scope Z_scope.

(** families of integers indexed by exponent vectors *)
Notation fn := (list Z -> Z) (only parsing).
Notation chn := (list bool -> list Z -> Z) (only parsing).

Record sub (S : fn -> Prop) : Prop := {
  s_0 : S (fun _ => 0);
  s_add : forall x y, S x -> S y -> S (fun w => x w + y w);
  s_opp : forall x, S x -> S (fun w => - x w);
  s_ext : forall x y, (forall w, x w = y w) -> S x -> S y }.

Record lin (f : fn -> fn) : Prop := {
  l_ext : forall x y, (forall w, x w = y w) -> forall w, f x w = f y w;
  l_add : forall x y w, f (fun w => x w + y w) w = f x w + f y w }.

Lemma l_0 f : lin f -> forall x, (forall w, x w = 0) -> forall w, f x w = 0.
Proof.
  intros L x H w. assert (E : f x w = f x w + f x w).
  { rewrite <- (l_add f L). apply (l_ext f L). intros; rewrite H; lia. } lia.
Qed.
Lemma l_opp f : lin f -> forall x w, f (fun w => - x w) w = - f x w.
Proof.
  intros L x w. assert (E : f (fun w => x w + - x w) w = 0) by (apply (l_0 f L); intros; lia).
  rewrite (l_add f L) in E. lia.
Qed.
Lemma l_sub f : lin f -> forall x y w, f (fun w => x w - y w) w = f x w - f y w.
Proof.
  intros L x y w. rewrite (l_ext f L _ (fun w => x w + - y w)) by (intros; lia). rewrite (l_add f L _ (fun w => - y w)), (l_opp f L). lia.
Qed.
Lemma l_sumf {A} f : lin f -> forall (F : A -> fn) l w, f (fun w => sumf (fun a => F a w) l) w = sumf (fun a => f (F a) w) l.
Proof.
  intros L F l. induction l as [|a l IH]; intros w.
  - rewrite sumf_nil. apply (l_0 f L). reflexivity.
  - rewrite sumf_cons, <- IH, <- (l_add f L). reflexivity.
Qed.
Lemma s_sub S : sub S -> forall x y, S x -> S y -> S (fun w => x w - y w).
Proof.
  intros H x y Hx Hy. apply (s_ext S H (fun w => x w + - y w)); [intros; lia|]. apply (s_add S H x (fun w => - y w)); auto. now apply (s_opp S H).
Qed.
Lemma s_sumf {A} S : sub S -> forall (F : A -> fn) l, (forall a, In a l -> S (F a)) -> S (fun w => sumf (fun a => F a w) l).
Proof.
  intros H F l. induction l as [|a l IH]; intros HF.
  - apply (s_ext S H (fun _ => 0)); [reflexivity|]. apply (s_0 S H).
  - apply (s_ext S H (fun w => F a w + sumf (fun a => F a w) l)); [reflexivity|].
    apply (s_add S H (F a)); [apply HF; left; auto|]. apply IH. intros; apply HF; right; auto.
Qed.
Lemma s_scal S : sub S -> forall k x, S x -> S (fun w => k * x w).
Proof.
  intros H k x Hx.
  assert (N : forall k : nat, S (fun w => Z.of_nat k * x w)).
  { induction k0 as [|k0 IH]; [apply (s_ext S H (fun _ => 0)); [intros; lia|]; apply (s_0 S H)|].
    apply (s_ext S H (fun w => x w + Z.of_nat k0 * x w)); [intros; lia|]. now apply (s_add S H x). }
  destruct (Z_le_gt_dec 0 k).
  - rewrite <- (Z2Nat.id k) by lia. apply N.
  - apply (s_ext S H (fun w => - (Z.of_nat (Z.to_nat (- k)) * x w))); [intros; rewrite Z2Nat.id; lia|]. now apply (s_opp S H).
Qed.

Fixpoint cnt (J : list bool) : Z := match J with [] => 0 | b :: J => (if b then 1 else 0) + cnt J end.
Lemma cnt_bound J : 0 <= cnt J <= Z.of_nat (length J).
Proof. induction J as [|b J IH]; cbn [cnt length]; [lia|]. destruct b; lia. Qed.

(** the Koszul differential for the operators fs; component J of a chain
    belongs to the wedge product of the generators marked in J *)
Fixpoint dK (fs : list (fn -> fn)) (c : chn) (J : list bool) : fn :=
  match fs, J with
  | f :: fs, false :: J => fun w => dK fs (fun J => c (false :: J)) J w + f (c (true :: J)) w
  | f :: fs, true :: J => fun w => - dK fs (fun J => c (true :: J)) J w
  | _, _ => fun _ => 0
  end.

(** multiplication by the j-th generator *)
Fixpoint hK (j : nat) (c : chn) (J : list bool) : fn :=
  match j, J with
  | O, true :: J => c (false :: J)
  | S j, false :: J => hK j (fun J => c (false :: J)) J
  | S j, true :: J => fun w => - hK j (fun J => c (true :: J)) J w
  | _, _ => fun _ => 0
  end.

Definition hdeg (i : Z) (c : chn) : Prop := forall J, cnt J <> i -> forall w, c J w = 0.

Lemma hdeg_false i c : hdeg i c -> hdeg i (fun J => c (false :: J)).
Proof. intros H J HJ. apply H. cbn [cnt]. lia. Qed.
Lemma hdeg_true i c : hdeg i c -> hdeg (i - 1) (fun J => c (true :: J)).
Proof. intros H J HJ. apply H. cbn [cnt]. lia. Qed.

Section K.
  Variable G : fn -> Prop.
  Variable Op : (fn -> fn) -> Prop.
  Hypothesis HG : sub G.
  Hypothesis Olin : forall f, Op f -> lin f.
  Hypothesis Ocomm : forall f g, Op f -> Op g -> forall x w, f (g x) w = g (f x) w.
  Hypothesis OG : forall f x, Op f -> G x -> G (f x).

  Lemma dK_ext fs : Forall Op fs -> forall c c' J, (forall J w, length J = length fs -> c J w = c' J w) -> length J = length fs -> forall w, dK fs c J w = dK fs c' J w.
  Proof.
    induction 1 as [|f fs Hf _ IH]; intros c c' [|[] J] H HJ w; try discriminate; [reflexivity| |]; injection HJ as HJ; cbn [dK].
    - f_equal. apply IH; auto. intros J' w' HJ'. apply H. cbn [length]; congruence.
    - f_equal. { apply IH; auto. intros J' w' HJ'. apply H. cbn [length]; congruence. } apply (l_ext f (Olin f Hf)). intros; apply H. cbn [length]; congruence.
  Qed.
  Lemma dK_add fs : Forall Op fs -> forall c c' J w, dK fs (fun J w => c J w + c' J w) J w = dK fs c J w + dK fs c' J w.
  Proof.
    induction 1 as [|f fs Hf _ IH]; intros c c' [|[] J] w; try reflexivity; cbn [dK].
    - rewrite (IH (fun J => c (true :: J)) (fun J => c' (true :: J))). lia.
    - rewrite (IH (fun J => c (false :: J)) (fun J => c' (false :: J))).
      rewrite (l_add f (Olin f Hf)). lia.
  Qed.
  Lemma dK_0 fs : Forall Op fs -> forall c J, (forall J w, length J = length fs -> c J w = 0) -> length J = length fs -> forall w, dK fs c J w = 0.
  Proof.
    intros HF c J H HJ w. assert (E := dK_add fs HF c c J w).
    rewrite (dK_ext fs HF _ c J) in E; auto; [lia|]. intros J' w' HJ'. rewrite !H by auto. lia.
  Qed.
  Lemma dK_opp fs : Forall Op fs -> forall c J w, dK fs (fun J w => - c J w) J w = - dK fs c J w.
  Proof.
    induction 1 as [|f fs Hf _ IH]; intros c [|[] J] w; try reflexivity; cbn [dK].
    - rewrite (IH (fun J => c (true :: J))). lia.
    - rewrite (IH (fun J => c (false :: J))). rewrite (l_opp f (Olin f Hf)). lia.
  Qed.
  Lemma dK_sub fs : Forall Op fs -> forall c c' J w, dK fs (fun J w => c J w - c' J w) J w = dK fs c J w - dK fs c' J w.
  Proof.
    induction 1 as [|f fs Hf _ IH]; intros c c' [|[] J] w; try reflexivity; cbn [dK].
    - rewrite (IH (fun J => c (true :: J)) (fun J => c' (true :: J))). lia.
    - rewrite (IH (fun J => c (false :: J)) (fun J => c' (false :: J))). rewrite (l_sub f (Olin f Hf)). lia.
  Qed.
  Lemma dK_sumf {A} fs : Forall Op fs -> forall (F : A -> chn) l J, length J = length fs -> forall w,
    dK fs (fun J w => sumf (fun a => F a J w) l) J w = sumf (fun a => dK fs (F a) J w) l.
  Proof.
    intros HF F l J HJ. induction l as [|a l IH]; intros w.
    - rewrite sumf_nil. apply dK_0; auto.
    - rewrite sumf_cons, <- IH, <- dK_add by auto. apply dK_ext; auto.
  Qed.
  Lemma dK_comm fs g : Forall Op fs -> Op g -> forall c J w, dK fs (fun J => g (c J)) J w = g (dK fs c J) w.
  Proof.
    intros HF Hg. induction HF as [|f fs Hf _ IH]; intros c [|[] J] w; cbn [dK]; try (symmetry; apply (l_0 g (Olin g Hg)); reflexivity).
    - rewrite (l_opp g (Olin g Hg)). now rewrite (IH (fun J => c (true :: J))).
    - rewrite (l_add g (Olin g Hg)). rewrite (IH (fun J => c (false :: J))). f_equal. now apply Ocomm.
  Qed.
  Lemma dK_dK fs : Forall Op fs -> forall c J, length J = length fs -> forall w, dK fs (dK fs c) J w = 0.
  Proof.
    induction 1 as [|f fs Hf HF IH]; intros c [|[] J] HJ w; try discriminate; try reflexivity; injection HJ as HJ; cbn [dK].
    - rewrite (dK_opp fs HF (dK fs (fun J => c (true :: J)))). rewrite (IH (fun J => c (true :: J))) by auto. lia.
    - rewrite (l_opp f (Olin f Hf)). rewrite (dK_add fs HF (dK fs (fun J => c (false :: J))) (fun J => f (c (true :: J)))).
      rewrite (IH (fun J => c (false :: J))) by auto. rewrite (dK_comm fs f HF Hf (fun J => c (true :: J))). lia.
  Qed.
  Lemma dK_in S fs : sub S -> (forall f x, Op f -> S x -> S (f x)) -> Forall Op fs -> forall c J, (forall J, length J = length fs -> S (c J)) -> length J = length fs -> S (dK fs c J).
  Proof.
    intros HS OS. induction 1 as [|f fs Hf HF IH]; intros c [|[] J] H HJ; try discriminate; try (apply (s_0 S HS)); injection HJ as HJ; cbn [dK].
    - apply (s_opp S HS). apply IH; auto. intros; apply H. cbn [length]; congruence.
    - apply (s_add S HS); [apply IH; auto|apply OS; auto; apply H]; [intros; apply H|]; cbn [length]; congruence.
  Qed.
  Lemma dK_G fs : Forall Op fs -> forall c J, (forall J, G (c J)) -> G (dK fs c J).
  Proof.
    induction 1 as [|f fs Hf HF IH]; intros c [|[] J] H; try (apply (s_0 G HG)); cbn [dK].
    - apply (s_opp G HG). apply (IH (fun J => c (true :: J))); auto.
    - apply (s_add G HG); [apply (IH (fun J => c (false :: J)))|apply OG]; auto.
  Qed.
  Lemma dK_deg fs : Forall Op fs -> forall i c, hdeg i c -> hdeg (i - 1) (dK fs c).
  Proof.
    induction 1 as [|f fs Hf HF IH]; intros i c H [|[] J] HJ w; try reflexivity; cbn [dK cnt] in *.
    - rewrite (IH (i - 1) (fun J => c (true :: J))); [reflexivity|now apply hdeg_true|lia].
    - rewrite (IH i (fun J => c (false :: J))); [|now apply hdeg_false|lia]. rewrite (l_0 f (Olin f Hf)); [reflexivity|]. apply H. cbn [cnt]. lia.
  Qed.

  Lemma hK_add j : forall c c' J w, hK j (fun J w => c J w + c' J w) J w = hK j c J w + hK j c' J w.
  Proof.
    induction j as [|j IH]; intros c c' [|[] J] w; try reflexivity; cbn [hK].
    - rewrite (IH (fun J => c (true :: J)) (fun J => c' (true :: J))). lia.
    - apply (IH (fun J => c (false :: J)) (fun J => c' (false :: J))).
  Qed.
  Lemma hK_opp j : forall c J w, hK j (fun J w => - c J w) J w = - hK j c J w.
  Proof.
    induction j as [|j IH]; intros c [|[] J] w; try reflexivity; cbn [hK].
    - now rewrite (IH (fun J => c (true :: J))).
    - apply (IH (fun J => c (false :: J))).
  Qed.
  Lemma hK_comm g j : Op g -> forall c J w, hK j (fun J => g (c J)) J w = g (hK j c J) w.
  Proof.
    intros Hg. induction j as [|j IH]; intros c [|[] J] w; cbn [hK]; try (symmetry; apply (l_0 g (Olin g Hg)); reflexivity); try reflexivity.
    - rewrite (l_opp g (Olin g Hg)). now rewrite (IH (fun J => c (true :: J))).
    - apply (IH (fun J => c (false :: J))).
  Qed.
  Lemma hK_deg j : forall i c, hdeg i c -> hdeg (i + 1) (hK j c).
  Proof.
    induction j as [|j IH]; intros i c H [|[] J] HJ w; try reflexivity; cbn [hK cnt] in *.
    - apply H. cbn [cnt]. lia.
    - rewrite (IH (i - 1) (fun J => c (true :: J))); [reflexivity|now apply hdeg_true|lia].
    - rewrite (IH i (fun J => c (false :: J))); [reflexivity|now apply hdeg_false|lia].
  Qed.
  Lemma hK_in S m j : sub S -> forall c J, (forall J, length J = m -> S (c J)) -> length J = m -> S (hK j c J).
  Proof.
    intros HS. revert m. induction j as [|j IH]; intros m c [|[] J] H HJ; try (apply (s_0 S HS)); cbn [hK].
    - apply H. rewrite <- HJ. reflexivity.
    - apply (s_opp S HS). apply (IH (length J)); auto. intros J' HJ'. apply H. rewrite <- HJ. cbn [length]. congruence.
    - apply (IH (length J)); auto. intros J' HJ'. apply H. rewrite <- HJ. cbn [length]. congruence.
  Qed.
  Lemma hK_G j : forall c J, (forall J, G (c J)) -> G (hK j c J).
  Proof. intros c J H. apply (hK_in G (length J)); auto. Qed.

  Lemma homotopy fs : Forall Op fs -> forall j c J, (j < length fs)%nat -> length J = length fs -> forall w,
    dK fs (hK j c) J w + hK j (dK fs c) J w = nth j fs (fun x => x) (c J) w.
  Proof.
    induction 1 as [|f fs Hf HF IH]; intros [|j] c [|[] J] Hj HJ w; try discriminate; cbn [length] in Hj; try lia; injection HJ as HJ; cbn [dK hK nth].
    - lia.
    - rewrite (dK_0 fs HF) by auto. lia.
    - rewrite (dK_opp fs HF (hK j (fun J => c (true :: J)))). rewrite (hK_opp j (dK fs (fun J => c (true :: J)))).
      rewrite <- (IH j (fun J => c (true :: J)) J) by (auto; lia). lia.
    - rewrite (l_opp f (Olin f Hf)). rewrite (hK_add j (dK fs (fun J => c (false :: J))) (fun J => f (c (true :: J)))).
      rewrite (hK_comm f j Hf (fun J => c (true :: J))).
      change (dK fs (fun J0 => hK j (fun J1 => c (false :: J1)) J0) J w) with (dK fs (hK j (fun J1 => c (false :: J1))) J w).
      rewrite <- (IH j (fun J => c (false :: J)) J) by (auto; lia). lia.
  Qed.

  (** S is a submodule *)
  Record good (S : fn -> Prop) : Prop := { g_sub : sub S; g_op : forall f x, Op f -> S x -> S (f x) }.

  Definition quot (S : fn -> Prop) (a : fn -> fn) : fn -> Prop := fun x => exists y, G y /\ S (fun w => x w - a y w).

  Lemma quot_good S a : good S -> Op a -> good (quot S a).
  Proof.
    intros [HS OS] Ha. split; [split|].
    - exists (fun _ => 0). split; [apply (s_0 G HG)|]. apply (s_ext S HS (fun _ => 0)); [|apply (s_0 S HS)].
      intros. rewrite (l_0 a (Olin a Ha)) by auto. lia.
    - intros x y (x' & G1 & S1) (y' & G2 & S2). exists (fun w => x' w + y' w). split; [now apply (s_add G HG)|].
      eapply (s_ext S HS); [|apply (s_add S HS _ _ S1 S2)]. intros. cbn beta. rewrite (l_add a (Olin a Ha)). lia.
    - intros x (x' & G1 & S1). exists (fun w => - x' w). split; [now apply (s_opp G HG)|].
      eapply (s_ext S HS); [|apply (s_opp S HS _ S1)]. intros. cbn beta. rewrite (l_opp a (Olin a Ha)). lia.
    - intros x y E (x' & G1 & S1). exists x'. split; auto. eapply (s_ext S HS); [|apply S1]. intros. cbn beta. now rewrite E.
    - intros f x Hf (x' & G1 & S1). exists (f x'). split; [now apply OG|].
      eapply (s_ext S HS); [|apply (OS f _ Hf S1)]. intros. cbn beta. rewrite (l_sub f (Olin f Hf) x (a x')). f_equal. now apply Ocomm.
  Qed.

  Fixpoint regs (S : fn -> Prop) (l : list (fn -> fn)) : Prop :=
    match l with
    | [] => True
    | a :: l => (forall y, G y -> S (a y) -> S y) /\ regs (quot S a) l
    end.

  Definition boundary (S : fn -> Prop) (fs : list (fn -> fn)) (i : Z) (c : chn) : Prop :=
    exists u : chn, (forall J, G (u J)) /\ hdeg (i + 1) u /\
      forall J, length J = length fs -> S (fun w => c J w - dK fs u J w).

  Definition vanish (S : fn -> Prop) (fs : list (fn -> fn)) (b : Z) : Prop := forall i (c : chn),
    b < i -> (forall J, G (c J)) -> hdeg i c -> (forall J, length J = length fs -> S (dK fs c J)) -> boundary S fs i c.

  (** multiplication by a is, modulo S, a combination of the operators fs *)
  Definition killed (S : fn -> Prop) (fs : list (fn -> fn)) (a : fn -> fn) : Prop :=
    exists g : nat -> fn -> fn, (forall j, Op (g j)) /\
      forall x, G x -> S (fun w => a x w - sumf (fun j => g j (nth j fs (fun x => x) x) w) (seq 0 (length fs))).

  Lemma blist_choice (P : list bool -> fn -> Prop) m : (forall J, length J = m -> exists x, G x /\ P J x) ->
    exists u : chn, (forall J, G (u J)) /\ forall J, length J = m -> P J (u J).
  Proof.
    revert P. induction m as [|m IH]; intros P H.
    - destruct (H [] eq_refl) as (x & Gx & Px). exists (fun _ => x). split; auto. intros [|] HJ; [auto|discriminate].
    - destruct (IH (fun J => P (true :: J))) as (u1 & A1 & B1). { intros J HJ. apply H. cbn [length]; congruence. }
      destruct (IH (fun J => P (false :: J))) as (u2 & A2 & B2). { intros J HJ. apply H. cbn [length]; congruence. }
      exists (fun J => match J with [] => fun _ => 0 | true :: J => u1 J | false :: J => u2 J end). split.
      + intros [|[] J]; auto. apply (s_0 G HG).
      + intros [|[] J] HJ; try discriminate; injection HJ as HJ; auto.
  Qed.

  Theorem depth fs : Forall Op fs -> forall al S, good S -> Forall Op al -> Forall (killed S fs) al -> regs S al ->
    vanish S fs (Z.of_nat (length fs) - Z.of_nat (length al)).
  Proof.
    intros HF al. induction al as [|a al IH]; intros S HS HA HK HR i c Hi Gc Dc Zc.
    - exists (fun _ _ => 0). split; [intros; apply (s_0 G HG)|]. split; [intros J _ w; reflexivity|]. intros J HJ.
      apply (s_ext S (g_sub S HS) (fun _ => 0)); [|apply (s_0 S (g_sub S HS))]. intros w.
      rewrite (dK_0 fs HF) by auto. rewrite Dc; [lia|]. pose proof (cnt_bound J). cbn [length] in Hi. rewrite HJ in *. lia.
    - inversion HA as [|? ? Ha HA']; subst. inversion HK as [|? ? (g & Hg & Kg) HK']; subst. destruct HR as [Rg HR].
      destruct HS as [HS OS]. set (m := length fs) in *.
      set (W := (fun J w => sumf (fun j => g j (hK j c J) w) (seq 0 m)) : chn).
      assert (GW : forall J, G (W J)).
      { intros J. apply (s_sumf G HG (fun j => g j (hK j c J))). intros j _. apply OG; auto. now apply hK_G. }
      assert (DW : hdeg (i + 1) W).
      { intros J HJ w. apply sumf_zero. intros j _. apply (l_0 _ (Olin _ (Hg j))). intros w0; now apply (hK_deg j i c). }
      assert (EW : forall J, length J = m -> S (fun w => dK fs W J w - a (c J) w)).
      { intros J HJ.
        assert (T1 : S (fun w => sumf (fun j => g j (hK j (dK fs c) J) w) (seq 0 m))).
        { apply (s_sumf S HS (fun j => g j (hK j (dK fs c) J))). intros j _. apply OS; auto. apply (hK_in S m); auto. }
        pose proof (s_add S HS _ _ T1 (Kg (c J) (Gc J))) as T2.
        eapply (s_ext S HS); [|apply (s_opp S HS _ T2)]. intros w. cbn beta. unfold W.
        rewrite (dK_sumf fs HF (fun j J => g j (hK j c J))) by auto.
        assert (E : sumf (fun j => dK fs (fun J => g j (hK j c J)) J w) (seq 0 m) =
           sumf (fun j => g j (nth j fs (fun x => x) (c J)) w) (seq 0 m) + -1 * sumf (fun j => g j (hK j (dK fs c) J) w) (seq 0 m)).
        { rewrite <- sumf_scal, <- sumf_plus. apply sumf_ext. intros j Hj. apply in_seq in Hj.
          rewrite (dK_comm fs (g j) HF (Hg j) (hK j c)).
          transitivity (g j (fun w => nth j fs (fun x => x) (c J) w - hK j (dK fs c) J w) w).
          { apply (l_ext _ (Olin _ (Hg j))). intros w'. rewrite <- (homotopy fs HF j c J); auto; [lia|lia]. }
          rewrite (l_sub _ (Olin _ (Hg j))). lia. }
        rewrite E. unfold m. lia. }
      destruct (IH (quot S a) (quot_good S a (Build_good S HS OS) Ha) HA') with (i := i + 1) (c := W) as (v & Gv & Dv & Bv); auto.
      { eapply Forall_impl; [|apply HK']. intros b (g' & H1 & H2). exists g'. split; auto. intros x Gx.
        exists (fun _ => 0). split; [apply (s_0 G HG)|]. eapply (s_ext S HS); [|apply (H2 x Gx)]. intros w. cbn beta.
        rewrite (l_0 a (Olin a Ha) (fun _ => 0)) by auto. lia. }
      { cbn [length] in Hi. lia. }
      { intros J HJ. exists (c J). split; auto. }
      destruct (blist_choice (fun J y => S (fun w => W J w - dK fs v J w - a y w)) m) as (u & Gu & Hu).
      { intros J HJ. destruct (Bv J HJ) as (y & H1 & H2). exists y. auto. }
      set (u' := (fun J => if Z.eq_dec (cnt J) (i + 1) then u J else fun _ => 0) : chn).
      assert (Gu' : forall J, G (u' J)). { intros J. unfold u'. destruct (Z.eq_dec _ _); auto. apply (s_0 G HG). }
      assert (Hu' : forall J, length J = m -> S (fun w => W J w - dK fs v J w - a (u' J) w)).
      { intros J HJ. unfold u'. destruct (Z.eq_dec _ _) as [|N]; auto. apply (s_ext S HS (fun _ => 0)); [|apply (s_0 S HS)].
        intros w. rewrite (DW J N). rewrite (dK_deg fs HF _ v Dv J) by lia. rewrite (l_0 a (Olin a Ha)) by auto. lia. }
      exists u'. split; auto. split. { intros J N w. unfold u'. destruct (Z.eq_dec _ _); [contradiction|reflexivity]. }
      intros J HJ. apply Rg.
      { apply (s_sub G HG); auto. now apply dK_G. }
      pose proof (dK_in S fs HS OS HF _ J Hu' HJ) as T1.
      pose proof (s_sub S HS _ _ T1 (EW J HJ)) as T2. eapply (s_ext S HS); [|apply T2]. intros w. cbn beta.
      rewrite (dK_sub fs HF (fun J w => W J w - dK fs v J w) (fun J => a (u' J))). rewrite (dK_sub fs HF W (dK fs v)).
      rewrite (dK_dK fs HF v) by auto. rewrite (dK_comm fs a HF Ha u'). rewrite (l_sub a (Olin a Ha)). lia.
  Qed.
End K.
