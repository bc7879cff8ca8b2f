(** Functionals on the forms of all pole orders that kill exact forms: they
    exist with arbitrary values on the basis. *)
From Coq Require Import ZArith List Bool Lia Znumtheory.
From Verif Require Import Base VecModel VecSpec ToolsModel ToolsSpec ToolsProofs DRModel DRSpec DRProofs MatProofs HilbKoszul HilbPoly HilbTop HilbDim HilbInit UniqKoszul.
Import ListNotations.
Open Scope Z_scope.

(** value of phi on the form x of degree t *)
Definition pev (m : nat) (phi : list Z -> Z) (t : Z) (x : list Z -> Z) : Z := sumf (fun v => x v * phi v) (mons m t).

Lemma pev_cong m q phi t x y : (forall w, cong q (x w) (y w)) -> cong q (pev m phi t x) (pev m phi t y).
Proof. intros H. apply cong_sumf. intros v _. apply cong_mul; [auto|apply cong_refl]. Qed.
Lemma pev_ext m phi t x y : (forall w, x w = y w) -> pev m phi t x = pev m phi t y.
Proof. intros H. apply sumf_ext. intros v _. now rewrite H. Qed.
Lemma pev_sub m phi t x y : pev m phi t (fun w => x w - y w) = pev m phi t x - pev m phi t y.
Proof. unfold pev. enough (E : sumf (fun v => x v * phi v) (mons m t) = sumf (fun v => (x v - y v) * phi v) (mons m t) + sumf (fun v => y v * phi v) (mons m t)) by lia.
  rewrite <- sumf_plus. apply sumf_ext. intros; ring. Qed.
Lemma pev_sum {A} m phi t (c : A -> Z) (x : A -> list Z -> Z) l :
  pev m phi t (fun v => sumf (fun a => c a * x a v) l) = sumf (fun a => c a * pev m phi t (x a)) l.
Proof.
  unfold pev. rewrite (sumf_ext (fun v => sumf (fun a => c a * x a v) l * phi v) (fun v => sumf (fun a => c a * (x a v * phi v)) l)).
  2:{ intros v _. rewrite <- sumf_scal_r. apply sumf_ext. intros; ring. }
  rewrite (sumf_swap (fun v a => c a * (x a v * phi v)) (mons m t)). apply sumf_ext. intros a _. now rewrite sumf_scal.
Qed.

Section Fun.
  Variables (n : nat) (d p : Z) (e : nat) (f : poly).
  Hypothesis W : wf_poly n d f.
  Hypothesis Hd : 2 <= d.
  Hypothesis Pp : prime p.
  Let m := S n.
  Notation q := (p ^ Z.of_nat e).
  Hypothesis V : vanishH m p (d - 1) (Js n f).

  Lemma p2 : 2 <= p.
  Proof using Pp. now apply prime_ge_2. Qed.
  Lemma Vpow j : vanishH m (p ^ Z.of_nat j) (d - 1) (Js n f).
  Proof using V W Pp Hd. apply vanish_power; [apply p2|lia|now apply Js_forms|auto]. Qed.

  Notation Fsum := (Fsum n f).
  Notation Dsum := (Dsum n).
  Notation vform := (vform n).

  Lemma Fsum_sum {T} (c : T -> Z) (A : T -> nat -> list Z -> Z) l w :
    Fsum (fun i v => sumf (fun a => c a * A a i v) l) w = sumf (fun a => c a * Fsum (A a) w) l.
  Proof.
    unfold UniqKoszul.Fsum. rewrite (sumf_ext (fun i => Fx f i (fun v => sumf (fun a => c a * A a i v) l) w) (fun i => sumf (fun a => c a * Fx f i (A a i) w) l)).
    2:{ intros i _. unfold Fx. rewrite (l_sumf _ (act_lin _) (fun a v => c a * A a i v)). apply sumf_ext. intros a _. apply (l_scal _ (act_lin _)). }
    rewrite (sumf_swap (fun i a => c a * Fx f i (A a i) w)). apply sumf_ext. intros a _. now rewrite sumf_scal.
  Qed.
  Lemma Dsum_sum {T} (c : T -> Z) (A : T -> nat -> list Z -> Z) l w :
    Dsum (fun i v => sumf (fun a => c a * A a i v) l) w = sumf (fun a => c a * Dsum (A a) w) l.
  Proof.
    unfold UniqKoszul.Dsum. rewrite (sumf_ext (fun i => Dx n i (fun v => sumf (fun a => c a * A a i v) l) w) (fun i => sumf (fun a => c a * Dx n i (A a i) w) l)).
    2:{ intros i _. rewrite (l_sumf _ (Dx_lin n i) (fun a v => c a * A a i v)). apply sumf_ext. intros a _. apply (l_scal _ (Dx_lin n i)). }
    rewrite (sumf_swap (fun i a => c a * Dx n i (A a i) w)). apply sumf_ext. intros a _. now rewrite sumf_scal.
  Qed.
  Lemma Fsum_sub A B w : Fsum (fun i v => A i v - B i v) w = Fsum A w - Fsum B w.
  Proof.
    unfold UniqKoszul.Fsum. enough (E : sumf (fun i => Fx f i (A i) w) (seq 0 (S n)) = sumf (fun i => Fx f i (fun v => A i v - B i v) w) (seq 0 (S n)) + sumf (fun i => Fx f i (B i) w) (seq 0 (S n))) by lia.
    rewrite <- sumf_plus. apply sumf_ext. intros i _. unfold Fx. rewrite (l_sub _ (act_lin _) (A i) (B i)). lia.
  Qed.
  Lemma Dsum_sub A B w : Dsum (fun i v => A i v - B i v) w = Dsum A w - Dsum B w.
  Proof.
    unfold UniqKoszul.Dsum. enough (E : sumf (fun i => Dx n i (A i) w) (seq 0 (S n)) = sumf (fun i => Dx n i (fun v => A i v - B i v) w) (seq 0 (S n)) + sumf (fun i => Dx n i (B i) w) (seq 0 (S n))) by lia.
    rewrite <- sumf_plus. apply sumf_ext. intros i _. rewrite (l_sub _ (Dx_lin n i) (A i) (B i)). lia.
  Qed.
  Lemma vform_sub t A B : vform t A -> vform t B -> vform t (fun i v => A i v - B i v).
  Proof.
    intros HA HB i Hi. destruct (HA i Hi) as (A1 & A2), (HB i Hi) as (B1 & B2). split; [now apply (s_sub _ (Gs_sub (S n)))|].
    intros w N. rewrite A2, B2 by auto. lia.
  Qed.
  Lemma vform_sum {T} t (c : T -> Z) (A : T -> nat -> list Z -> Z) l : (forall a, In a l -> vform t (A a)) -> vform t (fun i v => sumf (fun a => c a * A a i v) l).
  Proof.
    intros H i Hi. split.
    - apply (s_sumf _ (Gs_sub (S n)) (fun a v => c a * A a i v)). intros a Ha. apply (s_scal _ (Gs_sub (S n))). now apply H.
    - intros w N. apply sumf_zero. intros a Ha. rewrite (proj2 (H a Ha i Hi)) by auto. lia.
  Qed.
  Lemma Fsum_form t A : vform (t - (d - 1)) A -> Gs m (Fsum A) /\ homog t (Fsum A).
  Proof using W.
    intros HA. pose proof (Js_forms n d f W) as JF. rewrite Forall_forall in JF.
    assert (JI : forall i, (i < S n)%nat -> form m (d - 1) (dxP f i)).
    { intros i Hi. apply JF. unfold Js. apply in_map. apply in_seq. lia. }
    split.
    - apply (s_sumf _ (Gs_sub m) (fun i => Fx f i (A i))). intros i Hi. apply in_seq in Hi. apply OpP_G; [|apply HA; lia].
      apply (form_Op m (d - 1)). apply JI. lia.
    - intros w N. apply sumf_zero. intros i Hi. apply in_seq in Hi. unfold Fx.
      rewrite (act_homog m (d - 1) (dxP f i) (t - (d - 1)) (A i)); auto; [apply JI; lia|apply HA; lia|apply HA; lia|lia].
  Qed.

  (** forms that are independent modulo p and the Jacobian ideal are independent modulo its powers *)
  Lemma ind_pow t L j : qbasis m p (ideal m p (Js n f)) t L -> forall A l, vform (t - (d - 1)) A ->
    (forall w, cong (p ^ Z.of_nat j) (Fsum A w + lincomb l L w) 0) -> forall i, (i < length L)%nat -> cong (p ^ Z.of_nat j) (l i) 0.
  Proof using V W Pp Hd.
    intros Q. pose proof p2 as P2. induction j as [|j IH]; intros A l HA HZ i Hi.
    - cbn. exists (l i - 0). lia.
    - set (r := p ^ Z.of_nat j) in *. assert (R0 : 0 < r) by (apply Z.pow_pos_nonneg; lia).
      assert (Er : p ^ Z.of_nat (S j) = p * r) by (unfold r; rewrite Nat2Z.inj_succ, Z.pow_succ_r; lia). rewrite Er in *.
      assert (D1 : (r | p * r)) by (exists p; ring).
      assert (Hl : forall i, (i < length L)%nat -> cong r (l i) 0).
      { apply (IH A l HA). intros w. apply (cong_divide (p * r)); auto. }
      set (l' := fun i => l i / r).
      assert (El : forall i, (i < length L)%nat -> l i = r * l' i).
      { intros k Hk. unfold l'. destruct (Hl k Hk) as (z & Hz). rewrite Z.sub_0_r in Hz. rewrite Hz, Z.div_mul by lia. ring. }
      assert (EL : forall w, lincomb l L w = r * lincomb l' L w).
      { intros w. unfold lincomb. rewrite <- sumf_scal. apply sumf_ext. intros k Hk. apply in_seq in Hk. rewrite El by lia. ring. }
      destruct (syz_lift n d f W Hd r (Vpow j) (t - (d - 1)) A R0 HA) as (A' & HA' & EA).
      { intros w. destruct (HZ w) as (z & Hz). exists (p * z - lincomb l' L w). rewrite EL in Hz. lia. }
      assert (HI : ideal m p (Js n f) (lincomb l' L)).
      { apply (ideal_chain m p (d - 1) _ (Js_forms n d f W)). set (A2 := fun i w => if Nat.ltb i m then - A' i w else 0).
        exists (mk1 A2). split; [|split; [apply mk1_hdeg|]].
        - intros J. apply mk1_in; [apply (s_0 _ (Gs_sub m))|]. intros k _. unfold A2. destruct (Nat.ltb_spec k m); [|apply (s_0 _ (Gs_sub m))].
          apply (s_opp _ (Gs_sub m)). apply HA'. exact H.
        - rewrite Js_length, <- (Fs_acts n f). intros w. rewrite (Fsum_first n f).
          rewrite (Fsum_ext n f _ (fun i w => 0 - A' i w)).
          2:{ intros k w' Hk. rewrite mk1_one by auto. unfold A2. destruct (Nat.ltb_spec k m) as [H|H]; [lia|]. unfold m in H; lia. }
          rewrite (Fsum_sub (fun _ _ => 0)). destruct (HZ w) as (z & Hz). exists z. rewrite EA, EL in Hz.
          assert (E0 : Fsum (fun _ _ => 0) w = 0) by (apply sumf_zero; intros; apply (l_0 _ (act_lin _)); auto). rewrite E0.
          apply (Z.mul_reg_l _ _ r); [lia|]. lia. }
      pose proof (qb_ind _ _ _ _ _ Q l' HI i Hi) as (z & Hz). exists z. rewrite (El i Hi). rewrite Z.sub_0_r in *. rewrite Hz. ring.
  Qed.

  (** degree of the numerators of pole order k *)
  Definition dg (k : nat) : Z := d * Z.of_nat k - (Z.of_nat n + 1).

  (** a decomposition of every form of pole order k > 0 modulo q: x^w = sum f_i hA_i + basis *)
  Variable bs : nat -> list (list Z).
  Variable hA : nat -> list Z -> nat -> list Z -> Z.
  Variable cc : nat -> list Z -> nat -> Z.
  Notation LB k := (map dmon (bs k)).
  Hypothesis Hbs : forall k, qbasis m p (ideal m p (Js n f)) (dg (S k)) (LB (S k)).
  Hypothesis HhA : forall k w, is_tuple m (dg (S k)) w -> vform (dg (S k) - (d - 1)) (hA (S k) w).
  Hypothesis Hspan : forall k w v, is_tuple m (dg (S k)) w -> cong q (dmon w v) (Fsum (hA (S k) w) v + lincomb (cc (S k) w) (LB (S k)) v).
  (** the wanted values on the basis *)
  Variable psi : nat -> list Z -> Z.

  Definition bval (k : nat) (c : nat -> Z) : Z := sumf (fun i => c i * psi k (nth i (bs k) [])) (seq 0 (length (bs k))).

  Fixpoint phin (k : nat) (w : list Z) : Z :=
    match k with
    | O => 0
    | S k' => pev m (phin k') (dg k') (Dsum (hA k w)) + bval k (cc k w)
    end.

  Definition exact_at (k : nat) : Prop := forall A, vform (dg (S k) - (d - 1)) A ->
    cong q (pev m (phin (S k)) (dg (S k)) (Fsum A)) (pev m (phin k) (dg k) (Dsum A)).

  Lemma key k : match k with O => True | S j => exact_at j end -> forall A l, vform (dg (S k) - (d - 1)) A ->
    (forall w, cong q (Fsum A w + lincomb l (LB (S k)) w) 0) ->
    (forall i, (i < length (bs (S k)))%nat -> cong q (l i) 0) /\ cong q (pev m (phin k) (dg k) (Dsum A)) 0.
  Proof using V W Pp Hd Hbs.
    intros HE A l HA HZ.
    assert (Hl : forall i, (i < length (bs (S k)))%nat -> cong q (l i) 0).
    { intros i Hi. apply (ind_pow (dg (S k)) (LB (S k)) e (Hbs k) A l HA HZ). now rewrite map_length. }
    split; auto. destruct k as [|j].
    - apply cong_of_eq. apply sumf_zero. intros v _. cbn [phin]. lia.
    - assert (HF : forall w, cong q (Fsum A w) 0).
      { intros w. replace (Fsum A w) with (Fsum A w + lincomb l (LB (S (S j))) w - lincomb l (LB (S (S j))) w) by lia. replace 0 with (0 - 0) by lia. apply cong_sub; auto.
        unfold lincomb. rewrite map_length. replace 0 with (sumf (fun _ : nat => 0) (seq 0 (length (bs (S (S j)))))) by (now apply sumf_zero). apply cong_sumf.
        intros i Hi. apply in_seq in Hi. replace 0 with (0 * nth i (LB (S (S j))) zfn w) by lia. apply cong_mul; [apply Hl; lia|apply cong_refl]. }
      destruct (syzygy n d f W q (Vpow e) _ A HA HF) as (B & HB & E1 & E2).
      apply cong_trans with (pev m (phin (S j)) (dg (S j)) (Fsum B)); [apply pev_cong; intros w; apply cong_sym, E1|].
      eapply cong_trans; [apply HE|].
      + replace (dg (S j) - (d - 1)) with (dg (S (S j)) - (d - 1) - d) by (unfold dg; lia). exact HB.
      + rewrite (pev_ext _ _ _ _ (fun _ => 0) E2). apply cong_of_eq, sumf_zero. intros; lia.
  Qed.

  Lemma expand t x : Gs m x -> homog t x -> forall v, x v = sumf (fun w => x w * dmon w v) (mons m t).
  Proof.
    intros Gx Hx v. rewrite (sumf_ext _ (fun w => if list_eq_dec Z.eq_dec v w then x w else 0)).
    2:{ intros w _. unfold dmon. destruct (list_eq_dec _ _ _); lia. }
    rewrite (sumf_pick (list_eq_dec Z.eq_dec) x v) by apply mons_NoDup. destruct (in_dec _ _ _) as [|N]; auto.
    destruct (Z.eq_dec (x v) 0) as [|Nx]; auto. exfalso. apply N. apply mons_In; [unfold m; lia|]. destruct (Gx v Nx). split; [|split]; auto.
    destruct (Z.eq_dec (zsum v) t) as [|N']; auto. exfalso. auto.
  Qed.

  Lemma lincomb_sum {T} (c : T -> Z) (l : T -> nat -> Z) L ws v : lincomb (fun i => sumf (fun a => c a * l a i) ws) L v = sumf (fun a => c a * lincomb (l a) L v) ws.
  Proof.
    unfold lincomb. rewrite (sumf_ext _ (fun i => sumf (fun a => c a * (l a i * nth i L zfn v)) ws)).
    2:{ intros i _. rewrite <- sumf_scal_r. apply sumf_ext. intros; ring. }
    rewrite (sumf_swap (fun i a => c a * (l a i * nth i L zfn v))). apply sumf_ext. intros a _. now rewrite sumf_scal.
  Qed.

  Lemma exact k : exact_at k.
  Proof using V W Pp Hd Hbs HhA Hspan.
    induction k as [k IH] using (well_founded_induction lt_wf). intros A HA.
    assert (HE : match k with O => True | S j => exact_at j end) by (destruct k; auto).
    set (x := Fsum A). destruct (Fsum_form (dg (S k)) A HA) as (Gx & Hx). fold x in Gx, Hx.
    set (ws := mons m (dg (S k))).
    assert (Hws : forall w, In w ws -> is_tuple m (dg (S k)) w) by (intros w Hw; apply mons_In in Hw; [auto|unfold m; lia]).
    set (A2 := fun i v => sumf (fun w => x w * hA (S k) w i v) ws). set (l := fun i => sumf (fun w => x w * cc (S k) w i) ws).
    assert (HA2 : vform (dg (S k) - (d - 1)) A2) by (apply vform_sum; intros w Hw; apply HhA; auto).
    assert (E : pev m (phin (S k)) (dg (S k)) x = pev m (phin k) (dg k) (Dsum A2) + bval (S k) l).
    { unfold pev at 1. fold ws. cbn [phin].
      rewrite (sumf_ext (fun v => x v * _) (fun v => x v * pev m (phin k) (dg k) (Dsum (hA (S k) v)) + x v * bval (S k) (cc (S k) v))) by (intros; ring).
      rewrite sumf_plus. f_equal.
      - rewrite <- pev_sum. apply pev_ext. intros v. symmetry. apply Dsum_sum.
      - unfold bval, l. rewrite (sumf_ext (fun v => x v * _) (fun v => sumf (fun i => x v * cc (S k) v i * psi (S k) (nth i (bs (S k)) [])) (seq 0 (length (bs (S k)))))).
        2:{ intros v _. rewrite <- sumf_scal. apply sumf_ext. intros; ring. }
        rewrite (sumf_swap (fun v i => x v * cc (S k) v i * psi (S k) (nth i (bs (S k)) [])) ws). apply sumf_ext. intros i _. now rewrite <- sumf_scal_r. }
    rewrite E.
    destruct (key k HE (fun i v => A2 i v - A i v) l) as (K1 & K2).
    - now apply vform_sub.
    - intros v. rewrite Fsum_sub. fold x. rewrite (expand _ x Gx Hx v). fold ws.
      replace (Fsum A2 v - sumf (fun w => x w * dmon w v) ws + lincomb l (LB (S k)) v) with (Fsum A2 v + lincomb l (LB (S k)) v - sumf (fun w => x w * dmon w v) ws) by lia.
      replace 0 with (sumf (fun w => x w * dmon w v) ws - sumf (fun w => x w * dmon w v) ws) by lia. apply cong_sub; [|apply cong_refl].
      unfold A2, l. rewrite Fsum_sum, lincomb_sum, <- sumf_plus. apply cong_sumf. intros w Hw. rewrite <- Z.mul_add_distr_l.
      apply cong_mul; [apply cong_refl|]. apply cong_sym, Hspan. auto.
    - replace (pev m (phin k) (dg k) (Dsum A)) with (pev m (phin k) (dg k) (Dsum A2) + 0 - pev m (phin k) (dg k) (Dsum (fun i v => A2 i v - A i v))).
      2:{ rewrite (pev_ext _ _ _ _ _ (Dsum_sub A2 A)), pev_sub. lia. }
      replace (pev m (phin k) (dg k) (Dsum A2) + bval (S k) l) with (pev m (phin k) (dg k) (Dsum A2) + bval (S k) l - 0) by lia.
      apply cong_sub; [|apply cong_sym, K2]. apply cong_add; [apply cong_refl|]. unfold bval.
      replace 0 with (sumf (fun _ : nat => 0) (seq 0 (length (bs (S k))))) by (now apply sumf_zero). apply cong_sumf. intros i Hi. apply in_seq in Hi.
      replace 0 with (0 * psi (S k) (nth i (bs (S k)) [])) by lia. apply cong_mul; [apply K1; lia|apply cong_refl].
  Qed.

  (** the values on the basis *)
  Lemma phin_basis k b : NoDup (bs (S k)) -> In b (bs (S k)) -> cong q (phin (S k) b) (psi (S k) b).
  Proof using V W Pp Hd Hbs HhA Hspan.
    intros ND Hb. destruct (In_nth _ _ [] Hb) as (i0 & Hi0 & Eb).
    assert (Tb : is_tuple m (dg (S k)) b).
    { destruct (qb_in _ _ _ _ _ (Hbs k) (dmon b)) as (G1 & G2); [now apply in_map|].
      assert (N1 : dmon b b <> 0) by (unfold dmon; destruct (list_eq_dec _ _ _); [lia|congruence]).
      destruct (G1 b N1) as (A1 & A2). split; [|split]; auto. destruct (Z.eq_dec (zsum b) (dg (S k))); auto. exfalso. apply N1, G2; auto. }
    set (dl := fun i => if Nat.eqb i i0 then 1 else 0).
    assert (Ed : forall v, lincomb dl (LB (S k)) v = dmon b v).
    { intros v. unfold lincomb. rewrite map_length. rewrite (sumf_seq_single _ 0 _ i0); [|lia|].
      - unfold dl. rewrite Nat.eqb_refl. rewrite (nth_indep _ zfn (dmon [])) by (now rewrite map_length). rewrite map_nth, Eb. lia.
      - intros j _ Nj. unfold dl. destruct (Nat.eqb_spec j i0); [congruence|lia]. }
    destruct (key k) with (A := hA (S k) b) (l := fun i => cc (S k) b i - dl i) as (K1 & K2).
    - destruct k; auto. apply exact.
    - now apply HhA.
    - intros v. replace (lincomb (fun i => cc (S k) b i - dl i) (LB (S k)) v) with (lincomb (cc (S k) b) (LB (S k)) v - lincomb dl (LB (S k)) v).
      2:{ unfold lincomb. enough (E : forall L g h, sumf (fun i => g i * nth i L zfn v) (seq 0 (length L)) = sumf (fun i => (g i - h i) * nth i L zfn v) (seq 0 (length L)) + sumf (fun i => h i * nth i L zfn v) (seq 0 (length L))) by (rewrite (E (LB (S k)) (cc (S k) b) dl); lia).
          intros L g h. rewrite <- sumf_plus. apply sumf_ext. intros; ring. }
      rewrite Ed. rewrite Z.add_sub_assoc. replace 0 with (dmon b v - dmon b v) by lia. apply cong_sub; [|apply cong_refl]. apply cong_sym, Hspan. auto.
    - cbn [phin]. replace (psi (S k) b) with (0 + psi (S k) b) by lia. apply cong_add; auto.
      apply cong_trans with (bval (S k) dl).
      + unfold bval. apply cong_sumf. intros i Hi. apply in_seq in Hi. apply cong_mul; [|apply cong_refl].
        replace (cc (S k) b i) with (cc (S k) b i - dl i + dl i) by lia. replace (dl i) with (0 + dl i) at 3 by lia. apply cong_add; [apply K1; lia|apply cong_refl].
      + apply cong_of_eq. unfold bval. rewrite (sumf_seq_single _ 0 _ i0); [unfold dl; rewrite Nat.eqb_refl, Eb; lia|lia|].
        intros j _ Nj. unfold dl. destruct (Nat.eqb_spec j i0); [congruence|lia].
  Qed.

  (** ** the Griffiths-Dwork relations *)
  Lemma eplus_eminus_tuple h a i t : (i < m)%nat -> is_tuple m t h -> is_tuple m d a -> nth i a 0 <> 0 -> is_tuple m (t + (d - 1)) (eplus h (eminus a i)).
  Proof.
    intros Hi Hh Ha Na. apply eplus_tuple; auto. apply eminus_tuple; auto. pose proof (nonneg_nth a i (proj1 (proj2 Ha))). lia.
  Qed.

  Lemma pev_Fx phi t i h : (i < m)%nat -> is_tuple m (t - (d - 1)) h ->
    pev m phi t (Fx f i (dmon h)) = sumf (fun ac => nth i (fst ac) 0 * snd ac * phi (eminus (eplus h (fst ac)) i)) f.
  Proof using W.
    intros Hi Hh. unfold pev, Fx, act, dxP.
    rewrite (sumf_ext _ (fun v => sumf (fun ac => nth i (fst ac) 0 * snd ac * dmon h (wsub v (eminus (fst ac) i)) * phi v) f)).
    2:{ intros v _. rewrite sumf_map, <- sumf_scal_r. apply sumf_ext. intros; cbn [fst snd]. ring. }
    rewrite (sumf_swap (fun v ac => nth i (fst ac) 0 * snd ac * dmon h (wsub v (eminus (fst ac) i)) * phi v)). apply sumf_ext. intros [a c] Ha. cbn [fst snd].
    destruct (Z.eq_dec (nth i a 0) 0) as [E0|N0]; [rewrite E0; rewrite sumf_zero; [lia|intros; lia]|].
    pose proof (proj2 W a c Ha) as Ta. pose proof (eplus_eminus_tuple h a i (t - (d - 1)) Hi Hh Ta N0) as TT. replace (t - (d - 1) + (d - 1)) with t in TT by lia.
    rewrite <- eplus_eminus.
    rewrite (sumf_ext _ (fun v => if list_eq_dec Z.eq_dec (eplus h (eminus a i)) v then nth i a 0 * c * phi v else 0)).
    - rewrite (sumf_pick (list_eq_dec Z.eq_dec) (fun v => nth i a 0 * c * phi v)) by apply mons_NoDup. destruct (in_dec _ _ _) as [|N]; auto.
      exfalso. apply N. apply mons_In; [unfold m; lia|auto].
    - intros v Hv. apply mons_In in Hv; [|unfold m; lia]. destruct Hh as (Lh & _). destruct Ta as (La & _). destruct Hv as (Lv & _).
      pose proof (eplus_wsub h (eminus a i) v ltac:(lia) ltac:(rewrite eminus_length; lia)) as EW. unfold dmon.
      destruct (list_eq_dec Z.eq_dec (wsub v (eminus a i)) h) as [E1|E1], (list_eq_dec Z.eq_dec (eplus h (eminus a i)) v) as [E2|E2]; try lia; exfalso; [apply E2, EW; auto|apply E1; symmetry; now apply EW].
  Qed.

  Lemma pev_Dx phi t i h : (i < m)%nat -> is_tuple m (t + 1) h -> pev m phi t (Dx n i (dmon h)) = nth i h 0 * phi (eminus h i).
  Proof.
    intros Hi Hh. unfold pev, Dx. fold m. pose proof Hh as (Lh & Nh & Sh).
    rewrite (sumf_ext _ (fun v => if list_eq_dec Z.eq_dec (eminus h i) v then nth i h 0 * phi v else 0)).
    - rewrite (sumf_pick (list_eq_dec Z.eq_dec) (fun v => nth i h 0 * phi v)) by apply mons_NoDup. destruct (in_dec _ _ _) as [|N]; auto.
      destruct (Z.eq_dec (nth i h 0) 0) as [->|N0]; [lia|]. exfalso. apply N. apply mons_In; [unfold m; lia|].
      replace t with (t + 1 - 1) by lia. apply eminus_tuple; auto. pose proof (nonneg_nth h i Nh). lia.
    - intros v Hv. apply mons_In in Hv; [|unfold m; lia]. destruct Hv as (Lv & _). rewrite Lv, Nat.eqb_refl. unfold dmon.
      destruct (list_eq_dec Z.eq_dec (eup v i) h) as [E1|E1], (list_eq_dec Z.eq_dec (eminus h i) v) as [E2|E2]; try lia.
      + rewrite <- E1. rewrite eup_nth by lia. rewrite Nat.eqb_refl. ring.
      + exfalso. apply E2. rewrite <- E1. apply (eminus_eup n). lia.
      + exfalso. apply E1. rewrite <- E2. apply (eup_eminus n). lia.
  Qed.

  Definition phiZ (k : Z) (w : list Z) : Z := phin (Z.to_nat k) w.

  Theorem phi_GD : GD q n d f phiZ.
  Proof using V W Pp Hd Hbs HhA Hspan.
    intros k i h Hi Hh. destruct (Z_lt_le_dec k 0) as [Neg|Pos].
    { exfalso. destruct Hh as (_ & N & S). apply nonneg_zsum in N. nia. }
    set (j := Z.to_nat k). assert (Ek : k = Z.of_nat j) by (unfold j; lia).
    assert (Ed : dg (S j) - (d - 1) = d * k - Z.of_nat n) by (unfold dg; lia).
    set (A := fun l => if Nat.eqb l i then dmon h else fun _ => 0).
    assert (HA : vform (dg (S j) - (d - 1)) A).
    { intros l Hl. unfold A. rewrite Ed. destruct (Nat.eqb l i); [now apply (dmon_G n)|]. split; [apply (s_0 _ (Gs_sub (S n)))|intros w _; reflexivity]. }
    pose proof (exact j A HA) as E.
    assert (E1 : pev m (phin (S j)) (dg (S j)) (Fsum A) = pev m (phin (S j)) (dg (S j)) (Fx f i (dmon h))).
    { apply pev_ext. intros w. unfold UniqKoszul.Fsum. rewrite (sumf_seq_single _ 0 _ i); [unfold A; now rewrite Nat.eqb_refl|lia|].
      intros l _ Nl. unfold A. destruct (Nat.eqb_spec l i); [congruence|]. now apply (l_0 _ (act_lin _)). }
    assert (E2 : pev m (phin j) (dg j) (Dsum A) = pev m (phin j) (dg j) (Dx n i (dmon h))).
    { apply pev_ext. intros w. unfold UniqKoszul.Dsum. rewrite (sumf_seq_single _ 0 _ i); [unfold A; now rewrite Nat.eqb_refl|lia|].
      intros l _ Nl. unfold A. destruct (Nat.eqb_spec l i); [congruence|]. now apply (l_0 _ (Dx_lin n l)). }
    rewrite E1, E2 in E. rewrite pev_Fx in E; [|unfold m; lia|rewrite Ed; exact Hh].
    rewrite pev_Dx in E; [|unfold m; lia|unfold dg; replace (d * Z.of_nat j - (Z.of_nat n + 1) + 1) with (d * k - Z.of_nat n) by lia; exact Hh].
    unfold phiZ. replace (Z.to_nat (k + 1)) with (S j) by lia. fold j. exact E.
  Qed.
End Fun.
