(** The forms of some degree all lie in a homogeneous ideal exactly if its
    generators have no common zero over any field. *)
From Coq Require Import ZArith List Bool Lia Setoid Morphisms Ring.
From Verif Require Import Base VecModel VecSpec VecProofs ToolsSpec ToolsProofs MatModel MatProofs DRSpec DRProofs HilbPoly HilbTop HilbInit PtSpec PtMax.
Import ListNotations.
Open Scope Z_scope.

(** the exponent of the k-th power of a variable *)
Definition ue (m i : nat) (k : Z) : list Z := upd (repeat 0 m) i k.
Lemma ue_sum m : forall i k, (i < m)%nat -> zsum (ue m i k) = k.
Proof.
  unfold ue. induction m as [|m IH]; intros [|i] k Hi; [lia|lia| |]; cbn [repeat upd zsum].
  - assert (Y : zsum (repeat 0 m) = 0) by (clear; induction m; cbn [repeat zsum]; lia). lia.
  - rewrite IH by lia. lia.
Qed.
Lemma ue_tuple m i k : (i < m)%nat -> 0 <= k -> is_tuple m k (ue m i k).
Proof.
  intros Hi Hk. split; [unfold ue; now rewrite upd_length, repeat_length|]. split; [|now apply ue_sum].
  unfold ue. revert i Hi. induction m as [|m IH]; intros [|i] Hi; [lia|lia| |]; cbn [repeat upd]; constructor; try lia.
  - clear. induction m; cbn [repeat]; constructor; [lia|auto].
  - apply IH. lia.
Qed.

(** * sums in a field *)
Section Field.
  Variable F : fld.
  Notation "0f" := (f0 F). Notation "1f" := (f1 F).
  Infix "+f" := (fadd F) (at level 50, left associativity).
  Infix "*f" := (fmul F) (at level 40, left associativity).
  Infix "==" := (feq F) (at level 70).
  Instance feq_E : Equivalence (feq F) := feq_equiv F.
  Instance fadd_P : Proper (feq F ==> feq F ==> feq F) (fadd F).
  Proof. intros a a' H b b' H'. now apply fadd_ext. Qed.
  Instance fmul_P : Proper (feq F ==> feq F ==> feq F) (fmul F).
  Proof. intros a a' H b b' H'. now apply fmul_ext. Qed.
  Instance fopp_P : Proper (feq F ==> feq F) (fopp F).
  Proof. intros a a' H. now apply fopp_ext. Qed.
  Lemma f_reqe : ring_eq_ext (fadd F) (fmul F) (fopp F) (feq F).
  Proof. constructor; [exact fadd_P|exact fmul_P|exact fopp_P]. Qed.
  Add Ring Fring : (f_ring F) (setoid (feq_equiv F) f_reqe).

  Definition fsum {A} (g : A -> car F) (l : list A) : car F := fold_right (fun a s => g a +f s) 0f l.
  Lemma fsum_ext {A} (g h : A -> car F) l : (forall a, In a l -> g a == h a) -> fsum g l == fsum h l.
  Proof. induction l as [|a l IH]; intros H; cbn [fsum fold_right]; [reflexivity|]. fold (fsum g l) (fsum h l). rewrite IH by (intros; apply H; now right). rewrite (H a) by now left. reflexivity. Qed.
  Lemma fsum_zero {A} (g : A -> car F) l : (forall a, In a l -> g a == 0f) -> fsum g l == 0f.
  Proof. induction l as [|a l IH]; intros H; cbn [fsum fold_right]; [reflexivity|]. fold (fsum g l). rewrite IH by (intros; apply H; now right). rewrite (H a) by now left. ring. Qed.
  Lemma fsum_plus {A} (g h : A -> car F) l : fsum (fun a => g a +f h a) l == fsum g l +f fsum h l.
  Proof. induction l as [|a l IH]; cbn [fsum fold_right]; [ring|]. fold (fsum g l) (fsum h l) (fsum (fun a => g a +f h a) l). rewrite IH. ring. Qed.
  Lemma fsum_scal {A} c (g : A -> car F) l : fsum (fun a => c *f g a) l == c *f fsum g l.
  Proof. induction l as [|a l IH]; cbn [fsum fold_right]; [ring|]. fold (fsum g l) (fsum (fun a => c *f g a) l). rewrite IH. ring. Qed.
  Lemma fsum_swap {A B} (g : A -> B -> car F) l k : fsum (fun a => fsum (g a) k) l == fsum (fun b => fsum (fun a => g a b) l) k.
  Proof.
    induction l as [|a l IH]; cbn [fsum fold_right].
    - symmetry. now apply fsum_zero.
    - fold (fsum (fun a => fsum (g a) k) l). rewrite IH. rewrite <- fsum_plus. apply fsum_ext. intros b _. reflexivity.
  Qed.

  (** integers *)
  Notation ofZ := (fofZ F).
  Definition ofN (k : nat) : car F := Nat.iter k (fadd F 1f) 0f.
  Lemma ofZ_pos z : 0 <= z -> ofZ z = ofN (Z.to_nat z).
  Proof. destruct z; [reflexivity|reflexivity|lia]. Qed.
  Lemma ofZ_neg z : z < 0 -> ofZ z = fopp F (ofN (Z.to_nat (- z))).
  Proof. destruct z; [lia|lia|reflexivity]. Qed.
  Lemma ofN_S k : ofN (S k) = 1f +f ofN k.
  Proof. reflexivity. Qed.
  Lemma ofZ_succ z : ofZ (z + 1) == ofZ z +f 1f.
  Proof.
    destruct (Z_le_gt_dec 0 z).
    - rewrite !ofZ_pos by lia. replace (Z.to_nat (z + 1)) with (S (Z.to_nat z)) by lia. rewrite ofN_S. ring.
    - rewrite (ofZ_neg z) by lia. replace (Z.to_nat (- z)) with (S (Z.to_nat (- (z + 1)))) by lia. rewrite ofN_S. destruct (Z.eq_dec z (-1)) as [->|].
      + cbn. ring.
      + rewrite ofZ_neg by lia. ring.
  Qed.
  Lemma ofZ_add_nat a k : ofZ (a + Z.of_nat k) == ofZ a +f ofZ (Z.of_nat k).
  Proof.
    induction k as [|k IH].
    - rewrite Z.add_0_r. cbn. ring.
    - rewrite Nat2Z.inj_succ. unfold Z.succ. rewrite Z.add_assoc, !ofZ_succ, IH. ring.
  Qed.
  Lemma ofZ_add a b : ofZ (a + b) == ofZ a +f ofZ b.
  Proof.
    destruct (Z_le_gt_dec 0 b).
    - rewrite <- (Z2Nat.id b) by lia. apply ofZ_add_nat.
    - pose proof (ofZ_add_nat (a + b) (Z.to_nat (- b))) as H1. pose proof (ofZ_add_nat b (Z.to_nat (- b))) as H2. rewrite Z2Nat.id in H1, H2 by lia.
      replace (a + b + - b) with a in H1 by lia. replace (b + - b) with 0 in H2 by lia. change (ofZ 0) with 0f in H2.
      rewrite H1. assert (X : ofZ (a + b) +f ofZ (- b) +f ofZ b == ofZ (a + b) +f (ofZ b +f ofZ (- b))) by ring. rewrite X, <- H2. ring.
  Qed.
  Lemma ofZ_opp a : ofZ (- a) == fopp F (ofZ a).
  Proof.
    pose proof (ofZ_add a (- a)) as H. replace (a + - a) with 0 in H by lia. change (ofZ 0) with 0f in H.
    assert (X : ofZ (- a) == fopp F (ofZ a) +f (ofZ a +f ofZ (- a))) by ring. rewrite X, <- H. ring.
  Qed.
  Lemma ofZ_mul_nat a k : ofZ (a * Z.of_nat k) == ofZ a *f ofZ (Z.of_nat k).
  Proof.
    induction k as [|k IH].
    - rewrite Z.mul_0_r. cbn. ring.
    - rewrite Nat2Z.inj_succ. unfold Z.succ. rewrite Z.mul_add_distr_l, Z.mul_1_r, ofZ_add, ofZ_succ, IH. ring.
  Qed.
  Lemma ofZ_mul a b : ofZ (a * b) == ofZ a *f ofZ b.
  Proof.
    destruct (Z_le_gt_dec 0 b).
    - rewrite <- (Z2Nat.id b) by lia. apply ofZ_mul_nat.
    - pose proof (ofZ_mul_nat a (Z.to_nat (- b))) as H. rewrite Z2Nat.id in H by lia. replace (a * b) with (- (a * - b)) by ring.
      rewrite ofZ_opp, H, ofZ_opp. ring.
  Qed.
  Lemma ofZ_sumf {A} (g : A -> Z) l : ofZ (sumf g l) == fsum (fun a => ofZ (g a)) l.
  Proof. induction l as [|a l IH]; [reflexivity|]. rewrite sumf_cons, ofZ_add, IH. reflexivity. Qed.

  Lemma ofZ_0 : ofZ 0 = 0f.
  Proof. reflexivity. Qed.
  Lemma ofZ_1 : ofZ 1 == 1f.
  Proof. change (1f +f 0f == 1f). ring. Qed.

  (** powers and monomials *)
  Lemma fpow_S a k : fpow F a (S k) = a *f fpow F a k.
  Proof. reflexivity. Qed.
  Lemma fpow_0 a : fpow F a 0 = 1f.
  Proof. reflexivity. Qed.
  Lemma fpow_add a j k : fpow F a (j + k) == fpow F a j *f fpow F a k.
  Proof. induction j as [|j IH]; cbn [Nat.add]; [rewrite fpow_0; ring|]. rewrite !fpow_S, IH. ring. Qed.
  Lemma fpow_mul a b k : fpow F (a *f b) k == fpow F a k *f fpow F b k.
  Proof. induction k as [|k IH]; [rewrite !fpow_0; ring|]. rewrite !fpow_S, IH. ring. Qed.
  Lemma fpow_one a k : a == 1f -> fpow F a k == 1f.
  Proof. intros H. induction k as [|k IH]; [reflexivity|]. rewrite fpow_S, IH, H. ring. Qed.
  Lemma fmono_add x : forall s a, nonneg s -> nonneg a -> length s = length x -> length a = length x ->
    fmono F x (eplus s a) == fmono F x s *f fmono F x a.
  Proof.
    induction x as [|y x IH]; intros [|k s] [|j a] Ns Na Ls La; try discriminate; cbn [eplus fmono]; [ring|].
    inversion Ns; subst. inversion Na; subst. rewrite Z2Nat.inj_add by lia. rewrite fpow_add, IH by (auto; cbn in *; lia). ring.
  Qed.
  Lemma fmono_zero x : forall k, fmono F x (repeat 0 k) == 1f.
  Proof. induction x as [|y x IH]; intros [|k]; cbn [repeat fmono]; try reflexivity. rewrite IH. cbn. ring. Qed.
  Lemma fmono_unit x : forall i l, (i < length x)%nat -> 0 <= l -> fmono F x (upd (repeat 0 (length x)) i l) == fpow F (nth i x 0f) (Z.to_nat l).
  Proof.
    induction x as [|y x IH]; intros [|i] l Hi Hl; cbn [length repeat upd fmono nth] in *; [lia|lia| |].
    - rewrite fmono_zero. ring.
    - rewrite IH by lia. cbn. ring.
  Qed.
  Lemma feval_sum g x : feval F g x == fsum (fun ac => ofZ (snd ac) *f fmono F x (fst ac)) g.
  Proof. induction g as [|[a c] g IH]; cbn [feval]; [reflexivity|]. rewrite IH. reflexivity. Qed.

  Variables (p : Z) (n : nat) (e : Z) (gs : list (list (list Z * Z))).
  Hypothesis Hp : ofZ p == 0f.
  Hypothesis Hgs : Forall (form (S n) e) gs.
  Lemma ofZ_cong a b : cong p a b -> ofZ a == ofZ b.
  Proof. intros (k & Hk). replace a with (b + k * p) by lia. rewrite ofZ_add, ofZ_mul, Hp. ring. Qed.

  Lemma fsum_pick (g : list Z -> car F) t0 l : NoDup l -> In t0 l -> fsum (fun t => ofZ (if list_eq_dec Z.eq_dec t0 t then 1 else 0) *f g t) l == g t0.
  Proof.
    intros N. induction N as [|t l Nt N IH]; intros H; [destruct H|]. cbn [fsum fold_right]. fold (fsum (fun t => ofZ (if list_eq_dec Z.eq_dec t0 t then 1 else 0) *f g t) l).
    destruct (list_eq_dec Z.eq_dec t0 t) as [->|E].
    - rewrite fsum_zero; [rewrite ofZ_1; ring|]. intros b Hb. destruct (list_eq_dec Z.eq_dec t b) as [->|]; [contradiction|]. rewrite ofZ_0. ring.
    - destruct H as [->|H]; [congruence|]. rewrite IH by auto. rewrite ofZ_0. ring.
  Qed.

  Variables (x : list (car F)) (l : Z).
  Hypothesis Lx : length x = S n.
  Hypothesis Hl : 0 <= l.
  Lemma gen_zero g s : form (S n) e g -> is_tuple (S n) (l - e) s -> fsum (fun t => ofZ (coefP g s t) *f fmono F x t) (mons (S n) l) == fmono F x s *f feval F g x.
  Proof.
    intros Fg Hs. transitivity (fsum (fun t => fsum (fun ac => ofZ (snd ac) *f (ofZ (if list_eq_dec Z.eq_dec (eplus s (fst ac)) t then 1 else 0) *f fmono F x t)) g) (mons (S n) l)).
    { apply fsum_ext. intros t _. unfold coefP. rewrite ofZ_sumf.
      transitivity (fmono F x t *f fsum (fun ac => ofZ (if list_eq_dec Z.eq_dec (eplus s (fst ac)) t then snd ac else 0)) g); [ring|]. rewrite <- fsum_scal.
      apply fsum_ext. intros ac _. destruct (list_eq_dec Z.eq_dec (eplus s (fst ac)) t); [rewrite ofZ_1|rewrite ofZ_0]; ring. }
    rewrite fsum_swap, feval_sum, <- fsum_scal. apply fsum_ext. intros [a c] Hac. cbn [fst snd].
    rewrite (fsum_scal (ofZ c) (fun t => ofZ (if list_eq_dec Z.eq_dec (eplus s a) t then 1 else 0) *f fmono F x t)).
    destruct (Z.eq_dec c 0) as [->|Nc]; [rewrite ofZ_0; ring|]. pose proof (Fg a c Hac Nc) as Ta.
    rewrite (fsum_pick (fmono F x)); [|apply mons_NoDup|].
    - destruct Hs as (S1 & S2 & S3), Ta as (T1 & T2 & T3). rewrite fmono_add by (auto; congruence). ring.
    - apply mons_In; [lia|]. replace l with ((l - e) + e) by lia. now apply eplus_tuple.
  Qed.

  Definition inI (G : list Z -> Z) : Prop := exists h : nat -> list Z -> Z, forall t, is_tuple (S n) l t ->
    cong p (G t) (sumf (fun i => sumf (fun s => h i s * coefP (nth i gs []) s t) (mons (S n) (l - e))) (seq 0 (length gs))).

  Lemma full_no_zero i : (forall G, inI G) -> (forall g, In g gs -> feval F g x == 0f) -> (i <= n)%nat -> ~ ~ nth i x 0f == 0f.
  Proof.
    intros Full Zg Hi NZ. set (t0 := ue (S n) i l).
    assert (Tt : is_tuple (S n) l t0).
    { unfold t0. apply ue_tuple; lia. }
    destruct (Full (fun t => if list_eq_dec Z.eq_dec t0 t then 1 else 0)) as (h & Hh).
    assert (E1 : fpow F (nth i x 0f) (Z.to_nat l) == 0f).
    { rewrite <- fmono_unit by (lia || (rewrite Lx; lia)). rewrite Lx. fold (ue (S n) i l). fold t0. rewrite <- (fsum_pick (fmono F x) t0 (mons (S n) l)); [|apply mons_NoDup|apply mons_In; [lia|exact Tt]].
      transitivity (fsum (fun t => fsum (fun i => fsum (fun s => ofZ (h i s) *f (ofZ (coefP (nth i gs []) s t) *f fmono F x t)) (mons (S n) (l - e))) (seq 0 (length gs))) (mons (S n) l)).
      { apply fsum_ext. intros t Ht. apply mons_In in Ht; [|lia]. rewrite (ofZ_cong _ _ (Hh t Ht)), ofZ_sumf.
        match goal with |- ?A *f ?B == _ => transitivity (B *f A); [ring|] end. rewrite <- fsum_scal. apply fsum_ext. intros j _. rewrite ofZ_sumf, <- fsum_scal. apply fsum_ext. intros s _. rewrite ofZ_mul. ring. }
      rewrite fsum_swap. apply fsum_zero. intros j Hj. apply in_seq in Hj. rewrite fsum_swap. apply fsum_zero. intros s Hs. apply mons_In in Hs; [|lia].
      rewrite fsum_scal. assert (Ig : In (nth j gs []) gs) by (apply nth_In; lia). rewrite gen_zero by (auto; rewrite Forall_forall in Hgs; auto). rewrite (Zg _ Ig). ring. }
    apply (f_inv F _ NZ). intros (b & Hb). apply (f_one F).
    rewrite <- (fpow_one (nth i x 0f *f b) (Z.to_nat l) Hb). rewrite fpow_mul, E1. ring.
  Qed.
End Field.
