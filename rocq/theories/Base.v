(** Shared vocabulary of the model: outcomes, sums, congruences.
    Nothing in this file models code of /repo. *)
From Coq Require Import ZArith List Lia Bool Setoid Morphisms.
Import ListNotations.
Open Scope Z_scope.

(** Outcomes of a modelled C++ function.  [EUB] is undefined behaviour
    (out-of-bounds access, dereference of end(), use after free, ...),
    [EAssert] a failed assert, [EAbort] abort()/NTL::Error, [EFuel] a loop that
    did not finish within the given fuel (used to express divergence). *)
Inductive err := EUB | EAssert | EAbort | EFuel.

Inductive res (A : Type) : Type :=
| OK (a : A)
| Err (e : err).
Arguments OK {A} a.
Arguments Err {A} e.

Definition bind {A B} (x : res A) (f : A -> res B) : res B :=
  match x with OK a => f a | Err e => Err e end.

Notation "x <- e1 ;; e2" := (bind e1 (fun x => e2))
  (at level 61, e1 at next level, right associativity).

Definition check (b : bool) (e : err) : res unit := if b then OK tt else Err e.

(** ** Sums over lists *)
Fixpoint zsum (l : list Z) : Z :=
  match l with [] => 0 | x :: r => x + zsum r end.

Definition sumf {A} (f : A -> Z) (l : list A) : Z := zsum (map f l).

Lemma sumf_nil {A} (f : A -> Z) : sumf f [] = 0.
Proof. reflexivity. Qed.

Lemma sumf_cons {A} (f : A -> Z) a l : sumf f (a :: l) = f a + sumf f l.
Proof. reflexivity. Qed.

Lemma zsum_app l1 l2 : zsum (l1 ++ l2) = zsum l1 + zsum l2.
Proof. induction l1; simpl; lia. Qed.

Lemma sumf_app {A} (f : A -> Z) l1 l2 : sumf f (l1 ++ l2) = sumf f l1 + sumf f l2.
Proof. unfold sumf. rewrite map_app. apply zsum_app. Qed.

Lemma sumf_ext {A} (f g : A -> Z) l :
  (forall a, In a l -> f a = g a) -> sumf f l = sumf g l.
Proof.
  induction l as [|a l IH]; intros H; [reflexivity|].
  rewrite !sumf_cons, IH, (H a); simpl; auto. intros; apply H; simpl; auto.
Qed.

Lemma sumf_plus {A} (f g : A -> Z) l :
  sumf (fun a => f a + g a) l = sumf f l + sumf g l.
Proof. induction l; rewrite ?sumf_nil, ?sumf_cons; lia. Qed.

Lemma sumf_scal {A} c (f : A -> Z) l : sumf (fun a => c * f a) l = c * sumf f l.
Proof. induction l; rewrite ?sumf_nil, ?sumf_cons; lia. Qed.

Lemma sumf_scal_r {A} c (f : A -> Z) l : sumf (fun a => f a * c) l = sumf f l * c.
Proof. induction l; rewrite ?sumf_nil, ?sumf_cons; lia. Qed.

Lemma sumf_zero {A} (f : A -> Z) l : (forall a, In a l -> f a = 0) -> sumf f l = 0.
Proof.
  induction l as [|a l IH]; intros H; [reflexivity|].
  rewrite sumf_cons, IH, (H a); simpl; auto. intros; apply H; simpl; auto.
Qed.

Lemma sumf_map {A B} (g : A -> B) (f : B -> Z) l :
  sumf f (map g l) = sumf (fun a => f (g a)) l.
Proof. unfold sumf. now rewrite map_map. Qed.

Lemma sumf_flat_map {A B} (g : A -> list B) (f : B -> Z) l :
  sumf f (flat_map g l) = sumf (fun a => sumf f (g a)) l.
Proof.
  induction l as [|a l IH]; [reflexivity|].
  simpl. rewrite sumf_app, IH, sumf_cons. reflexivity.
Qed.

Lemma sumf_swap {A B} (f : A -> B -> Z) l1 l2 :
  sumf (fun a => sumf (fun b => f a b) l2) l1 =
  sumf (fun b => sumf (fun a => f a b) l1) l2.
Proof.
  induction l1 as [|a l1 IH].
  - rewrite sumf_nil. symmetry. apply sumf_zero. reflexivity.
  - rewrite sumf_cons, IH, <- sumf_plus. apply sumf_ext. intros. now rewrite sumf_cons.
Qed.

(** ** Congruence modulo q *)
Definition cong (q a b : Z) : Prop := (q | a - b).

Lemma cong_refl q a : cong q a a.
Proof. exists 0. lia. Qed.
Lemma cong_sym q a b : cong q a b -> cong q b a.
Proof. intros [k H]. exists (-k). lia. Qed.
Lemma cong_trans q a b c : cong q a b -> cong q b c -> cong q a c.
Proof. intros [k H] [l H']. exists (k + l). lia. Qed.

#[global] Instance cong_equiv q : Equivalence (cong q).
Proof.
  split; [exact (cong_refl q) | exact (cong_sym q) | exact (cong_trans q)].
Qed.
#[global] Instance cong_add q : Proper (cong q ==> cong q ==> cong q) Z.add.
Proof. intros a b [k H] c d [l H']. exists (k + l). lia. Qed.
#[global] Instance cong_mul q : Proper (cong q ==> cong q ==> cong q) Z.mul.
Proof. intros a b [k H] c d [l H']. exists (k * c + b * l). nia. Qed.
#[global] Instance cong_sub q : Proper (cong q ==> cong q ==> cong q) Z.sub.
Proof. intros a b [k H] c d [l H']. exists (k - l). lia. Qed.
#[global] Instance cong_opp q : Proper (cong q ==> cong q) Z.opp.
Proof. intros a b [k H]. exists (-k). lia. Qed.

Lemma cong_of_eq q a b : a = b -> cong q a b.
Proof. intros ->. apply cong_refl. Qed.

Lemma cong_mod q a : cong q (a mod q) a.
Proof.
  destruct (Z.eq_dec q 0) as [->|H].
  - exists (0). rewrite Zmod_0_r. lia.
  - exists (- (a / q)). rewrite Z.mod_eq by lia. lia.
Qed.

Lemma cong_iff_mod q a b : q <> 0 -> (cong q a b <-> a mod q = b mod q).
Proof.
  intros Hq. split.
  - intros [k H]. replace a with (b + k * q) by lia. apply Z.mod_add; lia.
  - intros H. rewrite <- (cong_mod q a), <- (cong_mod q b), H. reflexivity.
Qed.

Lemma cong_small q a b : 0 <= a < q -> 0 <= b < q -> cong q a b -> a = b.
Proof.
  intros Ha Hb H. apply cong_iff_mod in H; [|lia].
  now rewrite !Z.mod_small in H by lia.
Qed.

Lemma cong_divide q q' a b : (q' | q) -> cong q a b -> cong q' a b.
Proof. intros H1 H2. unfold cong in *. etransitivity; eauto. Qed.

Lemma cong_0 q a : cong q a 0 <-> (q | a).
Proof. unfold cong. now rewrite Z.sub_0_r. Qed.

Lemma cong_zsum q l1 l2 : Forall2 (cong q) l1 l2 -> cong q (zsum l1) (zsum l2).
Proof. induction 1; simpl; [reflexivity|]. now rewrite H, IHForall2. Qed.

Lemma cong_sumf {A} q (f g : A -> Z) l :
  (forall a, In a l -> cong q (f a) (g a)) -> cong q (sumf f l) (sumf g l).
Proof.
  induction l as [|a l IH]; intros H; [reflexivity|].
  rewrite !sumf_cons. rewrite IH, (H a); simpl; auto; [reflexivity|].
  intros; apply H; simpl; auto.
Qed.

(** ** Integer ranges, list access *)
(** [zrange a k] = a, a+1, ..., a+k-1 *)
Fixpoint zrange (a : Z) (k : nat) : list Z :=
  match k with O => [] | S k => a :: zrange (a + 1) k end.

(** [zseq a b] = a, a+1, ..., b-1 (empty if b <= a) *)
Definition zseq (a b : Z) : list Z := zrange a (Z.to_nat (b - a)).

Lemma zrange_In a k x : In x (zrange a k) <-> a <= x < a + Z.of_nat k.
Proof.
  revert a; induction k as [|k IH]; intros a; cbn [zrange In].
  - lia.
  - rewrite IH. lia.
Qed.

Lemma zseq_In a b x : In x (zseq a b) <-> a <= x < b.
Proof. unfold zseq. rewrite zrange_In. lia. Qed.

Lemma zrange_length a k : length (zrange a k) = k.
Proof. revert a; induction k; intros; simpl; auto. Qed.

Lemma zseq_length a b : length (zseq a b) = Z.to_nat (b - a).
Proof. apply zrange_length. Qed.

Lemma zrange_snoc a k : zrange a (S k) = zrange a k ++ [a + Z.of_nat k].
Proof.
  revert a; induction k as [|k IH]; intros a.
  - simpl. f_equal. lia.
  - cbn [zrange]. cbn [zrange] in IH. rewrite IH. simpl app.
    replace (a + 1 + Z.of_nat k) with (a + Z.of_nat (S k)) by lia. reflexivity.
Qed.

Lemma zseq_nil a b : b <= a -> zseq a b = [].
Proof. intros. unfold zseq. now replace (Z.to_nat (b - a)) with 0%nat by lia. Qed.

Lemma zseq_cons a b : a < b -> zseq a b = a :: zseq (a + 1) b.
Proof.
  intros. unfold zseq. replace (Z.to_nat (b - a)) with (S (Z.to_nat (b - (a + 1)))) by lia.
  reflexivity.
Qed.

Lemma zseq_snoc a b : a <= b -> zseq a (b + 1) = zseq a b ++ [b].
Proof.
  intros. unfold zseq. replace (Z.to_nat (b + 1 - a)) with (S (Z.to_nat (b - a))) by lia.
  rewrite zrange_snoc. replace (a + Z.of_nat (Z.to_nat (b - a))) with b by lia. reflexivity.
Qed.

Lemma zrange_app a k m : zrange a (k + m) = zrange a k ++ zrange (a + Z.of_nat k) m.
Proof.
  revert a. induction k as [|k IH]; intros a.
  - simpl. f_equal. lia.
  - cbn [zrange Nat.add]. simpl app. f_equal. rewrite IH. f_equal. f_equal. lia.
Qed.

Lemma zseq_app a b c : a <= b <= c -> zseq a c = zseq a b ++ zseq b c.
Proof.
  intros H. unfold zseq.
  replace (Z.to_nat (c - a)) with (Z.to_nat (b - a) + Z.to_nat (c - b))%nat by lia.
  rewrite zrange_app. f_equal. f_equal. lia.
Qed.

Lemma zrange_nth a k i d : (i < k)%nat -> nth i (zrange a k) d = a + Z.of_nat i.
Proof.
  revert a i; induction k as [|k IH]; intros a [|i] H; cbn [zrange nth]; try lia.
  rewrite IH by lia. lia.
Qed.

(** list access by a Z index, default 0 *)
Definition znth (l : list Z) (i : Z) : Z := if i <? 0 then 0 else nth (Z.to_nat i) l 0.

Definition zlen {A} (l : list A) : Z := Z.of_nat (length l).

(** replace the i-th entry *)
Fixpoint upd {A} (l : list A) (i : nat) (x : A) : list A :=
  match l, i with
  | [], _ => []
  | _ :: r, O => x :: r
  | y :: r, S i => y :: upd r i x
  end.

Lemma upd_length {A} (l : list A) i x : length (upd l i x) = length l.
Proof. revert i; induction l; intros [|i]; simpl; auto. Qed.

Lemma nth_upd_eq {A} (l : list A) i x d : (i < length l)%nat -> nth i (upd l i x) d = x.
Proof. revert i; induction l; intros [|i]; simpl; intros; try lia; auto. apply IHl. lia. Qed.

Lemma nth_upd_neq {A} (l : list A) i j x d : i <> j -> nth j (upd l i x) d = nth j l d.
Proof.
  revert i j; induction l; intros [|i] [|j]; simpl; intros; try congruence; auto.
Qed.

Lemma nth_upd {A} (l : list A) i j x d :
  nth j (upd l i x) d = if Nat.eqb i j then (if Nat.ltb i (length l) then x else d) else nth j l d.
Proof.
  destruct (Nat.eqb_spec i j) as [->|H].
  - destruct (Nat.ltb_spec j (length l)).
    + now apply nth_upd_eq.
    + apply nth_overflow. rewrite upd_length. lia.
  - now apply nth_upd_neq.
Qed.

(** product over a list *)
Fixpoint zprod (l : list Z) : Z :=
  match l with [] => 1 | x :: r => x * zprod r end.

Lemma zprod_app l1 l2 : zprod (l1 ++ l2) = zprod l1 * zprod l2.
Proof. induction l1 as [|a l1 IH]; cbn [zprod app]; [lia|]. rewrite IH. lia. Qed.

(** factorial on Z (spec level) *)
Definition zfact (n : Z) : Z := zprod (zseq 1 (n + 1)).

Lemma zfact_0 : zfact 0 = 1.
Proof. reflexivity. Qed.

Lemma zfact_succ n : 0 <= n -> zfact (n + 1) = (n + 1) * zfact n.
Proof.
  intros. unfold zfact. rewrite (zseq_snoc 1 (n + 1)) by lia.
  rewrite zprod_app. cbn [zprod]. lia.
Qed.

Lemma zfact_pos n : 0 < zfact n.
Proof.
  destruct (Z.le_gt_cases n 0) as [H|H].
  - unfold zfact. rewrite zseq_nil by lia. reflexivity.
  - replace n with (Z.of_nat (Z.to_nat n)) by lia.
    induction (Z.to_nat n) as [|k IH].
    + reflexivity.
    + rewrite Nat2Z.inj_succ, <- Z.add_1_r, zfact_succ by lia. nia.
Qed.
