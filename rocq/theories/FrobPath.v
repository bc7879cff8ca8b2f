(** The path of tweaked monomials followed by the Frobenius routines. *)
From Coq Require Import ZArith List Lia.
From Verif Require Import Base VecModel VecSpec VecProofs ToolsModel ToolsSpec ToolsProofs PolyProofs
  MatModel MatProofs DRModel DRSpec DRProofs DRRed DRStep DRFinal DRPath FrobModel FrobSpec.
Import ListNotations.
Open Scope Z_scope.

Definition pre (i : nat) (v : list Z) : Z := zsum (firstn i v).

Lemma pre_0 v : pre 0 v = 0. Proof. reflexivity. Qed.
Lemma pre_S i v : pre (S i) v = pre i v + nth i v 0.
Proof.
  unfold pre. revert v. induction i as [|i IH]; intros [|x v]; cbn [firstn zsum nth]; try lia.
  specialize (IH v). cbn [firstn] in IH. rewrite IH. lia.
Qed.
Lemma pre_ext (a b : list Z) : length a = length b -> (forall i, pre i a = pre i b) -> a = b.
Proof.
  intros H P. apply vec_ext; auto. intros i _. pose proof (P (S i)) as Q. rewrite !pre_S, P in Q. lia.
Qed.
Lemma pre_nonneg i v : nonneg v -> 0 <= pre i v.
Proof.
  intros H. induction i; [rewrite pre_0; lia|]. rewrite pre_S. pose proof (nonneg_nth v i H). lia.
Qed.
Lemma pre_vadd i a b : length a = length b -> pre i (vadd a b) = pre i a + pre i b.
Proof. intros H. induction i; [reflexivity|]. rewrite !pre_S, IHi, vadd_nth by auto. lia. Qed.
Lemma pre_vscale i c a : pre i (vscale c a) = c * pre i a.
Proof. induction i; [rewrite !pre_0; lia|]. rewrite !pre_S, IHi, vscale_nth. lia. Qed.

Lemma pre_tweak v r i : nonneg v -> 0 <= r -> pre i (tweak_closed v r) = Z.max 0 (pre i v - r).
Proof.
  intros Hv Hr. pose proof (tweak_closed_prefix v Hv r i Hr) as H. unfold removed_before in H.
  rewrite !fold_right_zsum in H. rewrite (fold_right_zsum (firstn i (tweak_closed v r))) in H. unfold pre. lia.
Qed.

Lemma tweak_eq v r : nonneg v -> 0 <= r -> tweak v r = OK (tweak_closed v r).
Proof.
  intros Hv Hr. unfold tweak. destruct (Z.ltb_spec r 0); [lia|].
  rewrite tweak_n_closed by auto. now rewrite Z2Nat.id by auto.
Qed.

Lemma tweak_closed_nonneg v r : nonneg v -> 0 <= r -> nonneg (tweak_closed v r).
Proof.
  intros Hv Hr. destruct (tweak_ok v r Hv Hr) as (w & E & _ & H & _).
  rewrite tweak_eq in E by auto. now injection E as <-.
Qed.
Lemma tweak_closed_sum v r : nonneg v -> 0 <= r -> r <= zsum v -> zsum (tweak_closed v r) = zsum v - r.
Proof.
  intros Hv Hr Hs. destruct (tweak_ok v r Hv Hr) as (w & E & _ & _ & H & _).
  rewrite tweak_eq in E by auto. injection E as <-. lia.
Qed.
Lemma tweak_closed_le v r i : nonneg v -> 0 <= r -> nth i (tweak_closed v r) 0 <= nth i v 0.
Proof.
  intros Hv Hr. destruct (tweak_ok v r Hv Hr) as (w & E & _ & _ & _ & H & _).
  rewrite tweak_eq in E by auto. now injection E as <-.
Qed.

(** moving along v: the tweaked monomials differ by a vector that is
    non-negative, and positive wherever the destination is *)
Lemma tweak_move a v r i : length a = length v -> nonneg a -> nonneg v -> 0 <= r ->
  (forall i, 0 < nth i a 0 -> 0 < nth i v 0) ->
  0 <= nth i (tweak_closed (vadd a v) r) 0 - nth i (tweak_closed a r) 0 /\
  (0 < nth i (tweak_closed a r) 0 -> 0 < nth i (tweak_closed (vadd a v) r) 0 - nth i (tweak_closed a r) 0).
Proof.
  intros Hl Ha Hv Hr Hs. pose proof (nonneg_vadd a v Ha Hv) as Hav.
  pose proof (pre_tweak a r i Ha Hr) as A0. pose proof (pre_tweak a r (S i) Ha Hr) as A1.
  pose proof (pre_tweak _ r i Hav Hr) as B0. pose proof (pre_tweak _ r (S i) Hav Hr) as B1.
  rewrite pre_S in A1, B1. rewrite pre_vadd in B0 by auto. rewrite pre_S, vadd_nth in B1 by auto.
  rewrite pre_vadd in B1 by auto. rewrite pre_S in A1.
  pose proof (pre_nonneg i a Ha). pose proof (pre_nonneg i v Hv).
  pose proof (nonneg_nth a i Ha). pose proof (nonneg_nth v i Hv). pose proof (Hs i). lia.
Qed.

Lemma tweak_add_gen a b r : length a = length b -> nonneg a -> nonneg b -> 0 <= r ->
  (forall i, pre i a = 0 \/ r <= pre i b) ->
  tweak_closed (vadd a b) r = vadd a (tweak_closed b r).
Proof.
  intros Hl Ha Hb Hr H. pose proof (nonneg_vadd a b Ha Hb) as Hab. apply pre_ext.
  - rewrite tweak_closed_length, (vadd_length a b (length a)), (vadd_length a _ (length a)); rewrite ?tweak_closed_length; auto.
  - intros i. rewrite pre_vadd by (rewrite tweak_closed_length; auto).
    rewrite !pre_tweak by auto. rewrite pre_vadd by auto.
    pose proof (pre_nonneg i a Ha). pose proof (pre_nonneg i b Hb). specialize (H i). lia.
Qed.

Lemma pre_support a v i : nonneg a -> nonneg v -> (forall i, 0 < nth i a 0 -> 0 < nth i v 0) ->
  pre i a = 0 \/ 1 <= pre i v.
Proof.
  intros Ha Hv H. induction i as [|i IH]; [left; reflexivity|]. rewrite !pre_S.
  pose proof (pre_nonneg i a Ha). pose proof (pre_nonneg i v Hv).
  pose proof (nonneg_nth a i Ha). pose proof (nonneg_nth v i Hv). specialize (H i). lia.
Qed.

(** a + r v tweaked by r is a + (r v tweaked by r) *)
Lemma tweak_add_dir a v r : length a = length v -> nonneg a -> nonneg v -> 0 <= r ->
  (forall i, 0 < nth i a 0 -> 0 < nth i v 0) ->
  tweak_closed (vadd a (vscale r v)) r = vadd a (tweak_closed (vscale r v) r).
Proof.
  intros Hl Ha Hv Hr H. apply tweak_add_gen; auto.
  - now rewrite vscale_length.
  - apply nonneg_iff. intros i _. rewrite vscale_nth. pose proof (nonneg_nth v i Hv). nia.
  - intros i. destruct (pre_support a v i Ha Hv H); auto. right. rewrite pre_vscale. nia.
Qed.

Lemma choose_dir_good d w : nonneg w -> Z.of_nat (length w) <= d -> d <= zsum w ->
  exists v, choose_dir d w = OK v /\ good_dir d w v.
Proof.
  intros H1 H2 H3. destruct (choose_dir_ok d w H1 H2 H3) as (v & C1 & C2 & C3 & C4).
  exists v. split; auto. split; auto.
Qed.
