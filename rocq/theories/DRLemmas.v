(** Proofs: forms of the de Rham lemmas quoted by DRProps.v, and a concrete
    instance (the conic x0^2 + x1^2 over Z/9) meeting all hypotheses. *)
From Coq Require Import ZArith List Lia Bool.
From Verif Require Import Base VecModel VecSpec VecProofs ToolsModel ToolsSpec ToolsProofs PolyProofs
  MatModel MatProofs DRModel DRSpec DRProofs DRRed DRStep.
Import ListNotations.
Open Scope Z_scope.

(** * C03 *)
Lemma dict_inverts slv q p prec f D : init slv q p prec f = OK D -> wf_poly (r_n D) (r_d D) f ->
  forall l, 0 <= l <= (Z.of_nat (r_n D) + 1) * r_d D ->
  exists ts dict, get_at (r_tl D) l = OK ts /\ get_at (r_td D) l = OK dict /\
    length dict = length ts /\
    (forall t, In t ts <-> is_tuple (S (r_n D)) l t) /\
    forall k j, length k = S (r_n D) -> (dget dict k = OK j <-> nth_error ts j = Some k).
Proof.
  intros H W l Hl. destruct (init_inv _ _ _ _ _ _ H W) as (inv & _ & _).
  exists (enum (S (r_n D)) (Z.to_nat l)), (tuple_index (enum (S (r_n D)) (Z.to_nat l))).
  split; [now apply (inv_tl _ _ inv)|]. split; [now apply (inv_td _ _ inv)|].
  assert (HL : forall t, In t (enum (S (r_n D)) (Z.to_nat l)) -> length t = S (r_n D)) by (intros; eapply enum_len; eauto).
  split; [apply (tuple_index_length (S (r_n D))); auto using enum_NoDup|].
  split; [intros t; rewrite enum_In by lia; rewrite Z2Nat.id by lia; reflexivity|].
  intros k j Hk. unfold dget.
  destruct (tuple_index_spec (S (r_n D)) _ HL (enum_NoDup _ _)) as [S1 S2].
  specialize (S2 k). destruct (vfind k _) as [i|] eqn:E.
  - split.
    + intros X. injection X as <-. now apply S2.
    + intros X. apply (S2 Hk j) in X. injection X as ->. reflexivity.
  - split; [discriminate|]. intros X. apply (S2 Hk j) in X. discriminate.
Qed.

(** * C19 *)
(** coefficient of x^t in x^s df/dx_i *)
Lemma matrix_J_entry_b D (inv : dr_base D) l : r_d D - 1 <= l <= (Z.of_nat (r_n D) + 1) * r_d D ->
  exists ts ss T, get_at (r_tl D) l = OK ts /\ get_at (r_tl D) (l - (r_d D - 1)) = OK ss /\
    matrix_J D l = OK ((S (r_n D) * length ss)%nat, T) /\ shape T (length ts) (S (r_n D) * length ss) /\
    forall r i j, (r < length ts)%nat -> (i <= r_n D)%nat -> (j < length ss)%nat ->
      cong (r_q D) (mget T r (i * length ss + j)) (coef_dx (r_f D) i (nth j ss []) (nth r ts [])).
Proof.
  intros Hl. pose proof (base_d _ inv) as ND.
  destruct (matrix_J_weighted_b D inv l Hl) as (T & E & SH & W).
  exists (enum (S (r_n D)) (Z.to_nat l)), (enum (S (r_n D)) (Z.to_nat (l - (r_d D - 1)))), T.
  split; [apply (base_tl _ inv); lia|]. split; [apply (base_tl _ inv); nia|].
  split; auto. split; auto. intros r i j Hr Hi Hj.
  set (ts := enum _ (Z.to_nat l)) in *. set (ss := enum _ (Z.to_nat (l - _))) in *.
  specialize (W (fun t => if list_eq_dec Z.eq_dec t (nth r ts []) then 1 else 0) i j Hi Hj).
  rewrite (sumf_seq_single _ 0 (length ts) r) in W; [|lia|].
  - destruct (list_eq_dec Z.eq_dec (nth r ts []) (nth r ts [])) as [_|N]; [|congruence].
    rewrite Z.mul_1_r in W. rewrite W. unfold coef_dx. apply cong_sumf. intros [a c] Hac. cbn [fst snd].
    pose proof (base_h _ inv a c Hac) as (A1 & A2 & A3). pose proof (nonneg_nth a i A2).
    destruct (Z.ltb_spec 0 (nth i a 0)).
    + destruct (list_eq_dec Z.eq_dec (eminus _ i) (nth r ts [])); rewrite cong_mod; apply cong_of_eq; lia.
    + replace (nth i a 0) with 0 by lia. destruct (list_eq_dec _ _ _); apply cong_of_eq; lia.
  - intros k Hk Hne. destruct (list_eq_dec Z.eq_dec (nth k ts []) (nth r ts [])) as [X|]; [|lia].
    exfalso. apply Hne. exact (enum_nth_inj (r_n D) (Z.to_nat l) k r (proj2 Hk) Hr X).
Qed.

Definition matrix_J_entry slv D (inv : dr_inv slv D) := matrix_J_entry_b D (inv_base slv D inv).

Lemma matrix_J_low slv D (inv : dr_inv slv D) l : 0 <= l < r_d D - 1 ->
  exists ts T, get_at (r_tl D) l = OK ts /\ matrix_J D l = OK (0%nat, T) /\ shape T (length ts) 0.
Proof.
  intros Hl. pose proof (inv_nd _ _ inv) as ND.
  exists (enum (S (r_n D)) (Z.to_nat l)). eexists. split; [apply (inv_tl _ _ inv); nia|].
  unfold matrix_J. rewrite (inv_tl _ _ inv) by nia. cbn [bind].
  replace (l <? r_d D - 1) with true by (symmetry; apply Z.ltb_lt; lia).
  split; [reflexivity|apply shape_mzero].
Qed.

(** * the example: the conic x0^2 + x1^2 over Z/9 *)
Definition ex_f : poly := [([0; 2], 1); ([2; 0], 1)].
Definition ex_slv : solver := fun nc T =>
  if list_eq_dec (list_eq_dec Z.eq_dec) T [[0; 2]; [2; 0]] then
    if Nat.eqb nc 2 then OK ([], [[0; 5]; [5; 0]]) else Err EAbort
  else if list_eq_dec (list_eq_dec Z.eq_dec) T [[]] then
    if Nat.eqb nc 0 then OK ([0%nat], [[1]]) else Err EAbort
  else Err EAbort.

Lemma ex_slv_ok : solver_ok 9 ex_slv.
Proof.
  intros r nc T B U HS H. unfold ex_slv in H.
  destruct (list_eq_dec _ T [[0; 2]; [2; 0]]) as [->|_].
  - destruct (Nat.eqb_spec nc 2) as [->|]; [|discriminate]. injection H as <- <-.
    destruct HS as [<- _]. split.
    + split; [|split].
      * intros i j H. cbn in H. lia.
      * intros b [].
      * intros [|[|i]] [|[|j]] Hi Hj; cbn in Hi, Hj; try lia; cbn;
          first [apply cong_of_eq; reflexivity | exists 1; reflexivity].
    + split; [reflexivity|]. repeat constructor.
  - destruct (list_eq_dec _ T [[]]) as [->|_]; [|discriminate].
    destruct (Nat.eqb_spec nc 0) as [->|]; [|discriminate]. injection H as <- <-.
    destruct HS as [<- _]. split.
    + split; [|split].
      * intros i j H. cbn in H. lia.
      * intros b [<-|[]]. cbn. lia.
      * intros [|i] [|j] Hi Hj; cbn in Hi, Hj; try lia. cbn. reflexivity.
    + split; [reflexivity|]. repeat constructor.
Qed.

Definition ex_D : dR :=
  match init ex_slv 9 3 2 ex_f with OK D => D | Err _ => mk_dR 0 0 0 0 0 [] [] [] [] [] end.
Lemma ex_init : init ex_slv 9 3 2 ex_f = OK ex_D.
Proof. vm_compute. reflexivity. Qed.
Lemma ex_wf : wf_poly (r_n ex_D) (r_d ex_D) ex_f.
Proof.
  change (r_n ex_D) with 1%nat. change (r_d ex_D) with 2. split.
  - unfold vsorted. apply ms_cons; [reflexivity| |].
    + apply ms_cons; [reflexivity|apply ms_nil|intros k v []].
    + intros k v [X|[]]. injection X as <- <-. reflexivity.
  - intros a c [H|[H|[]]]; injection H as <- <-; repeat split; auto; repeat constructor; lia.
Qed.

(** a functional on the forms of the conic that kills all relations:
    (m-1)! x0^(2i) x1^(2j) Omega / f^m |-> (2i-1)!! (2j-1)!! 2^-(m-1), and 0 on
    other monomials *)
Fixpoint dfact (k : nat) : Z :=           (* (k-1)!! for even k, 0 for odd k *)
  match k with O => 1 | S O => 0 | S (S k') => (Z.of_nat k' + 1) * dfact k' end.
Definition ex_phi (m : Z) (a : list Z) : Z :=
  dfact (Z.to_nat (nth 0 a 0)) * dfact (Z.to_nat (nth 1 a 0)) * 5 ^ (m - 1).

Lemma dfact_step x : 1 <= x -> dfact (Z.to_nat (x + 1)) = x * dfact (Z.to_nat (x - 1)).
Proof.
  intros H. replace (Z.to_nat (x + 1)) with (S (S (Z.to_nat (x - 1)))) by lia.
  cbn [dfact]. f_equal. lia.
Qed.

Lemma ex_GD : GD 9 1 2 ex_f ex_phi.
Proof.
  intros m i h Hi (H1 & H2 & H3).
  assert (Hm : 1 <= m).
  { apply nonneg_zsum in H2. lia. }
  destruct h as [|x [|y [|]]]; cbn in H1; try lia.
  pose proof (nonneg_nth _ 0 H2) as Px. pose proof (nonneg_nth _ 1 H2) as Py. cbn in Px, Py.
  assert (P5 : 5 ^ (m + 1 - 1) = 5 * 5 ^ (m - 1)).
  { replace (m + 1 - 1) with (m - 1 + 1) by lia. rewrite Z.pow_add_r by lia. lia. }
  unfold ex_f. rewrite !sumf_cons, sumf_nil. unfold ex_phi. rewrite P5.
  destruct i as [|[|i]]; [| |lia]; cbn [fst snd nth eplus eminus].
  - destruct (Z.eq_dec x 0) as [->|Hx].
    + change (Z.to_nat (0 + 2 - 1)) with 1%nat. cbn [dfact]. apply cong_of_eq. ring.
    + replace (x + 2 - 1) with (x + 1) by lia. rewrite dfact_step by lia.
      replace (y + 0) with y by lia.
      exists (x * dfact (Z.to_nat (x - 1)) * dfact (Z.to_nat y) * 5 ^ (m - 1)). ring.
  - destruct (Z.eq_dec y 0) as [->|Hy].
    + change (Z.to_nat (0 + 2 - 1)) with 1%nat. cbn [dfact]. apply cong_of_eq. ring.
    + replace (y + 2 - 1) with (y + 1) by lia. rewrite dfact_step by lia.
      replace (x + 0) with x by lia.
      exists (y * dfact (Z.to_nat (y - 1)) * dfact (Z.to_nat x) * 5 ^ (m - 1)). ring.
Qed.
