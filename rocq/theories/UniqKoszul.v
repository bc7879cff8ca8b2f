(** Koszul complex of the partial derivatives and the de Rham differential:
    exactness modulo powers of a prime, and the elimination of syzygies. *)
From Coq Require Import ZArith List Bool Lia Znumtheory.
From Verif Require Import Base VecModel VecSpec ToolsModel ToolsSpec ToolsProofs DRModel DRSpec DRProofs HilbKoszul HilbPoly HilbTop HilbDim HilbInit.
Import ListNotations.
Open Scope Z_scope.

Lemma l_scal f : lin f -> forall k x w, f (fun w => k * x w) w = k * f x w.
Proof.
  intros L k x w.
  assert (N : forall k : nat, f (fun w => Z.of_nat k * x w) w = Z.of_nat k * f x w).
  { induction k0 as [|k0 IH]; [cbn; apply (l_0 f L); intros; lia|].
    rewrite (l_ext f L _ (fun w => x w + Z.of_nat k0 * x w)) by (intros; lia). rewrite (l_add f L), IH. lia. }
  destruct (Z_le_gt_dec 0 k).
  - rewrite <- (Z2Nat.id k) by lia. apply N.
  - rewrite (l_ext f L _ (fun w => - (Z.of_nat (Z.to_nat (- k)) * x w))) by (intros; rewrite Z2Nat.id; lia).
    rewrite (l_opp f L), N, Z2Nat.id by lia. lia.
Qed.

Section Scal.
  Variable Op : (fn -> fn) -> Prop.
  Hypothesis Olin : forall f, Op f -> lin f.
  Lemma dK_scal fs : Forall Op fs -> forall k c J w, dK fs (fun J w => k * c J w) J w = k * dK fs c J w.
  Proof.
    induction 1 as [|f fs Hf _ IH]; intros k c [|[] J] w; cbn [dK]; try lia.
    - rewrite (IH k (fun J => c (true :: J))). lia.
    - rewrite (IH k (fun J => c (false :: J))), (l_scal f (Olin f Hf) k (c (true :: J))). lia.
  Qed.
End Scal.

(** the set containing only i *)
Fixpoint one (k i : nat) : list bool :=
  match k, i with O, _ => [] | S k, O => true :: repeat false k | S k, S i => false :: one k i end.
Lemma one_length k : forall i, length (one k i) = k.
Proof. induction k as [|k IH]; intros [|i]; cbn [one length]; auto. now rewrite repeat_length. Qed.
Lemma cnt_false k : cnt (repeat false k) = 0.
Proof. induction k; cbn [repeat cnt]; lia. Qed.
Lemma cnt_one k : forall i, (i < k)%nat -> cnt (one k i) = 1.
Proof. induction k as [|k IH]; intros [|i] H; cbn [one cnt]; try lia; [rewrite cnt_false; lia|]. rewrite IH by lia. lia. Qed.

Lemma dK_first fs : forall c w, dK fs c (repeat false (length fs)) w = sumf (fun i => nth i fs (fun x => x) (c (one (length fs) i)) w) (seq 0 (length fs)).
Proof.
  induction fs as [|f fs IH]; intros c w; [reflexivity|]. cbn [length repeat dK seq]. rewrite sumf_cons, IH, <- seq_shift, sumf_map. cbn [nth one]. lia.
Qed.

(** the 1-chain with components A *)
Fixpoint mk1 (A : nat -> fn) (J : list bool) : fn :=
  match J with
  | [] => fun _ => 0
  | true :: J => if cnt J =? 0 then A O else fun _ => 0
  | false :: J => mk1 (fun i => A (S i)) J
  end.
Lemma mk1_one k : forall A i, (i < k)%nat -> mk1 A (one k i) = A i.
Proof.
  induction k as [|k IH]; intros A [|i] H; try lia; cbn [one mk1]; [now rewrite cnt_false|]. apply (IH (fun i => A (S i))). lia.
Qed.
Lemma mk1_hdeg A : hdeg 1 (mk1 A).
Proof.
  intros J. revert A. induction J as [|[] J IH]; intros A N w; cbn [mk1 cnt] in *.
  - reflexivity.
  - destruct (Z.eqb_spec (cnt J) 0); [lia|auto].
  - apply IH. lia.
Qed.
Lemma mk1_in (S : fn -> Prop) J : S (fun _ => 0) -> forall A, (forall i, (i < length J)%nat -> S (A i)) -> S (mk1 A J).
Proof.
  intros H0. induction J as [|[] J IH]; intros A HA; cbn [mk1 length] in *; auto.
  - destruct (_ =? _); auto. apply HA. lia.
  - apply IH. intros. apply HA. lia.
Qed.
(** a nonempty set with one element *)
Lemma cnt_1 J : cnt J = 1 -> exists i, (i < length J)%nat /\ J = one (length J) i.
Proof.
  induction J as [|[] J IH]; cbn [cnt length]; intros H; [lia| |].
  - exists O. split; [lia|]. cbn [one]. f_equal. apply cnt_0. lia.
  - destruct IH as (i & Hi & E); [lia|]. exists (S i). split; [lia|]. cbn [one]. now f_equal.
Qed.

Lemma dK_split (F D : nat -> fn -> fn) l : forall c J w,
  dK (map (fun i x w => F i x w + D i x w) l) c J w = dK (map F l) c J w + dK (map D l) c J w.
Proof.
  induction l as [|i l IH]; intros c [|[] J] w; cbn [map dK]; try lia.
  - rewrite (IH (fun J => c (true :: J))). lia.
  - rewrite (IH (fun J => c (false :: J))). lia.
Qed.

(** ** exactness modulo powers of p *)
Section Power.
  Variables (m : nat) (p e : Z) (Ps : list (list (list Z * Z))).
  Hypothesis Hp : 2 <= p.
  Hypothesis He : 0 < e.
  Hypothesis HF : Forall (form m e) Ps.
  Let FO := forms_Op m e Ps HF.

  Lemma dK_ideg t c : (forall J, Gs m (c J)) -> ideg e t c -> forall J, length J = length Ps -> homog (t - e * cnt J) (dK (map act Ps) c J).
  Proof using HF.
    intros Gc Ic J HJ w N.
    rewrite (dK_ext (OpP m) (OpP_lin m) _ FO c (projc e t c) J); [| |now rewrite map_length].
    - rewrite (dK_proj m e Ps HF t c J HJ Gc). unfold projc. now apply proj_homog.
    - intros J' w' _. unfold projc. symmetry. apply proj_id, Ic.
  Qed.

  Lemma vanish_power k : vanishH m p e Ps -> vanishH m (p ^ Z.of_nat k) e Ps.
  Proof using Hp He HF.
    intros V. induction k as [|k IH].
    - intros t i c Hi Gc Dc Ic Zc. exists (fun _ _ => 0). split; [intros; apply (s_0 _ (Gs_sub m))|]. split; [intros J _ w; reflexivity|].
      split; [intros J w _; reflexivity|]. intros J HJ w. cbn. exists (c J w - dK (map act Ps) (fun _ _ => 0) J w - 0). lia.
    - rewrite Nat2Z.inj_succ, Z.pow_succ_r by lia. set (q := p ^ Z.of_nat k) in *. assert (Q0 : 0 < q) by (apply Z.pow_pos_nonneg; lia).
      intros t i c Hi Gc Dc Ic Zc.
      destruct (V t i c Hi Gc Dc Ic) as (u & Gu & Du & Iu & Bu).
      { intros J HJ w. destruct (Zc J HJ w) as (z & Hz). exists (z * q). rewrite Hz. ring. }
      set (c' := (fun J w => if Nat.eqb (length J) (length Ps) then (c J w - dK (map act Ps) u J w) / p else 0) : list bool -> list Z -> Z).
      assert (C' : forall J w, length J = length Ps -> p * c' J w = c J w - dK (map act Ps) u J w).
      { intros J w HJ. unfold c'. rewrite HJ, Nat.eqb_refl. destruct (Bu J HJ w) as (z & Hz). rewrite Z.sub_0_r in Hz. rewrite Hz, Z.div_mul by lia. ring. }
      destruct (IH t i c' Hi) as (u' & Gu' & Du' & Iu' & Bu').
      + intros J w N. unfold c' in N. destruct (Nat.eqb _ _); [|congruence].
        assert (GG : Gs m (fun w => c J w - dK (map act Ps) u J w)).
        { apply (s_sub _ (Gs_sub m)); auto. apply (dK_G (Gs m) (OpP m) (Gs_sub m) (OpP_G m) _ FO); auto. }
        apply GG. intros E0. rewrite E0 in N. now rewrite Zdiv_0_l in N.
      + intros J N w. unfold c'. destruct (Nat.eqb _ _); auto. rewrite Dc by auto.
        rewrite (dK_deg (OpP m) (OpP_lin m) _ FO (i + 1) u Du J) by lia. now rewrite Zdiv_0_l.
      + intros J w N. unfold c'. destruct (Nat.eqb_spec (length J) (length Ps)) as [E|]; auto. rewrite Ic by auto.
        rewrite (dK_ideg t u Gu Iu J E) by auto. now rewrite Zdiv_0_l.
      + intros J HJ w. destruct (Zc J HJ w) as (z & Hz). exists z. rewrite Z.sub_0_r in *.
        assert (E : p * dK (map act Ps) c' J w = dK (map act Ps) c J w).
        { rewrite <- (dK_scal (OpP m) (OpP_lin m) _ FO).
          rewrite (dK_ext (OpP m) (OpP_lin m) _ FO _ (fun J w => c J w - dK (map act Ps) u J w) J); [| |now rewrite map_length].
          - rewrite (dK_sub (OpP m) (OpP_lin m) _ FO c (dK (map act Ps) u)).
            rewrite (dK_dK (OpP m) (OpP_lin m) (OpP_comm m) _ FO u) by (now rewrite map_length). lia.
          - intros J' w' HJ'. rewrite map_length in HJ'. now apply C'. }
        apply (Z.mul_reg_l _ _ p); [lia|]. rewrite E, Hz. ring.
      + exists (fun J w => u J w + p * u' J w). split; [|split; [|split]].
        * intros J. apply (s_add _ (Gs_sub m) (u J) (fun w => p * u' J w)); auto. now apply (s_scal _ (Gs_sub m)).
        * intros J N w. rewrite Du, Du' by auto. lia.
        * intros J w N. rewrite Iu, Iu' by auto. lia.
        * intros J HJ w. destruct (Bu' J HJ w) as (z & Hz). exists z. rewrite Z.sub_0_r in *.
          rewrite (dK_add (OpP m) (OpP_lin m) _ FO u (fun J w => p * u' J w)), (dK_scal (OpP m) (OpP_lin m) _ FO).
          replace (c J w - (dK (map act Ps) u J w + p * dK (map act Ps) u' J w)) with (p * (c' J w - dK (map act Ps) u' J w)).
          -- rewrite Hz. ring.
          -- rewrite Z.mul_sub_distr_l, C' by auto. lia.
  Qed.
End Power.

Lemma eup_length w i : length (eup w i) = length w.
Proof. unfold eup. apply upd_length. Qed.
Lemma eup_nth w i j : (i < length w)%nat -> nth j (eup w i) 0 = nth j w 0 + (if Nat.eqb i j then 1 else 0).
Proof.
  unfold eup. revert i j. induction w as [|x w IH]; intros [|i] [|j] H; cbn [length upd nth Nat.eqb] in *; try lia. apply IH. lia.
Qed.
Lemma eup_comm w i j : (i < length w)%nat -> (j < length w)%nat -> eup (eup w i) j = eup (eup w j) i.
Proof.
  intros Hi Hj. apply (nth_ext _ _ 0 0); [now rewrite !eup_length|]. intros k Hk. rewrite !eup_nth by (rewrite ?eup_length; auto). lia.
Qed.
Lemma eup_zsum w i : (i < length w)%nat -> zsum (eup w i) = zsum w + 1.
Proof. unfold eup. revert i. induction w as [|x w IH]; intros [|i] H; cbn [length upd nth zsum] in *; try lia. rewrite IH by lia. lia. Qed.
Lemma eup_wsub w : forall a i, (i < length w)%nat -> length a = length w -> eup (wsub w a) i = wsub (eup w i) a.
Proof.
  intros a i Hi La. apply (nth_ext _ _ 0 0); [now rewrite eup_length, !wsub_length, eup_length|]. intros k Hk.
  rewrite eup_nth by (now rewrite wsub_length). rewrite !wsub_nth by (rewrite ?eup_length; lia). rewrite eup_nth by auto. lia.
Qed.
Lemma eminus_length a i : length (eminus a i) = length a.
Proof. revert i; induction a as [|x a IH]; intros [|i]; cbn; auto. Qed.
Lemma eminus_nth a i j : (i < length a)%nat -> nth j (eminus a i) 0 = nth j a 0 - (if Nat.eqb i j then 1 else 0).
Proof. revert i j. induction a as [|x a IH]; intros [|i] [|j] H; cbn [length eminus nth Nat.eqb] in *; try lia. apply IH. lia. Qed.
Lemma wsub_eminus w a i : (i < length w)%nat -> length a = length w -> wsub w (eminus a i) = wsub (eup w i) a.
Proof.
  intros Hi La. apply (nth_ext _ _ 0 0); [now rewrite !wsub_length, eup_length|]. intros k Hk.
  rewrite !wsub_nth by (rewrite ?eup_length, ?eminus_length; lia). rewrite eup_nth, eminus_nth by lia. lia.
Qed.

Lemma eup_nonneg w i : (i < length w)%nat -> nonneg (eup w i) -> -1 <= nth i w 0 /\ (nth i w 0 <> -1 -> nonneg w).
Proof.
  intros Hi H. pose proof (nonneg_nth (eup w i) i H) as H0. rewrite eup_nth, Nat.eqb_refl in H0 by auto. split; [lia|]. intros N.
  apply Forall_forall. intros y Hy. destruct (In_nth _ _ 0 Hy) as (k & Hk & <-). pose proof (nonneg_nth (eup w i) k H) as H1.
  rewrite eup_nth in H1 by auto. destruct (Nat.eqb_spec i k) as [<-|]; lia.
Qed.

(** ** derivatives *)
Section Deriv.
  Variables (n : nat) (d : Z) (f : poly).
  Hypothesis W : wf_poly n d f.
  Hypothesis Hd : 2 <= d.
  Let m := S n.

  (** d/dx_i *)
  Definition Dx (i : nat) (x : fn) : fn := fun w => if Nat.eqb (length w) m then (nth i w 0 + 1) * x (eup w i) else 0.
  Definition Fx (i : nat) : fn -> fn := act (dxP f i).

  Lemma Dx_lin i : lin (Dx i).
  Proof.
    split; unfold Dx.
    - intros x y H w. destruct (Nat.eqb _ _); auto. now rewrite H.
    - intros x y w. destruct (Nat.eqb _ _); lia.
  Qed.
  Lemma Dx_comm i j x w : (i < m)%nat -> (j < m)%nat -> Dx i (Dx j x) w = Dx j (Dx i x) w.
  Proof.
    intros Hi Hj. unfold Dx. rewrite !eup_length. destruct (Nat.eqb_spec (length w) m) as [E|]; auto.
    rewrite !eup_nth by lia. rewrite (eup_comm w i j) by lia. destruct (Nat.eqb_spec i j) as [->|N].
    - rewrite Nat.eqb_refl. reflexivity.
    - destruct (Nat.eqb_spec j i); [congruence|]. ring.
  Qed.
  Lemma Dx_G i x : (i < m)%nat -> Gs m x -> Gs m (Dx i x).
  Proof.
    intros Hi Gx w N. unfold Dx in N. destruct (Nat.eqb_spec (length w) m) as [E|]; [|congruence]. split; auto.
    destruct (Gx (eup w i)) as (_ & H); [intros E0; rewrite E0 in N; lia|]. apply eup_nonneg in H; [|lia]. destruct H as (_ & H). apply H. intros E1. rewrite E1 in N. lia.
  Qed.
  Lemma Dx_homog i t x : (i < m)%nat -> homog t x -> homog (t - 1) (Dx i x).
  Proof.
    intros Hi Hx w N. unfold Dx. destruct (Nat.eqb_spec (length w) m) as [E|]; auto. rewrite Hx; [lia|]. rewrite eup_zsum by lia. lia.
  Qed.

  Lemma f_len a c : In (a, c) f -> length a = m.
  Proof using W. intros H. apply (proj2 W) in H. apply H. Qed.

  (** [d/dx_i, f_j] = f_ij *)
  Lemma Dx_Fx i j x w : (i < m)%nat -> (j < m)%nat ->
    Dx i (Fx j x) w - Fx j (Dx i x) w = if Nat.eqb (length w) m then act (dxP (dxP f j) i) x w else 0.
  Proof using W.
    intros Hi Hj. unfold Fx, act, Dx. destruct (Nat.eqb_spec (length w) m) as [E|N].
    - unfold dxP. rewrite !sumf_map. cbn [fst snd]. rewrite <- sumf_scal.
      match goal with |- sumf ?F f - sumf ?G f = sumf ?H f => enough (X : sumf F f = sumf G f + sumf H f) by lia end.
      rewrite <- sumf_plus. apply sumf_ext. intros [a c] Ha. cbn [fst snd]. pose proof (f_len a c Ha) as La.
      rewrite wsub_length, E, Nat.eqb_refl. rewrite eup_wsub by (rewrite ?eminus_length; lia).
      rewrite (wsub_eminus w (eminus a j) i) by (rewrite ?eminus_length; lia).
      rewrite wsub_nth by (rewrite eminus_length; lia). ring.
    - rewrite sumf_zero; [lia|]. intros t _. rewrite wsub_length. destruct (Nat.eqb_spec (length w) m); [contradiction|lia].
  Qed.
  Lemma Fx_sym i j x w : (i < m)%nat -> (j < m)%nat -> length w = m -> act (dxP (dxP f j) i) x w = act (dxP (dxP f i) j) x w.
  Proof using W.
    intros Hi Hj Lw. unfold act, dxP. rewrite !sumf_map. cbn [fst snd]. apply sumf_ext. intros [a c] Ha. cbn [fst snd]. pose proof (f_len a c Ha) as La.
    rewrite !eminus_nth by lia. replace (eminus (eminus a j) i) with (eminus (eminus a i) j).
    - destruct (Nat.eqb_spec j i) as [->|N]; [rewrite Nat.eqb_refl; ring|]. destruct (Nat.eqb_spec i j); [congruence|ring].
    - apply (nth_ext _ _ 0 0); [now rewrite !eminus_length|]. intros k Hk. rewrite !eminus_nth by (rewrite ?eminus_length; lia). lia.
  Qed.

  Definition Ex (i : nat) (x : fn) : fn := fun w => Fx i x w + Dx i x w.
  Definition Fs := map Fx (seq 0 m).
  Definition Ds := map Dx (seq 0 m).
  Definition Es := map Ex (seq 0 m).

  Lemma Ex_lin i : lin (Ex i).
  Proof.
    split; unfold Ex.
    - intros x y H w. unfold Fx. now rewrite (l_ext _ (act_lin _) _ _ H), (l_ext _ (Dx_lin i) _ _ H).
    - intros x y w. unfold Fx. rewrite (l_add _ (act_lin _)), (l_add _ (Dx_lin i)). lia.
  Qed.
  Lemma Ex_comm i j x w : (i < m)%nat -> (j < m)%nat -> Ex i (Ex j x) w = Ex j (Ex i x) w.
  Proof using W.
    assert (X : forall i j, Ex i (Ex j x) w = Fx i (Fx j x) w + Fx i (Dx j x) w + (Dx i (Fx j x) w + Dx i (Dx j x) w)).
    { intros k l. unfold Ex at 1. unfold Ex. unfold Fx at 1. rewrite (l_add _ (act_lin _) (Fx l x) (Dx l x)), (l_add _ (Dx_lin k) (Fx l x) (Dx l x)). reflexivity. }
    intros Hi Hj. rewrite !X. rewrite (Dx_comm i j) by auto. 
    assert (Y : Fx i (Fx j x) w = Fx j (Fx i x) w) by apply act_comm.
    pose proof (Dx_Fx i j x w Hi Hj) as E1. pose proof (Dx_Fx j i x w Hj Hi) as E2.
    destruct (Nat.eqb_spec (length w) m) as [E|]; [rewrite (Fx_sym i j) in E1 by auto|]; lia.
  Qed.

  Definition opE (g : fn -> fn) : Prop := exists i, (i < m)%nat /\ g = Ex i.
  Definition opD (g : fn -> fn) : Prop := exists i, (i < m)%nat /\ g = Dx i.

  Lemma map_seq_ops (F : nat -> fn -> fn) : Forall (fun g => exists i, (i < m)%nat /\ g = F i) (map F (seq 0 m)).
  Proof. apply Forall_forall. intros g Hg. apply in_map_iff in Hg. destruct Hg as (i & <- & Hi). apply in_seq in Hi. exists i. split; [lia|auto]. Qed.

  Lemma Fs_acts : Fs = map act (Js n f).
  Proof. unfold Fs, Js. rewrite map_map. reflexivity. Qed.
  Lemma Fs_Op : Forall (OpP m) Fs.
  Proof using W. rewrite Fs_acts. apply (forms_Op m (d - 1)). now apply Js_forms. Qed.
  Lemma Ds_Op : Forall opD Ds.
  Proof. apply map_seq_ops. Qed.
  Lemma Es_Op : Forall opE Es.
  Proof. apply map_seq_ops. Qed.
  Lemma opD_lin g : opD g -> lin g.
  Proof. intros (i & _ & ->). apply Dx_lin. Qed.
  Lemma opD_comm g h : opD g -> opD h -> forall x w, g (h x) w = h (g x) w.
  Proof. intros (i & Hi & ->) (j & Hj & ->) x w. now apply Dx_comm. Qed.
  Lemma opE_lin g : opE g -> lin g.
  Proof. intros (i & _ & ->). apply Ex_lin. Qed.
  Lemma opE_comm g h : opE g -> opE h -> forall x w, g (h x) w = h (g x) w.
  Proof using W. intros (i & Hi & ->) (j & Hj & ->) x w. now apply Ex_comm. Qed.
  Lemma len_Fs : length Fs = m.
  Proof. unfold Fs. now rewrite map_length, seq_length. Qed.
  Lemma len_Ds : length Ds = m.
  Proof. unfold Ds. now rewrite map_length, seq_length. Qed.
  Lemma len_Es : length Es = m.
  Proof. unfold Es. now rewrite map_length, seq_length. Qed.

  Lemma dE c J w : dK Es c J w = dK Fs c J w + dK Ds c J w.
  Proof. unfold Es, Fs, Ds. rewrite <- dK_split. reflexivity. Qed.

  (** the two differentials anticommute *)
  Lemma anticomm c J w : length J = m -> dK Fs (dK Ds c) J w = - dK Ds (dK Fs c) J w.
  Proof using W.
    intros HJ. assert (Z1 : dK Es (dK Es c) J w = 0) by (apply (dK_dK opE opE_lin opE_comm Es Es_Op); now rewrite len_Es).
    rewrite dE in Z1.
    rewrite (dK_ext _ (OpP_lin m) Fs Fs_Op _ (fun J w => dK Fs c J w + dK Ds c J w) J) in Z1 by (rewrite ?len_Fs; intros; auto using dE).
    rewrite (dK_ext _ opD_lin Ds Ds_Op _ (fun J w => dK Fs c J w + dK Ds c J w) J) in Z1 by (rewrite ?len_Ds; intros; auto using dE).
    rewrite (dK_add _ (OpP_lin m) Fs Fs_Op (dK Fs c) (dK Ds c)), (dK_add _ opD_lin Ds Ds_Op (dK Fs c) (dK Ds c)) in Z1.
    rewrite (dK_dK _ (OpP_lin m) (OpP_comm m) Fs Fs_Op c) in Z1 by (now rewrite len_Fs).
    rewrite (dK_dK _ opD_lin opD_comm Ds Ds_Op c) in Z1 by (now rewrite len_Ds). lia.
  Qed.

  (** sum of f_i A_i, sum of dA_i/dx_i *)
  Definition Fsum (A : nat -> fn) : fn := fun w => sumf (fun i => Fx i (A i) w) (seq 0 m).
  Definition Dsum (A : nat -> fn) : fn := fun w => sumf (fun i => Dx i (A i) w) (seq 0 m).
  Definition vform (t : Z) (A : nat -> fn) : Prop := forall i, (i < m)%nat -> Gs m (A i) /\ homog t (A i).

  Lemma Fsum_first c w : dK Fs c (repeat false m) w = Fsum (fun i => c (one m i)) w.
  Proof.
    rewrite <- len_Fs at 1. rewrite dK_first, len_Fs. apply sumf_ext. intros i Hi. apply in_seq in Hi. unfold Fs.
    rewrite (nth_indep _ (fun x => x) (Fx 0)) by (rewrite map_length, seq_length; lia). now rewrite (map_nth Fx), seq_nth by lia.
  Qed.
  Lemma Dsum_first c w : dK Ds c (repeat false m) w = Dsum (fun i => c (one m i)) w.
  Proof.
    rewrite <- len_Ds at 1. rewrite dK_first, len_Ds. apply sumf_ext. intros i Hi. apply in_seq in Hi. unfold Ds.
    rewrite (nth_indep _ (fun x => x) (Dx 0)) by (rewrite map_length, seq_length; lia). now rewrite (map_nth Dx), seq_nth by lia.
  Qed.

  Lemma Fsum_ext A B w : (forall i w, (i < m)%nat -> A i w = B i w) -> Fsum A w = Fsum B w.
  Proof. intros H. apply sumf_ext. intros i Hi. apply in_seq in Hi. apply (l_ext _ (act_lin _)). intros. apply H. lia. Qed.
  Lemma Dsum_ext A B w : (forall i w, (i < m)%nat -> A i w = B i w) -> Dsum A w = Dsum B w.
  Proof. intros H. apply sumf_ext. intros i Hi. apply in_seq in Hi. apply (l_ext _ (Dx_lin i)). intros. apply H. lia. Qed.

  Lemma dD_G i c J : hdeg i c -> (forall J, Gs m (c J)) -> Gs m (dK Ds c J).
  Proof.
    intros _ Gc. apply (dK_G (Gs m) opD (Gs_sub m)); auto using Ds_Op. intros g x (k & Hk & ->). now apply Dx_G.
  Qed.
  Lemma dD_homog : forall l, (forall i, In i l -> (i < m)%nat) -> forall e t (c : chn) J, (forall J, homog (t - e * cnt J) (c J)) -> length J = length l ->
    homog (t - e - 1 - e * cnt J) (dK (map Dx l) c J).
  Proof.
    induction l as [|i l IH]; intros Hl e t c [|[] J] Hc HJ w N; try discriminate; try reflexivity; injection HJ as HJ; cbn [map dK cnt] in *.
    - rewrite (IH (fun i H => Hl i (or_intror H)) e (t - e) (fun J => c (true :: J)) J); [lia| |auto|lia].
      intros J'. specialize (Hc (true :: J')). cbn [cnt] in Hc. replace (t - e - e * cnt J') with (t - e * (1 + cnt J')) by lia. auto.
    - rewrite (IH (fun i H => Hl i (or_intror H)) e t (fun J => c (false :: J)) J); [|intros J'; apply (Hc (false :: J'))|auto|lia].
      rewrite (Dx_homog i (t - e * (1 + cnt J))); [lia|apply Hl; now left|apply (Hc (true :: J))|lia].
  Qed.

  Variable q : Z.
  Hypothesis V : vanishH m q (d - 1) (Js n f).

  (** a syzygy modulo q comes from the Koszul complex *)
  Lemma syz_chain s A : vform s A -> (forall w, cong q (Fsum A w) 0) ->
    exists u : chn, (forall J, Gs m (u J)) /\ hdeg 2 u /\ ideg (d - 1) (s + (d - 1)) u /\
      forall i w, (i < m)%nat -> cong q (A i w) (dK Fs u (one m i) w).
  Proof using V W.
    intros HA HZ. set (A' := fun i => if Nat.ltb i m then A i else fun _ => 0).
    assert (EA : forall i, (i < m)%nat -> A' i = A i) by (intros i Hi; unfold A'; now destruct (Nat.ltb_spec i m); [|lia]).
    assert (VA : forall i, Gs m (A' i) /\ homog s (A' i)).
    { intros i. unfold A'. destruct (Nat.ltb_spec i m); [now apply HA|]. split; [apply (s_0 _ (Gs_sub m))|intros w _; reflexivity]. }
    destruct (V (s + (d - 1)) 1 (mk1 A')) as (u & Gu & Du & Iu & Bu); [lia| |apply mk1_hdeg| | |].
    - intros J. apply mk1_in; [apply (s_0 _ (Gs_sub m))|]. intros; apply VA.
    - intros J w N. destruct (Z.eq_dec (cnt J) 1) as [E|E]; [|now apply mk1_hdeg].
      apply (mk1_in (fun x => x w = 0)); [reflexivity|]. intros i _. apply (proj2 (VA i)). rewrite E in N. lia.
    - intros J HJ w. rewrite <- Fs_acts. rewrite Js_length in HJ. destruct (Z.eq_dec (cnt J) 0) as [E|E].
      + apply cnt_0 in E. rewrite HJ in E. rewrite E. fold m. rewrite Fsum_first. rewrite (Fsum_ext _ A); auto.
        intros i w' Hi. now rewrite mk1_one, EA by auto.
      + rewrite (dK_deg (OpP m) (OpP_lin m) Fs Fs_Op 1 (mk1 A') (mk1_hdeg A') J) by lia. apply cong_refl.
    - exists u. split; auto. split; auto. split; auto. intros i w Hi. specialize (Bu (one m i)). rewrite Js_length, one_length in Bu.
      specialize (Bu eq_refl w). cbv beta in Bu. rewrite mk1_one, EA, <- Fs_acts in Bu by auto. destruct Bu as (z & Hz). exists z. lia.
  Qed.

  Lemma cong_Dx i x y : (forall w, cong q (x w) (y w)) -> forall w, cong q (Dx i x w) (Dx i y w).
  Proof. intros H w. unfold Dx. destruct (Nat.eqb _ _); [|apply cong_refl]. apply cong_mul; [apply cong_refl|auto]. Qed.

  Lemma syzygy s A : vform s A -> (forall w, cong q (Fsum A w) 0) ->
    exists B, vform (s - d) B /\ (forall w, cong q (Fsum B w) (Dsum A w)) /\ forall w, Dsum B w = 0.
  Proof using V W.
    intros HA HZ. destruct (syz_chain s A HA HZ) as (u & Gu & Du & Iu & Bu).
    exists (fun i w => - dK Ds u (one m i) w). split; [|split].
    - intros i Hi. split.
      + apply (s_opp _ (Gs_sub m)). now apply (dD_G 2).
      + intros w N. unfold Ds. rewrite (dD_homog (seq 0 m)) with (e := d - 1) (t := s + (d - 1)); auto.
        * intros j Hj. apply in_seq in Hj. lia.
        * now rewrite one_length, seq_length.
        * rewrite cnt_one by auto. lia.
    - intros w. rewrite <- (Fsum_first (fun J w => - dK Ds u J w)). rewrite (dK_opp _ (OpP_lin m) Fs Fs_Op (dK Ds u)).
      rewrite anticomm by apply repeat_length. rewrite Z.opp_involutive, Dsum_first. apply cong_sumf. intros i Hi. apply in_seq in Hi.
      apply cong_Dx. intros w'. apply cong_sym. apply Bu. lia.
    - intros w. rewrite <- (Dsum_first (fun J w => - dK Ds u J w)). rewrite (dK_opp _ opD_lin Ds Ds_Op (dK Ds u)).
      rewrite (dK_dK _ opD_lin opD_comm Ds Ds_Op u) by (now rewrite len_Ds, repeat_length). reflexivity.
  Qed.

  (** it is a multiple of q up to a combination whose sum is zero *)
  Lemma syz_lift s A : 0 < q -> vform s A -> (forall w, cong q (Fsum A w) 0) ->
    exists A', vform s A' /\ forall w, Fsum A w = q * Fsum A' w.
  Proof using V W Hd.
    intros Q0 HA HZ. destruct (syz_chain s A HA HZ) as (u & Gu & Du & Iu & Bu).
    set (A' := fun i w => (A i w - dK Fs u (one m i) w) / q).
    assert (E : forall i w, (i < m)%nat -> A i w = dK Fs u (one m i) w + q * A' i w).
    { intros i w Hi. unfold A'. destruct (Bu i w Hi) as (z & Hz). rewrite Hz, Z.div_mul by lia. rewrite (Z.mul_comm q). lia. }
    exists A'. split.
    - intros i Hi. assert (X : Gs m (fun w => A i w - dK Fs u (one m i) w) /\ homog s (fun w => A i w - dK Fs u (one m i) w)).
      { split.
        - apply (s_sub _ (Gs_sub m)); [now apply HA|]. apply (dK_G (Gs m) (OpP m) (Gs_sub m) (OpP_G m) _ Fs_Op); auto.
        - intros w N. rewrite (proj2 (HA i Hi)) by auto. rewrite Fs_acts.
          rewrite (dK_ideg m (d - 1) (Js n f) (Js_forms n d f W) (s + (d - 1)) u Gu Iu (one m i)); [lia|now rewrite one_length, Js_length|].
          rewrite cnt_one by auto. lia. }
      destruct X as (X1 & X2). split.
      + intros w N. apply X1. intros E0. unfold A' in N. rewrite E0 in N. now rewrite Zdiv_0_l in N.
      + intros w N. unfold A'. specialize (X2 w N). cbv beta in X2. rewrite X2. apply Zdiv_0_l.
    - intros w. rewrite (Fsum_ext A (fun i w => dK Fs u (one m i) w + q * A' i w)) by auto. unfold Fsum.
      rewrite (sumf_ext (fun i => Fx i (fun w => dK Fs u (one m i) w + q * A' i w) w) (fun i => Fx i (dK Fs u (one m i)) w + q * Fx i (A' i) w)).
      2:{ intros i _. unfold Fx. now rewrite (l_add _ (act_lin _) (dK Fs u (one m i)) (fun w => q * A' i w)), (l_scal _ (act_lin _)). }
      rewrite sumf_plus, sumf_scal. change (sumf (fun i => Fx i (dK Fs u (one m i)) w) (seq 0 m)) with (Fsum (fun i => dK Fs u (one m i)) w).
      rewrite <- (Fsum_first (dK Fs u)). rewrite (dK_dK _ (OpP_lin m) (OpP_comm m) Fs Fs_Op u) by (now rewrite len_Fs, repeat_length). lia.
  Qed.
End Deriv.
