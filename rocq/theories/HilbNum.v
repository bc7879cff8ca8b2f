(** The numbers compared by the constructors: coefficients of (1+...+x^(e-1))^m
    and their sums over a residue class. *)
From Coq Require Import ZArith List Bool Lia.
From Verif Require Import Base VecSpec ToolsSpec ToolsProofs MatProofs DRModel NDModel SolveProofs HilbTop HilbDim.
Import ListNotations.
Open Scope Z_scope.

(** ** Hilbert function of a complete intersection *)
Lemma mons_0 t : zlen (mons 0 t) = if t =? 0 then 1 else 0.
Proof.
  unfold mons. destruct (Z.ltb_spec t 0), (Z.eqb_spec t 0); try lia; try reflexivity.
  - now subst.
  - destruct (Z.to_nat t) eqn:E; [lia|]. reflexivity.
Qed.

Lemma length_flat_map {A B} (f : A -> list B) l : length (flat_map f l) = list_sum (map (fun a => length (f a)) l).
Proof. induction l as [|a l IH]; [reflexivity|]. cbn [flat_map map]. rewrite app_length, IH. reflexivity. Qed.

Lemma enum_S m k : length (enum (S m) k) = list_sum (map (fun a => length (enum m (k - a))) (seq 0 (S k))).
Proof.
  destruct m as [|m].
  - cbn [enum length]. symmetry.
    rewrite seq_S, map_app, list_sum_app. cbn [map list_sum fold_right].
    replace (k - (0 + k))%nat with 0%nat by lia.
    assert (E : list_sum (map (fun a => length (match (k - a)%nat with 0%nat => [[]] | S _ => @nil (list Z) end)) (seq 0 k)) = 0%nat).
    { assert (G : forall s n, (s + n <= k)%nat -> list_sum (map (fun a => length (match (k - a)%nat with 0%nat => [[]] | S _ => @nil (list Z) end)) (seq s n)) = 0%nat).
      { intros s n. revert s. induction n as [|n IH]; intros s H; cbn [seq map list_sum fold_right]; auto.
        destruct (k - s)%nat eqn:E; [lia|]. cbn [length]. rewrite Nat.add_0_l. apply IH. lia. }
      apply G. lia. }
    rewrite E. reflexivity.
  - rewrite enum_SS. rewrite length_flat_map. f_equal. apply map_ext. intros a. now rewrite map_length.
Qed.

Lemma mons_S m t : zlen (mons (S m) t) - zlen (mons (S m) (t - 1)) = zlen (mons m t).
Proof.
  unfold mons. destruct (Z.ltb_spec t 0), (Z.ltb_spec (t - 1) 0); try lia; [reflexivity| |].
  - replace t with 0 by lia. change (Z.to_nat 0) with 0%nat. unfold zlen. rewrite enum_S. cbn [seq map list_sum fold_right Nat.sub length]. lia.
  - unfold zlen. rewrite !enum_S. replace (Z.to_nat t) with (S (Z.to_nat (t - 1))) by lia. set (k := Z.to_nat (t - 1)).
    change (seq 0 (S (S k))) with (0%nat :: seq 1 (S k)). cbn [map list_sum fold_right]. rewrite Nat.sub_0_r.
    rewrite <- seq_shift, map_map. cbn [Nat.sub].
    change (fold_right Nat.add 0%nat (map (fun x => length (enum m (k - x))) (seq 0 (S k)))) with (list_sum (map (fun x => length (enum m (k - x))) (seq 0 (S k)))). lia.
Qed.

Lemma hs_S m e k : forall t, hs (S m) e k t - hs (S m) e k (t - 1) = hs m e k t.
Proof.
  induction k as [|k IH]; intros t; cbn [hs]; [apply mons_S|]. rewrite <- !IH. replace (t - e - 1) with (t - 1 - e) by lia. lia.
Qed.
Lemma hs_neg m e k : 0 < e -> forall t, t < 0 -> hs m e k t = 0.
Proof.
  intros He. induction k as [|k IH]; intros t Ht; cbn [hs].
  - unfold mons. destruct (Z.ltb_spec t 0); [reflexivity|lia].
  - rewrite !IH; lia.
Qed.

Lemma conv_sum a b (g : nat -> Z) : a <> [] -> b <> [] ->
  sumf (fun k => g k * conv_coeff a b k) (seq 0 (length a + length b - 1)) =
  sumf (fun i => sumf (fun j => g (i + j)%nat * (nth i a 0 * nth j b 0)) (seq 0 (length b))) (seq 0 (length a)).
Proof.
  intros Ha Hb. assert (La : (0 < length a)%nat) by (destruct a; cbn [length]; [congruence|lia]). assert (Lb : (0 < length b)%nat) by (destruct b; cbn [length]; [congruence|lia]).
  transitivity (sumf (fun k => sumf (fun i => if Nat.leb i k then g k * (nth i a 0 * nth (k - i) b 0) else 0) (seq 0 (length a))) (seq 0 (length a + length b - 1))).
  - apply sumf_ext. intros k Hk. apply in_seq in Hk. unfold conv_coeff. rewrite <- sumf_scal.
    transitivity (sumf (fun i => if Nat.leb i k then g k * (nth i a 0 * nth (k - i) b 0) else 0) (seq 0 (Nat.max (S k) (length a)))).
    + replace (Nat.max (S k) (length a)) with (S k + (Nat.max (S k) (length a) - S k))%nat by lia. rewrite seq_app, sumf_app.
      rewrite (sumf_zero _ (seq (0 + S k) _)).
      * rewrite Z.add_0_r. apply sumf_ext. intros i Hi. apply in_seq in Hi. destruct (Nat.leb_spec i k); [auto|lia].
      * intros i Hi. apply in_seq in Hi. destruct (Nat.leb_spec i k); [lia|auto].
    + replace (Nat.max (S k) (length a)) with (length a + (Nat.max (S k) (length a) - length a))%nat by lia. rewrite seq_app, sumf_app.
      rewrite (sumf_zero _ (seq (0 + length a) _)); [lia|]. intros i Hi. apply in_seq in Hi. rewrite (nth_overflow a) by lia. destruct (Nat.leb i k); lia.
  - rewrite sumf_swap. apply sumf_ext. intros i Hi. apply in_seq in Hi.
    replace (length a + length b - 1)%nat with (i + (length b + (length a - 1 - i)))%nat by lia. rewrite seq_app, sumf_app.
    rewrite (sumf_zero _ (seq 0 i)).
    2:{ intros k Hk. apply in_seq in Hk. destruct (Nat.leb_spec i k); [lia|auto]. }
    rewrite seq_app, sumf_app. rewrite (sumf_zero _ (seq (0 + i + length b) _)).
    2:{ intros k Hk. apply in_seq in Hk. rewrite (nth_overflow b) by lia. destruct (Nat.leb i k); lia. }
    rewrite Nat.add_0_l, seq_off, sumf_map. rewrite Z.add_0_l, Z.add_0_r. apply sumf_ext. intros j Hj. destruct (Nat.leb_spec i (i + j)); [|lia].
    now replace (i + j - i)%nat with j by lia.
Qed.

Lemma nth_ones e j : nth j (repeat 1 e) 0 = if Nat.ltb j e then 1 else 0.
Proof.
  revert j. induction e as [|e IH]; intros [|j]; cbn [repeat nth]; auto. rewrite IH. destruct (Nat.ltb_spec j e), (Nat.ltb_spec (S j) (S e)); lia.
Qed.

Lemma znth_map_seq (F : nat -> Z) n k : znth (map F (seq 0 n)) (Z.of_nat k) = if Nat.ltb k n then F k else 0.
Proof.
  unfold znth. destruct (Z.ltb_spec (Z.of_nat k) 0); [lia|]. rewrite Nat2Z.id. destruct (Nat.ltb_spec k n).
  - rewrite (nth_indep _ 0 (F 0%nat)) by (rewrite map_length, seq_length; auto). rewrite map_nth, seq_nth by auto. reflexivity.
  - apply nth_overflow. rewrite map_length, seq_length. auto.
Qed.

Lemma conv_ones a e t : a <> [] -> (0 < e)%nat ->
  znth (conv_mul a (repeat 1 e)) t = sumf (fun j => znth a (t - Z.of_nat j)) (seq 0 e).
Proof.
  intros Ha He. destruct (Z_lt_le_dec t 0) as [N|N].
  - unfold znth at 1. destruct (Z.ltb_spec t 0); [|lia]. symmetry. apply sumf_zero. intros j _. unfold znth. destruct (Z.ltb_spec (t - Z.of_nat j) 0); [auto|lia].
  - rewrite <- (Z2Nat.id t) by auto. set (k := Z.to_nat t). unfold conv_mul. rewrite znth_map_seq, repeat_length.
    assert (La : (0 < length a)%nat) by (destruct a; cbn [length]; [congruence|lia]).
    assert (E : conv_coeff a (repeat 1 e) k = sumf (fun j => znth a (Z.of_nat k - Z.of_nat j)) (seq 0 e)).
    { unfold conv_coeff.
      transitivity (sumf (fun i => sumf (fun j => if Nat.eqb (i + j) k then nth i a 0 else 0) (seq 0 e)) (seq 0 (S k))).
      - apply sumf_ext. intros i Hi. apply in_seq in Hi. rewrite nth_ones. destruct (Nat.ltb_spec (k - i) e).
        + rewrite (sumf_seq_single _ 0 e (k - i)); [|lia|].
          * replace (i + (k - i))%nat with k by lia. rewrite Nat.eqb_refl. lia.
          * intros j _ Nj. destruct (Nat.eqb_spec (i + j) k); [lia|auto].
        + rewrite sumf_zero; [lia|]. intros j Hj. apply in_seq in Hj. destruct (Nat.eqb_spec (i + j) k); [lia|auto].
      - rewrite sumf_swap. apply sumf_ext. intros j Hj. unfold znth. destruct (Z.ltb_spec (Z.of_nat k - Z.of_nat j) 0).
        + apply sumf_zero. intros i Hi. destruct (Nat.eqb_spec (i + j) k); [lia|auto].
        + replace (Z.to_nat (Z.of_nat k - Z.of_nat j)) with (k - j)%nat by lia. rewrite (sumf_seq_single _ 0 (S k) (k - j)); [|lia|].
          * replace (k - j + j)%nat with k by lia. now rewrite Nat.eqb_refl.
          * intros i _ Ni. destruct (Nat.eqb_spec (i + j) k); [lia|auto]. }
    rewrite E. destruct (Nat.ltb_spec k (length a + e - 1)) as [|C]; auto. symmetry. apply sumf_zero. intros j Hj. apply in_seq in Hj.
    unfold znth. destruct (Z.ltb_spec (Z.of_nat k - Z.of_nat j) 0); auto. apply nth_overflow. lia.
Qed.

Lemma hilbert_pow_length m e : (0 < e)%nat -> length (hilbert_pow m (repeat 1 e)) = (m * (e - 1) + 1)%nat.
Proof.
  intros He. induction m as [|m IH]; [reflexivity|]. cbn [hilbert_pow]. unfold conv_mul. rewrite map_length, seq_length, IH, repeat_length. lia.
Qed.
Lemma hilbert_pow_nonempty m e : (0 < e)%nat -> hilbert_pow m (repeat 1 e) <> [].
Proof. intros He H. pose proof (hilbert_pow_length m e He) as L. rewrite H in L. rewrite Nat.add_1_r in L. discriminate. Qed.

Theorem hs_hilbert m e t : (0 < e)%nat -> hs m (Z.of_nat e) m t = znth (hilbert_pow m (repeat 1 e)) t.
Proof.
  intros He. revert t. induction m as [|m IH]; intros t.
  - cbn [hs hilbert_pow]. rewrite mons_0. unfold znth. destruct (Z.ltb_spec t 0), (Z.eqb_spec t 0); try lia.
    + subst. reflexivity.
    + destruct (Z.to_nat t) as [|k] eqn:E; [lia|]. cbn [nth]. now destruct k.
  - assert (D : forall t, znth (hilbert_pow (S m) (repeat 1 e)) t - znth (hilbert_pow (S m) (repeat 1 e)) (t - 1) = hs m (Z.of_nat e) (S m) t).
    { intros u. cbn [hilbert_pow]. rewrite !conv_ones by (auto; now apply hilbert_pow_nonempty). cbn [hs]. rewrite !IH.
      destruct e as [|e']; [lia|]. rewrite (seq_S e') at 2. cbn [seq]. rewrite sumf_cons, sumf_app, sumf_cons, sumf_nil. rewrite <- seq_shift, sumf_map.
      rewrite (sumf_ext (fun a => znth _ (u - Z.of_nat (S a))) (fun j => znth (hilbert_pow m (repeat 1 (S e'))) (u - 1 - Z.of_nat j))).
      2:{ intros a _. f_equal. lia. }
      rewrite Nat.add_0_l. replace (u - Z.of_nat 0) with u by lia. replace (u - 1 - Z.of_nat e') with (u - Z.of_nat (S e')) by lia. lia. }
    destruct (Z_lt_le_dec t 0) as [N|N].
    + rewrite hs_neg by lia. unfold znth. destruct (Z.ltb_spec t 0); [auto|lia].
    + pattern t. apply natlike_ind; auto.
      * specialize (D 0). rewrite <- hs_S in D. rewrite (hs_neg (S m) (Z.of_nat e) (S m) ltac:(lia) (0 - 1) ltac:(lia)) in D. unfold znth in D at 2. cbn [Z.sub Z.ltb Z.compare Z.add Z.opp] in D. lia.
      * intros u Hu E. specialize (D (Z.succ u)). rewrite <- hs_S in D. replace (Z.succ u - 1) with u in D by lia. lia.
Qed.

(** ** sums over a residue class modulo d *)
Section Res.
  Variable d : Z.
  Hypothesis Hd : 0 < d.

  Definition rcls (l : list Z) (r : Z) : Z :=
    sumf (fun j => if (Z.of_nat j - r) mod d =? 0 then nth j l 0 else 0) (seq 0 (length l)).

  Lemma rcls_period l r r' : (r - r') mod d = 0 -> rcls l r = rcls l r'.
  Proof.
    intros H. apply sumf_ext. intros j _. apply Z.mod_divide in H; [|lia]. destruct H as [k Hk].
    replace (Z.of_nat j - r') with (Z.of_nat j - r + k * d) by lia. now rewrite Z.mod_add by lia.
  Qed.

  Lemma zsum_seq (l : list Z) : zsum l = sumf (fun j => nth j l 0) (seq 0 (length l)).
  Proof. rewrite <- (sumf_nth (fun x => x) l 0). unfold sumf. now rewrite map_id. Qed.

  Lemma rcls_conv a e r : a <> [] -> (0 < e)%nat -> rcls (conv_mul a (repeat 1 e)) r = sumf (fun j => rcls a (r - Z.of_nat j)) (seq 0 e).
  Proof.
    intros Ha He. unfold rcls at 1. unfold conv_mul. rewrite map_length, seq_length.
    transitivity (sumf (fun k => (if (Z.of_nat k - r) mod d =? 0 then 1 else 0) * conv_coeff a (repeat 1 e) k) (seq 0 (length a + length (repeat 1 e) - 1))).
    { apply sumf_ext. intros k Hk. apply in_seq in Hk. rewrite (nth_indep _ 0 (conv_coeff a (repeat 1 e) 0%nat)) by (rewrite map_length, seq_length; lia).
      rewrite map_nth, seq_nth by lia. rewrite Nat.add_0_l. destruct (_ =? 0); lia. }
    rewrite (conv_sum a (repeat 1 e) (fun k => if (Z.of_nat k - r) mod d =? 0 then 1 else 0)) by (auto; (destruct e; [lia|discriminate])).
    rewrite repeat_length. rewrite sumf_swap. apply sumf_ext. intros j Hj. apply in_seq in Hj. unfold rcls. apply sumf_ext. intros i _.
    rewrite nth_ones. destruct (Nat.ltb_spec j e); [|lia]. replace (Z.of_nat i - (r - Z.of_nat j)) with (Z.of_nat (i + j) - r) by lia. destruct (_ =? 0); lia.
  Qed.

  Lemma zsum_conv a e : a <> [] -> (0 < e)%nat -> zsum (conv_mul a (repeat 1 e)) = zsum a * Z.of_nat e.
  Proof.
    intros Ha He. rewrite zsum_seq. unfold conv_mul. rewrite map_length, seq_length.
    transitivity (sumf (fun k => 1 * conv_coeff a (repeat 1 e) k) (seq 0 (length a + length (repeat 1 e) - 1))).
    { apply sumf_ext. intros k Hk. apply in_seq in Hk. rewrite (nth_indep _ 0 (conv_coeff a (repeat 1 e) 0%nat)) by (rewrite map_length, seq_length; lia).
      rewrite map_nth, seq_nth by lia. rewrite Nat.add_0_l. lia. }
    rewrite (conv_sum a (repeat 1 e) (fun _ => 1)) by (auto; (destruct e; [lia|discriminate])). rewrite repeat_length.
    rewrite (zsum_seq a), <- sumf_scal_r. apply sumf_ext. intros i _.
    rewrite (sumf_ext _ (fun j => nth i a 0 * 1)).
    - rewrite sumf_scal. f_equal. clear. induction e as [|e IH]; [reflexivity|]. rewrite seq_S, sumf_app, IH, sumf_cons, sumf_nil. lia.
    - intros j Hj. apply in_seq in Hj. rewrite nth_ones. destruct (Nat.ltb_spec j e); lia.
  Qed.
  Lemma zsum_pow m e : (0 < e)%nat -> zsum (hilbert_pow m (repeat 1 e)) = Z.of_nat e ^ Z.of_nat m.
  Proof.
    intros He. induction m as [|m IH]; [reflexivity|]. cbn [hilbert_pow]. rewrite zsum_conv by (auto; now apply hilbert_pow_nonempty).
    rewrite IH. rewrite Nat2Z.inj_succ, Z.pow_succ_r by lia. lia.
  Qed.

  (** d consecutive classes cover everything *)
  Lemma rcls_all l r : sumf (fun j => rcls l (r - Z.of_nat j)) (seq 0 (Z.to_nat d)) = zsum l.
  Proof.
    unfold rcls. rewrite sumf_swap, zsum_seq. apply sumf_ext. intros i _.
    set (j0 := Z.to_nat ((r - Z.of_nat i) mod d)). pose proof (Z.mod_pos_bound (r - Z.of_nat i) d Hd) as B.
    rewrite (sumf_seq_single _ 0 (Z.to_nat d) j0); [|lia|].
    - replace (Z.of_nat i - (r - Z.of_nat j0)) with (- ((r - Z.of_nat i) / d) * d).
      2:{ unfold j0. rewrite Z2Nat.id by lia. pose proof (Z.div_mod (r - Z.of_nat i) d). lia. }
      now rewrite Z.mod_mul by lia.
    - intros j Hj N. destruct (Z.eqb_spec ((Z.of_nat i - (r - Z.of_nat j)) mod d) 0) as [E|]; auto. exfalso. apply N.
      apply Z.mod_divide in E; [|lia]. destruct E as [k Hk]. unfold j0.
      rewrite <- (Zmod_unique (r - Z.of_nat i) d (- k) (Z.of_nat j)); lia.
  Qed.

  Lemma rcls_full m r : rcls (hilbert_pow (S m) (repeat 1 (Z.to_nat d))) r = d ^ Z.of_nat m.
  Proof.
    cbn [hilbert_pow]. rewrite rcls_conv by (try apply hilbert_pow_nonempty; lia). rewrite rcls_all, zsum_pow by lia. now rewrite Z2Nat.id by lia.
  Qed.

  Lemma rcls_prim m : 1 < d -> d * rcls (hilbert_pow m (repeat 1 (Z.to_nat (d - 1)))) (- Z.of_nat m) = (d - 1) ^ Z.of_nat m + (-1) ^ Z.of_nat m * (d - 1).
  Proof.
    intros H1. induction m as [|m IH].
    - cbn [hilbert_pow]. unfold rcls. cbn [length seq]. rewrite sumf_cons, sumf_nil. cbn [nth]. change (Z.of_nat 0 - - Z.of_nat 0) with 0. rewrite Z.mod_0_l by lia. cbn [Z.eqb].
      change (Z.of_nat 0) with 0. rewrite !Z.pow_0_r. lia.
    - cbn [hilbert_pow]. set (a := hilbert_pow m (repeat 1 (Z.to_nat (d - 1)))) in *.
      rewrite rcls_conv by (try apply hilbert_pow_nonempty; lia).
      pose proof (rcls_all a (- Z.of_nat (S m))) as A. replace (Z.to_nat d) with (S (Z.to_nat (d - 1))) in A by lia.
      rewrite seq_S, sumf_app, sumf_cons, sumf_nil, Nat.add_0_l in A.
      rewrite (rcls_period a _ (- Z.of_nat m)) in A.
      2:{ replace (- Z.of_nat (S m) - Z.of_nat (Z.to_nat (d - 1)) - - Z.of_nat m) with ((-1) * d) by lia. apply Z.mod_mul. lia. }
      unfold a in A at 3. rewrite zsum_pow, Z2Nat.id in A by lia. rewrite Nat2Z.inj_succ in A. rewrite Nat2Z.inj_succ, !Z.pow_succ_r by lia.
      match type of A with ?X + _ = _ => replace X with ((d - 1) ^ Z.of_nat m - rcls a (- Z.of_nat m)) by lia end.
      rewrite Z.mul_sub_distr_l, IH. ring.
  Qed.

  (** the entries at the positions a, a + d, ..., a + (K-1) d *)
  Lemma rcls_steps l a K : 0 <= a < d -> Z.of_nat (length l) <= a + Z.of_nat K * d ->
    sumf (fun i => znth l (a + Z.of_nat i * d)) (seq 0 K) = rcls l a.
  Proof.
    intros Ha HK. set (F := fun j : Z => if (j - a) mod d =? 0 then znth l j else 0).
    assert (E1 : rcls l a = sumf F (zseq 0 (a + Z.of_nat K * d))).
    { rewrite (zseq_app 0 (Z.of_nat (length l))) by lia. rewrite sumf_app. rewrite (sumf_zero F (zseq (Z.of_nat (length l)) _)).
      - rewrite Z.add_0_r. unfold rcls, zseq. rewrite Z.sub_0_r, Nat2Z.id.
        assert (G : forall n s, sumf (fun j => if (Z.of_nat j - a) mod d =? 0 then nth j l 0 else 0) (seq s n) = sumf F (zrange (Z.of_nat s) n)).
        { induction n as [|n IH]; intros s; [reflexivity|]. cbn [seq zrange]. rewrite !sumf_cons, IH. replace (Z.of_nat (S s)) with (Z.of_nat s + 1) by lia.
          f_equal. unfold F, znth. destruct (Z.ltb_spec (Z.of_nat s) 0); [lia|]. now rewrite Nat2Z.id. }
        apply (G (length l) 0%nat).
      - intros j Hj. apply zseq_In in Hj. unfold F, znth. destruct (Z.ltb_spec j 0); [lia|]. rewrite nth_overflow by lia. now destruct (_ =? 0). }
    rewrite E1. rewrite (zseq_app 0 a) by nia. rewrite sumf_app, (sumf_zero F (zseq 0 a)).
    2:{ intros j Hj. apply zseq_In in Hj. unfold F. destruct (Z.eqb_spec ((j - a) mod d) 0) as [E|]; auto. exfalso.
        apply Z.mod_divide in E; [|lia]. destruct E as [k Hk]. destruct (Z_lt_le_dec k 0); nia. }
    rewrite Z.add_0_l. clear E1 HK. induction K as [|K IH].
    - rewrite zseq_nil by lia. reflexivity.
    - rewrite seq_S, sumf_app, sumf_cons, sumf_nil, IH. rewrite (zseq_app a (a + Z.of_nat K * d) (a + Z.of_nat (S K) * d)) by nia. rewrite sumf_app. f_equal.
      rewrite (zseq_cons (a + Z.of_nat K * d)) by nia. rewrite sumf_cons. rewrite (sumf_zero F (zseq _ _)).
      + unfold F. replace (a + Z.of_nat K * d - a) with (Z.of_nat K * d) by lia. rewrite Z.mod_mul by lia. cbn [Z.eqb]. now rewrite Nat.add_0_l.
      + intros j Hj. apply zseq_In in Hj. unfold F. destruct (Z.eqb_spec ((j - a) mod d) 0) as [E|]; auto. exfalso.
        apply Z.mod_divide in E; [|lia]. destruct E as [k Hk]. assert (Z.of_nat K < k < Z.of_nat K + 1) by nia. lia.
  Qed.
End Res.
