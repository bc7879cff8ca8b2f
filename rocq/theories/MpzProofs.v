(** Proofs about integer conversion and flat arrays. *)
From Coq Require Import ZArith List Bool Lia.
From Verif Require Import Base VecModel MatModel MatProofs MpzModel MpzSpec.
Import ListNotations.
Open Scope Z_scope.

(** ** Integers *)
Lemma of_bytes_of n : forall a, 0 <= a < 256 ^ Z.of_nat n -> of_bytes (bytes_of n a) = a.
Proof.
  induction n as [|n IH]; intros a H; cbn [bytes_of of_bytes].
  - cbn in H. lia.
  - rewrite IH.
    + pose proof (Z.div_mod a 256). lia.
    + rewrite Nat2Z.inj_succ, Z.pow_succ_r in H by lia. split.
      * apply Z.div_pos; lia.
      * apply Z.div_lt_upper_bound; lia.
Qed.
Lemma num_bytes_pos b : 0 <= num_bytes b.
Proof.
  unfold num_bytes. destruct (Z.eqb_spec b 0); [lia|].
  pose proof (Z.log2_nonneg (Z.abs b)). pose proof (Z.div_pos (Z.log2 (Z.abs b)) 8). lia.
Qed.
Lemma num_bytes_enough b : 0 <= Z.abs b < 256 ^ Z.of_nat (Z.to_nat (num_bytes b)).
Proof.
  split; [lia|]. rewrite Z2Nat.id by apply num_bytes_pos. unfold num_bytes.
  destruct (Z.eqb_spec b 0) as [->|H]; [cbn; lia|].
  set (l := Z.log2 (Z.abs b)). assert (L : 0 <= l) by apply Z.log2_nonneg.
  pose proof (Z.log2_spec (Z.abs b) ltac:(lia)) as [_ S]. fold l in S.
  eapply Z.lt_le_trans; [exact S|]. change 256 with (2 ^ 8). rewrite <- Z.pow_mul_r by (try apply Z.add_nonneg_nonneg; try apply Z.div_pos; lia).
  apply Z.pow_le_mono_r; [lia|]. pose proof (Z.div_mod l 8 ltac:(lia)). pose proof (Z.mod_pos_bound l 8 ltac:(lia)). lia.
Qed.
Lemma num_bytes_fit b : num_bytes b <= (size_base2 b + 7) / 8.
Proof.
  unfold num_bytes, size_base2. destruct (Z.eqb_spec b 0); [cbn; lia|].
  replace (Z.log2 (Z.abs b) + 1 + 7) with (Z.log2 (Z.abs b) + 1 * 8) by lia. rewrite Z.div_add by lia. lia.
Qed.
Lemma sign_fix b : (if Z.sgn b =? -1 then - Z.abs b else Z.abs b) = b.
Proof. destruct (Z.eqb_spec (Z.sgn b) (-1)); lia. Qed.
Lemma conv_mpz_ok b : conv_mpz_ZZ b = OK b.
Proof. unfold conv_mpz_ZZ. rewrite of_bytes_of by apply num_bytes_enough. now rewrite sign_fix. Qed.
Lemma conv_ZZ_ok b : conv_ZZ_mpz b = OK b.
Proof.
  unfold conv_ZZ_mpz, mpz_export. pose proof (num_bytes_fit b) as F. apply Z.leb_le in F. rewrite F. cbn [bind].
  rewrite of_bytes_of by apply num_bytes_enough. now rewrite sign_fix.
Qed.

(** ** Flat arrays *)

Lemma tab_shape r c F : shape (tab r c F) r c.
Proof.
  split; [unfold tab; now rewrite map_length, seq_length|]. apply Forall_forall. intros x I. unfold tab in I.
  apply in_map_iff in I. destruct I as (i & <- & _). now rewrite map_length, seq_length.
Qed.
Lemma tab_get r c F i j : (i < r)%nat -> (j < c)%nat -> mget (tab r c F) i j = F i j.
Proof.
  intros Hi Hj. unfold mget, tab.
  rewrite nth_indep with (d' := map (F 0%nat) (seq 0 c)) by now rewrite map_length, seq_length.
  rewrite (map_nth (fun i => map (F i) (seq 0 c))), seq_nth by lia.
  rewrite nth_indep with (d' := F (0 + i)%nat 0%nat) by now rewrite map_length, seq_length.
  rewrite map_nth, seq_nth by lia. reflexivity.
Qed.
Lemma tab_mget M r c : shape M r c -> tab r c (mget M) = M.
Proof.
  intros S. apply (mat_ext _ _ r c); auto; [apply tab_shape|]. intros i j Hi Hj. now apply tab_get.
Qed.

Lemma concat_len (M : mat) r c : shape M r c -> length (concat M) = (r * c)%nat.
Proof.
  intros [L F]. subst r. induction F as [|x M H F IH]; [reflexivity|]. cbn [concat length Nat.mul]. rewrite app_length, IH. lia.
Qed.
Lemma concat_nth (M : mat) r c : shape M r c -> forall i j, (i < r)%nat -> (j < c)%nat ->
  nth_error (concat M) (i * c + j) = Some (mget M i j).
Proof.
  intros [L F]. subst r. induction F as [|x M H F IH]; intros i j Hi Hj; [cbn in Hi; lia|].
  cbn [concat]. destruct i as [|i].
  - cbn [Nat.mul Nat.add]. rewrite nth_error_app1 by lia. unfold mget. cbn [nth]. apply nth_error_nth'. lia.
  - cbn [Nat.mul]. rewrite nth_error_app2 by lia. replace (c + i * c + j - length x)%nat with (i * c + j)%nat by lia.
    rewrite IH by (cbn in Hi; lia). reflexivity.
Qed.
Lemma rd_holds a M r c i j : holds a M -> shape M r c -> (i < r)%nat -> (j < c)%nat -> rd a (i * c + j) = OK (mget M i j).
Proof.
  intros (rest & ->) S Hi Hj. unfold rd. rewrite nth_error_app1.
  - now rewrite (concat_nth M r c S).
  - rewrite (concat_len M r c S). nia.
Qed.

(** writing positions k, k+1, ... in order *)
Lemma write_seq {A} (F : A -> res Z) (G : A -> Z) (idx : A -> nat) l : forall k a,
  (forall p, In p l -> F p = OK (G p)) -> map idx l = seq k (length l) -> (k + length l <= length a)%nat ->
  foldM (fun a p => x <- F p ;; wr a (idx p) x) l a = OK (firstn k a ++ map G l ++ skipn (k + length l) a).
Proof.
  induction l as [|p l IH]; intros k a HF HI HL.
  - cbn [foldM map length app]. now rewrite Nat.add_0_r, firstn_skipn.
  - cbn [foldM]. rewrite HF by now left. cbn [bind]. cbn [map length seq] in HI. injection HI as E1 E2. rewrite E1.
    cbn [length] in HL. unfold wr. destruct (Nat.ltb_spec k (length a)); [|lia]. cbn [bind].
    rewrite (IH (S k)).
    + f_equal. cbn [map length].
      assert (X : forall k (a : list Z) x, (k < length a)%nat -> firstn (S k) (upd a k x) = firstn k a ++ [x] /\
         forall m, skipn (S k + m) (upd a k x) = skipn (S k + m) a).
      { clear. induction k as [|k IH]; intros [|y a] x H; cbn in H; try lia.
        - split; reflexivity.
        - destruct (IH a x ltac:(lia)) as [X Y]. split; [cbn; cbn in X; now rewrite X|]. intros m. apply Y. }
      destruct (X k a (G p) H) as [X1 X2]. rewrite X1, X2. rewrite <- app_assoc. cbn [app].
      do 3 f_equal. f_equal. lia.
    + intros; apply HF; now right.
    + exact E2.
    + rewrite upd_length. lia.
Qed.

Lemma pairs_idx r c k : map (fun ij => (k + (fst ij * c + snd ij))%nat) (pairs r c) = seq k (r * c).
Proof.
  unfold pairs. enough (H : forall s, map (fun ij => (k + ((fst ij - s) * c + snd ij))%nat) (list_prod (seq s r) (seq 0 c)) = seq k (r * c)).
  { specialize (H 0%nat). rewrite <- H. apply map_ext. intros [i j]. cbn [fst snd]. now rewrite Nat.sub_0_r. }
  revert k. induction r as [|r IH]; intros k s; [reflexivity|].
  cbn [seq list_prod Nat.mul]. rewrite map_app, map_map, seq_app. f_equal.
  - cbn [fst snd]. rewrite Nat.sub_diag. cbn [Nat.mul].
    clear. assert (H : forall a, map (fun x => (k + (0 + x))%nat) (seq a c) = seq (k + a) c).
    { induction c as [|c IH]; intros a; [reflexivity|]. cbn [seq map]. rewrite IH. f_equal. f_equal. lia. }
    specialize (H 0%nat). now rewrite Nat.add_0_r in H.
  - rewrite <- (IH (k + c)%nat (S s)). apply map_ext_in. intros [i j] I. apply in_prod_iff in I. destruct I as [I _].
    apply in_seq in I. cbn [fst snd]. replace (i - s)%nat with (S (i - S s)) by lia. cbn [Nat.mul]. lia.
Qed.
Lemma pairs_In r c i j : In (i, j) (pairs r c) <-> (i < r /\ j < c)%nat.
Proof. unfold pairs. rewrite in_prod_iff, !in_seq. lia. Qed.
Lemma pairs_len r c : length (pairs r c) = (r * c)%nat.
Proof. unfold pairs. now rewrite prod_length, !seq_length. Qed.
Lemma pairs_tab r c F : map (fun ij => F (fst ij) (snd ij)) (pairs r c) = concat (tab r c F).
Proof.
  unfold pairs, tab. generalize (seq 0 r) as l. intros l. induction l as [|i l IH]; [reflexivity|].
  cbn [list_prod map concat]. rewrite map_app, map_map, IH. reflexivity.
Qed.

Lemma stride r c i j : stride_ok r c -> (i < r)%nat -> (i * r + j = i * c + j)%nat.
Proof. intros [->|H] Hi; [reflexivity|]. assert (i = 0)%nat by lia. subst i. reflexivity. Qed.

(** loops writing result[i*r+j] *)
Lemma write_mat r c st (F : nat -> nat -> res Z) G result :
  (forall i j, (i < r)%nat -> (j < c)%nat -> F i j = OK (G i j)) -> (forall i j, (i < r)%nat -> (i * st + j = i * c + j)%nat) ->
  (r * c <= length result)%nat ->
  foldM (fun result ij => let '(i, j) := ij in x <- F i j ;; wr result (i * st + j) x) (pairs r c) result =
    OK (concat (tab r c G) ++ skipn (r * c) result).
Proof.
  intros HF HS HL. rewrite <- pairs_tab.
  pose proof (write_seq (fun ij => F (fst ij) (snd ij)) (fun ij => G (fst ij) (snd ij)) (fun ij => (fst ij * st + snd ij)%nat) (pairs r c) 0 result) as W.
  cbn [firstn app] in W. rewrite pairs_len in W. cbn [Nat.add] in W. rewrite <- W.
  - clear. revert result. induction (pairs r c) as [|[i j] l IH]; intros result; [reflexivity|]. cbn [foldM fst snd].
    destruct (F i j); cbn [bind]; auto. destruct (wr result _ _); cbn [bind]; auto.
  - intros [i j] I. apply pairs_In in I. cbn [fst snd]. now apply HF.
  - rewrite <- pairs_idx with (k := 0%nat). apply map_ext_in. intros [i j] I. apply pairs_In in I. cbn [fst snd].
    rewrite HS by apply I. reflexivity.
  - lia.
Qed.

Lemma acc_ok K x y (X Y : nat -> Z) : (forall k, (k < K)%nat -> x k = OK (X k)) -> (forall k, (k < K)%nat -> y k = OK (Y k)) ->
  acc_loop K x y = OK (sumf (fun k => X k * Y k) (seq 0 K)).
Proof.
  intros HX HY. unfold acc_loop.
  enough (H : forall l acc, (forall k, In k l -> (k < K)%nat) ->
    foldM (fun acc k => a <- x k ;; b <- y k ;; OK (acc + a * b)) l acc = OK (acc + sumf (fun k => X k * Y k) l)).
  { rewrite H; [reflexivity|]. intros k I. apply in_seq in I. lia. }
  induction l as [|k l IH]; intros acc Hl; cbn [foldM]; [rewrite sumf_nil; f_equal; lia|].
  rewrite HX, HY by (apply Hl; now left). cbn [bind]. rewrite IH by (intros; apply Hl; now right).
  rewrite sumf_cons. f_equal. lia.
Qed.


Section FLAT.
  Variables (r c K : nat) (a b res0 v : list Z) (A B : mat) (x : Z).
  Hypothesis HA : holds a A.

  Lemma mul_mat_ok : shape A r K -> holds b B -> shape B K c -> stride_ok r K -> stride_ok K c -> stride_ok r c ->
    (r * c <= length res0)%nat ->
    mpz_mul_mat res0 a r K b K c = OK (concat (mprod r K c A B) ++ skipn (r * c) res0).
  Proof.
    intros SA HB SB S1 S2 S3 L. unfold mpz_mul_mat. rewrite Nat.eqb_refl. cbn [check bind].
    apply write_mat; auto.
    - intros i j Hi Hj. apply acc_ok.
      + intros k Hk. rewrite (stride r K) by auto. eapply rd_holds; eauto.
      + intros k Hk. rewrite (stride K c) by auto. eapply rd_holds; eauto.
    - intros. now apply stride.
  Qed.
  Lemma mul_transpose_ok : shape A r K -> holds b B -> shape B c K -> stride_ok r K -> stride_ok c K -> stride_ok r c ->
    (r * c <= length res0)%nat ->
    mpz_mul_transpose res0 a r K b K c = OK (concat (mprod r K c A (transpose c K B)) ++ skipn (r * c) res0).
  Proof.
    intros SA HB SB S1 S2 S3 L. unfold mpz_mul_transpose. rewrite Nat.eqb_refl. cbn [check bind].
    assert (E : mprod r K c A (transpose c K B) = tab r c (fun i j => sumf (fun k => mget A i k * mget B j k) (seq 0 K))).
    { apply (mat_ext _ _ r c); try apply tab_shape. intros i j Hi Hj. unfold mprod. rewrite !tab_get by auto.
      apply sumf_ext. intros k I. apply in_seq in I. f_equal.
      change (transpose c K B) with (tab K c (fun k j => mget B j k)). rewrite tab_get by lia. reflexivity. }
    rewrite E. apply write_mat; auto.
    - intros i j Hi Hj. apply acc_ok.
      + intros k Hk. rewrite (stride r K) by auto. eapply rd_holds; eauto.
      + intros k Hk. rewrite (stride c K) by auto. eapply rd_holds; eauto.
    - intros. now apply stride.
  Qed.
  Lemma mul_scal_ok : shape A r c -> stride_ok r c -> (r * c <= length res0)%nat ->
    mpz_mul_scal res0 x a r c = OK (concat (tab r c (fun i j => x * mget A i j)) ++ skipn (r * c) res0).
  Proof.
    intros SA S1 L. unfold mpz_mul_scal.
    rewrite <- (write_mat r c r (fun i j => y <- rd a (i * r + j) ;; OK (x * y)) (fun i j => x * mget A i j)); auto.
    - clear. revert res0. induction (pairs r c) as [|[i j] l IH]; intros res0; [reflexivity|]. cbn [foldM].
      destruct (rd a _); cbn [bind]; auto. destruct (wr res0 _ _); cbn [bind]; auto.
    - intros i j Hi Hj. rewrite (stride r c) by auto. now rewrite (rd_holds a A r c).
    - intros. now apply stride.
  Qed.
  Lemma seq_idx k n : map (fun i : nat => i) (seq k n) = seq k (length (seq k n)).
  Proof. rewrite map_id. now rewrite seq_length. Qed.
  Lemma mul_vec_ok : shape A r c -> stride_ok r c -> (c <= length v)%nat -> (r <= length res0)%nat ->
    mpz_mul_vec res0 a r c v c = OK (map (fun i => sumf (fun j => mget A i j * nth j v 0) (seq 0 c)) (seq 0 r) ++ skipn r res0).
  Proof.
    intros SA S1 Lv L. unfold mpz_mul_vec. rewrite Nat.eqb_refl. cbn [check bind].
    rewrite (write_seq _ (fun i => sumf (fun j => mget A i j * nth j v 0) (seq 0 c)) (fun i => i) (seq 0 r) 0); auto using seq_idx.
    - rewrite seq_length. reflexivity.
    - intros i I. apply in_seq in I. apply acc_ok.
      + intros k Hk. rewrite (stride r c) by (auto; lia). eapply rd_holds; eauto. lia.
      + intros k Hk. unfold rd. now rewrite (nth_error_nth' v 0) by lia.
    - rewrite seq_length. lia.
  Qed.
  Lemma conv_arr_ok : shape A r c -> stride_ok r c -> (r * c <= length res0)%nat ->
    conv_arr_mat res0 A r c = OK (concat A ++ skipn (r * c) res0).
  Proof.
    intros SA S1 L. unfold conv_arr_mat. transitivity (OK (concat (tab r c (mget A)) ++ skipn (r * c) res0)); [|now rewrite tab_mget].
    apply write_mat; auto; [intros; apply conv_mpz_ok|]. intros. now apply stride.
  Qed.
  Lemma conv_mat_ok : shape A r c -> stride_ok r c -> conv_mat_arr a r c = OK A.
  Proof.
    intros SA S1. unfold conv_mat_arr. transitivity (OK (tab r c (mget A))); [|now rewrite tab_mget]. unfold tab.
    apply mapM_total. intros i I. apply in_seq in I. apply mapM_total. intros j J. apply in_seq in J.
    rewrite (stride r c) by (auto; lia). rewrite (rd_holds a A r c) by (auto; lia). cbn [bind]. apply conv_ZZ_ok.
  Qed.
End FLAT.

Lemma rd_nth l i : (i < length l)%nat -> rd l i = OK (nth i l 0).
Proof. intros H. unfold rd. now rewrite (nth_error_nth' l 0). Qed.

Lemma scal_vec_ok res0 x v n : (n <= length v)%nat -> (n <= length res0)%nat ->
  mpz_scal_vec res0 x v n = OK (map (fun i => x * nth i v 0) (seq 0 n) ++ skipn n res0).
Proof.
  intros Lv L. unfold mpz_scal_vec.
  pose proof (write_seq (fun i => y <- rd v i ;; OK (x * y)) (fun i => x * nth i v 0) (fun i => i) (seq 0 n) 0 res0) as W.
  rewrite seq_length in W. cbn [firstn app Nat.add] in W. rewrite <- W; auto.
  - clear. revert res0. induction (seq 0 n) as [|i l IH]; intros res0; [reflexivity|]. cbn [foldM].
    destruct (rd v _); cbn [bind]; auto. destruct (wr res0 _ _); cbn [bind]; auto.
  - intros i I. apply in_seq in I. now rewrite rd_nth by lia.
  - now rewrite map_id.
Qed.
Lemma add_vec_ok res0 u v n : (n <= length u)%nat -> (n <= length v)%nat -> (n <= length res0)%nat ->
  mpz_add_vec res0 u n v n = OK (map (fun i => nth i u 0 + nth i v 0) (seq 0 n) ++ skipn n res0).
Proof.
  intros Lu Lv L. unfold mpz_add_vec. rewrite Nat.eqb_refl. cbn [check bind].
  pose proof (write_seq (fun i => y <- rd u i ;; z <- rd v i ;; OK (y + z)) (fun i => nth i u 0 + nth i v 0) (fun i => i) (seq 0 n) 0 res0) as W.
  rewrite seq_length in W. cbn [firstn app Nat.add] in W. rewrite <- W; auto.
  - clear. revert res0. induction (seq 0 n) as [|i l IH]; intros res0; [reflexivity|]. cbn [foldM].
    destruct (rd u _); cbn [bind]; auto. destruct (rd v _); cbn [bind]; auto. destruct (wr res0 _ _); cbn [bind]; auto.
  - intros i I. apply in_seq in I. now rewrite !rd_nth by lia.
  - now rewrite map_id.
Qed.
Lemma dot_ok u v n : (n <= length u)%nat -> (n <= length v)%nat ->
  mpz_dot u n v n = OK (sumf (fun i => nth i u 0 * nth i v 0) (seq 0 n)).
Proof.
  intros Lu Lv. unfold mpz_dot. rewrite Nat.eqb_refl. cbn [check bind].
  apply acc_ok; intros; apply rd_nth; lia.
Qed.
Lemma fdot_ok u v n : (1 <= n)%nat -> (n <= length u)%nat -> (n <= length v)%nat ->
  fmpz_dot u v n = OK (sumf (fun i => nth i u 0 * nth i v 0) (seq 0 n)).
Proof.
  intros Hn Lu Lv. unfold fmpz_dot. rewrite !rd_nth by lia. cbn [bind].
  destruct n as [|n]; [lia|]. cbn [seq]. rewrite sumf_cons. replace (S n - 1)%nat with n by lia.
  assert (Hl : forall k, In k (seq 1 n) -> (k < S n)%nat) by (intros k I; apply in_seq in I; lia).
  generalize (nth 0 u 0 * nth 0 v 0) as acc. induction (seq 1 n) as [|k l IH]; intros acc; cbn [foldM]; [rewrite sumf_nil; f_equal; lia|].
  rewrite !rd_nth by (specialize (Hl k (or_introl eq_refl)); lia). cbn [bind]. rewrite IH by (intros; apply Hl; now right).
  rewrite sumf_cons. f_equal. lia.
Qed.

(** what goes wrong for other shapes *)
Lemma foldM_err {A S} (f : S -> A -> res S) l s (P : S -> Prop) p : (forall s a s', P s -> f s a = OK s' -> P s') ->
  P s -> In p l -> (forall s, P s -> exists e, f s p = Err e) -> exists e, foldM f l s = Err e.
Proof.
  intros HP. revert s. induction l as [|a l IH]; intros s Hs I HE; [destruct I|].
  cbn [foldM]. destruct I as [->|I].
  - destruct (HE s Hs) as (e & ->). now exists e.
  - destruct (f s a) as [s'|e] eqn:E; cbn [bind]; [|now exists e]. apply IH; eauto.
Qed.
Lemma wr_len a i x a' : wr a i x = OK a' -> length a' = length a.
Proof. unfold wr. destruct (Nat.ltb _ _); [|discriminate]. intros [= <-]. apply upd_length. Qed.
Lemma rd_out l i : (length l <= i)%nat -> rd l i = Err EUB.
Proof. intros H. unfold rd. apply nth_error_None in H. now rewrite H. Qed.

Lemma few_cols r c : (1 <= c)%nat -> (c < r)%nat -> (r * c <= (r - 1) * r + (c - 1))%nat.
Proof. intros H1 H2. assert (exists d e, r = (c + S d)%nat /\ c = S e) as (d & e & -> & ->) by (exists (r - c - 1)%nat, (c - 1)%nat; lia). nia. Qed.

Lemma foldM_eub {A S} (f : S -> A -> res S) l s (P : S -> Prop) p : (forall s a s', P s -> f s a = OK s' -> P s') ->
  (forall s a e, P s -> f s a = Err e -> e = EUB) ->
  P s -> In p l -> (forall s, P s -> exists e, f s p = Err e) -> foldM f l s = Err EUB.
Proof.
  intros HP HU. revert s. induction l as [|a l IH]; intros s Hs I HE; [destruct I|].
  cbn [foldM]. destruct (f s a) as [s'|e] eqn:E; cbn [bind].
  - destruct I as [->|I]; [destruct (HE s Hs) as (e & X); congruence|]. eauto.
  - now rewrite (HU s a e Hs E).
Qed.
Lemma rd_eub l i e : rd l i = Err e -> e = EUB.
Proof. unfold rd. destruct (nth_error l i); congruence. Qed.
Lemma wr_eub a i x e : wr a i x = Err e -> e = EUB.
Proof. unfold wr. destruct (Nat.ltb _ _); congruence. Qed.

Lemma scal_few_cols r c a x res0 : (1 <= c)%nat -> (c < r)%nat -> length a = (r * c)%nat ->
  mpz_mul_scal res0 x a r c = Err EUB.
Proof.
  intros H1 H2 L. unfold mpz_mul_scal.
  apply (foldM_eub _ _ _ (fun _ => True) ((r - 1)%nat, (c - 1)%nat)); auto.
  - intros s [i j] e _ E. destruct (rd a _) eqn:X; cbn [bind] in E; [eapply wr_eub; eauto|]. injection E as <-. eapply rd_eub; eauto.
  - apply pairs_In. lia.
  - intros s _. exists EUB. rewrite rd_out by (rewrite L; now apply few_cols). reflexivity.
Qed.
Lemma conv_few_cols r c A res0 : (1 <= c)%nat -> (c < r)%nat -> length res0 = (r * c)%nat ->
  conv_arr_mat res0 A r c = Err EUB.
Proof.
  intros H1 H2 L. unfold conv_arr_mat.
  apply (foldM_eub _ _ _ (fun s => length s = (r * c)%nat) ((r - 1)%nat, (c - 1)%nat)); auto.
  - intros s [i j] s' Hs E. rewrite conv_mpz_ok in E. cbn [bind] in E. apply wr_len in E. congruence.
  - intros s [i j] e _ E. rewrite conv_mpz_ok in E. cbn [bind] in E. eapply wr_eub; eauto.
  - apply pairs_In. lia.
  - intros s Hs. exists EUB. rewrite conv_mpz_ok. cbn [bind]. unfold wr. rewrite Hs.
    destruct (Nat.ltb_spec ((r - 1) * r + (c - 1)) (r * c)); [|reflexivity]. pose proof (few_cols r c H1 H2). lia.
Qed.
(** more columns than rows: the last entry of the array is never written *)
Lemma foldM_inv {A S} (f : S -> A -> res S) (P : S -> Prop) l : (forall s a s', In a l -> P s -> f s a = OK s' -> P s') ->
  forall s s', P s -> foldM f l s = OK s' -> P s'.
Proof.
  intros H. induction l as [|a l IH]; intros s s' Hs E; cbn [foldM] in E; [congruence|].
  apply bind_ok in E. destruct E as (s1 & E1 & E). eapply IH; [|eapply H; eauto; now left|eauto]. intros; eapply H; eauto. now right.
Qed.
Lemma wr_other a i x a' k : wr a i x = OK a' -> i <> k -> nth k a' 0 = nth k a 0.
Proof. unfold wr. destruct (Nat.ltb _ _); [|discriminate]. intros [= <-] H. now apply nth_upd_neq. Qed.
Lemma many_cols r c i j : (2 <= r)%nat -> (r < c)%nat -> (i < r)%nat -> (j < c)%nat -> (i * r + j <> r * c - 1)%nat.
Proof. intros. assert (i * r + j <= (r - 1) * r + (c - 1))%nat by nia.
  assert (exists d, c = (r + S d)%nat) as (d & ->) by (exists (c - r - 1)%nat; lia). nia. Qed.
Lemma scal_many_cols r c a x res0 out : (2 <= r)%nat -> (r < c)%nat ->
  mpz_mul_scal res0 x a r c = OK out -> nth (r * c - 1) out 0 = nth (r * c - 1) res0 0.
Proof.
  intros H1 H2. unfold mpz_mul_scal. apply (foldM_inv _ (fun s => nth (r * c - 1) s 0 = nth (r * c - 1) res0 0)); auto.
  intros s [i j] s' I Hs E. apply pairs_In in I. apply bind_ok in E. destruct E as (y & _ & E).
  rewrite (wr_other _ _ _ _ _ E); auto. now apply many_cols.
Qed.
Lemma conv_many_cols r c A res0 out : (2 <= r)%nat -> (r < c)%nat ->
  conv_arr_mat res0 A r c = OK out -> nth (r * c - 1) out 0 = nth (r * c - 1) res0 0.
Proof.
  intros H1 H2. unfold conv_arr_mat. apply (foldM_inv _ (fun s => nth (r * c - 1) s 0 = nth (r * c - 1) res0 0)); auto.
  intros s [i j] s' I Hs E. apply pairs_In in I. apply bind_ok in E. destruct E as (y & _ & E).
  rewrite (wr_other _ _ _ _ _ E); auto. now apply many_cols.
Qed.
