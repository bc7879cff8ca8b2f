From Coq Require Import ZArith List Lia Bool Znumtheory.
From Verif Require Import Base VecModel VecSpec VecProofs ToolsModel ToolsSpec ToolsProofs.
Import ListNotations.
Open Scope Z_scope.

(** * factorial_p_adic, factorial *)
Lemma mod_mod_any x q : (x mod q) mod q = x mod q.
Proof. destruct (Z.eq_dec q 0) as [->|]; [now rewrite !Zmod_0_r|]. now apply Z.mod_mod. Qed.

(** n >= 0 is needed for the assertion: the code is called with n >= 0 *)
Lemma factorial_p_adic_ok q n p start fuel : 2 <= p -> 1 <= start -> 0 <= n < 2 ^ Z.of_nat fuel ->
  exists v u r, factorial_p_adic fuel q n p start = OK (v, r) /\ 0 <= v /\
    zprod (zseq start (n + 1)) = p ^ v * u /\ cong q r u /\ r = r mod q /\ (prime p -> ~ (p | u)).
Proof.
  intros Hp Hs Hf. unfold factorial_p_adic.
  destruct (fpa_loop_ok q p fuel Hp (zseq start (n + 1)) (1 mod q) 1 0) as (u & r & I1 & I2 & I3 & I4 & I5).
  { intros i Hi. apply zseq_In in Hi. lia. }
  { apply cong_mod. }
  rewrite I1. cbn [bind fst snd].
  exists (sumf (vp p) (zseq start (n + 1))), u, r.
  split; [|split; [|split; [auto|split; [|split]]]].
  - destruct (Z.eqb_spec start 1) as [->|]; auto.
    rewrite vof_sum by (auto; lia). cbn [bind]. rewrite Z.add_0_l, Z.eqb_refl. auto.
  - generalize (zseq start (n + 1)) as l. induction l; rewrite ?sumf_nil, ?sumf_cons; try lia.
    pose proof (vp_nonneg p a). lia.
  - rewrite I3. apply cong_of_eq. lia.
  - apply I4. now rewrite mod_mod_any.
  - intros Hpr Hd. apply (I5 Hpr). apply Z.mod_divide; auto. lia.
Qed.

Lemma fpa_strip_zero fuel p val : fpa_strip fuel p 0 val = Err EFuel.
Proof.
  revert val; induction fuel; intros; cbn [fpa_strip]; auto.
  rewrite Zmod_0_l, Z.eqb_refl, Zdiv_0_l. apply IHfuel.
Qed.

Lemma fpa_strip_err fuel p i val e : fpa_strip fuel p i val = Err e -> e = EFuel.
Proof.
  revert i val; induction fuel; intros i val; cbn [fpa_strip]; [congruence|].
  destruct (i mod p =? 0); [apply IHfuel|discriminate].
Qed.

Lemma fpa_loop_zero q p fuel is r val : In 0 is -> fpa_loop fuel q p is r val = Err EFuel.
Proof.
  revert r val; induction is as [|i is IH]; intros r val Hin; [destruct Hin|].
  destruct Hin as [->|Hin]; cbn [fpa_loop].
  - rewrite Zmod_0_l, Z.eqb_refl. cbn [negb]. now rewrite fpa_strip_zero.
  - destruct (negb (i mod p =? 0)); [auto|].
    destruct (fpa_strip fuel p i val) eqn:E; cbn [bind]; [auto|].
    apply fpa_strip_err in E. congruence.
Qed.

Lemma factorial_p_adic_diverges q n p start fuel : start <= 0 <= n ->
  factorial_p_adic fuel q n p start = Err EFuel.
Proof.
  intros H. unfold factorial_p_adic. rewrite fpa_loop_zero; auto. apply zseq_In. lia.
Qed.

Lemma fold_mul_cong q l a A : cong q a A ->
  cong q (fold_left (fun r i => (r * i) mod q) l a) (A * zprod l).
Proof.
  revert a A; induction l as [|x l IH]; intros a A H; cbn [fold_left zprod].
  - now rewrite Z.mul_1_r.
  - rewrite (IH _ (A * x)). { apply cong_of_eq. ring. } rewrite cong_mod, H. reflexivity.
Qed.

Lemma factorial_cong q n start : cong q (factorial q n start) (zprod (zseq start (n + 1))).
Proof.
  unfold factorial. rewrite (fold_mul_cong q _ (1 mod q) 1) by apply cong_mod.
  now rewrite Z.mul_1_l.
Qed.

Lemma factorial_ZZ n : factorial 0 n 1 = zfact n.
Proof. pose proof (factorial_cong 0 n 1) as H. destruct H as [k H]. unfold zfact. lia. Qed.

(** * Evaluation of sparse polynomials *)
Definition poly_ok (n : nat) (f : poly) : Prop :=
  vsorted n f /\ forall k c, In (k, c) f -> nonneg k.

Lemma mono_vadd x a b : length a = length b -> nonneg a -> nonneg b ->
  mono x (vadd a b) = mono x a * mono x b.
Proof.
  revert a b; induction x as [|y x IH]; intros [|k a] [|l b] Hl Ha Hb; cbn [mono] in *; simpl in Hl; try lia; auto.
  inversion Ha; inversion Hb; subst. unfold vadd in *. cbn [map2 mono].
  rewrite IH, Z.pow_add_r by (auto; lia). ring.
Qed.

Lemma nonneg_vadd a b : nonneg a -> nonneg b -> nonneg (vadd a b).
Proof.
  intros Ha. revert b. induction Ha; intros b Hb; [constructor|].
  destruct b; [constructor|]. inversion Hb; subst. constructor; [lia|]. now apply IHHa.
Qed.

Lemma mono_zero x m : mono x (repeat 0 m) = 1.
Proof. revert x; induction m; intros [|a x]; cbn [repeat mono]; auto. rewrite IHm. lia. Qed.

Lemma peval_cons t f x : peval (t :: f) x = snd t * mono x (fst t) + peval f x.
Proof. reflexivity. Qed.

Lemma peval_vinsert n f k c x : (forall k' c', In (k', c') f -> length k' = n) -> length k = n ->
  peval (vinsert k c f) x + (match vfind k f with Some w => w | None => 0 end) * mono x k
  = peval f x + c * mono x k.
Proof.
  intros Hf Hk. induction f as [|[k' c'] f IH].
  - cbn. lia.
  - unfold vinsert, vfind in *. cbn [minsert mfind].
    destruct (vltb k k') eqn:E1; [|destruct (vltb k' k) eqn:E2]; rewrite ?peval_cons; cbn [fst snd].
    + lia.
    + assert (IH' := IH ltac:(intros; eapply Hf; simpl; eauto)). lia.
    + assert (k = k').
      { eapply (vltb_total n); eauto. eapply Hf. left; reflexivity. }
      subst. lia.
Qed.

Lemma vaccum_ok n q k c f x : poly_ok n f -> length k = n -> nonneg k ->
  poly_ok n (vaccum (fun a b => (a + b) mod q) k c f) /\
  cong q (peval (vaccum (fun a b => (a + b) mod q) k c f) x) (peval f x + c * mono x k) /\
  (forall k' , In k' (map fst (vaccum (fun a b => (a + b) mod q) k c f)) <-> k' = k \/ In k' (map fst f)).
Proof.
  intros [Hs Hn] Hk Hkn. unfold vaccum.
  assert (Hl : forall k' c', In (k', c') f -> length k' = n) by (intros; eapply vsorted_len; eauto).
  assert (P : forall c', poly_ok n (vinsert k c' f)).
  { intros c'. split; [now apply vinsert_sorted|]. intros k0 c0 Hin.
    apply (vinsert_In n) in Hin; auto. destruct Hin as [[-> _]|[_ Hin]]; eauto. }
  assert (P2 : forall c' k', In k' (map fst (vinsert k c' f)) <-> k' = k \/ In k' (map fst f)).
  { intros c' k'. rewrite !in_map_iff. split.
    - intros ([k0 c0] & <- & Hin). apply (vinsert_In n) in Hin; auto. cbn [fst].
      destruct Hin as [[-> _]|[_ Hin]]; eauto. right. exists (k0, c0). auto.
    - intros [->|([k0 c0] & <- & Hin)].
      + exists (k, c'). split; auto. apply (vinsert_In n); auto.
      + cbn [fst]. destruct (vec_eq_dec k0 k) as [->|].
        * exists (k, c'). split; auto. apply (vinsert_In n); auto.
        * exists (k0, c0). split; auto. apply (vinsert_In n); auto. }
  destruct (vfind k f) as [w|] eqn:E.
  - split; [auto|]. split; [|auto].
    pose proof (peval_vinsert n f k ((w + c) mod q) x Hl Hk) as HH. rewrite E in HH.
    assert (HH' : peval (vinsert k ((w + c) mod q) f) x = peval f x + ((w + c) mod q - w) * mono x k) by lia.
    rewrite HH', cong_mod. apply cong_of_eq. ring.
  - split; [auto|]. split; [|auto].
    pose proof (peval_vinsert n f k c x Hl Hk) as HH. rewrite E in HH.
    apply cong_of_eq. lia.
Qed.

Lemma padd_into_ok n q H acc : poly_ok n acc -> (forall k c, In (k, c) H -> length k = n /\ nonneg k) ->
  poly_ok n (padd_into q H acc) /\
  (forall x, cong q (peval (padd_into q H acc) x) (peval acc x + peval H x)) /\
  (forall k, In k (map fst (padd_into q H acc)) <-> In k (map fst acc) \/ In k (map fst H)).
Proof.
  revert acc. induction H as [|[k c] H IH]; intros acc Ha HH; cbn [padd_into fold_left fst snd].
  - repeat split; try apply Ha; auto.
    + intros x. apply cong_of_eq. unfold peval. rewrite sumf_nil. lia.
    + intros [?|[]]; auto.
  - destruct (HH k c (or_introl eq_refl)) as [H1 H2].
    destruct (IH (vaccum (fun a b => (a + b) mod q) k c acc)) as (I1 & I2 & I3).
    { now apply (vaccum_ok n q k c acc []). } { intros k0 c0 Hin; apply (HH k0 c0); simpl; auto. }
    split; [exact I1|split; [|split]].
    + intros x. unfold padd_into in I2. rewrite I2.
      rewrite (proj1 (proj2 (vaccum_ok n q k c acc x Ha H1 H2))).
      rewrite peval_cons. cbn [fst snd]. apply cong_of_eq. ring.
    + intros Hin. apply I3 in Hin. rewrite (proj2 (proj2 (vaccum_ok n q k c acc [] Ha H1 H2))) in Hin.
      simpl. intuition congruence.
    + intros Hin. apply I3. rewrite (proj2 (proj2 (vaccum_ok n q k c acc [] Ha H1 H2))).
      simpl in Hin. intuition congruence.
Qed.

Lemma pmul_into_padd q H X acc : pmul_into q H X acc =
  padd_into q (flat_map (fun h => map (fun x => (vadd (fst h) (fst x), (snd h * snd x) mod q)) X) H) acc.
Proof.
  unfold pmul_into, padd_into. revert acc. induction H as [|h H IH]; intros acc; cbn [fold_left flat_map]; auto.
  rewrite fold_left_app. rewrite <- IH. f_equal.
  clear. revert acc. induction X as [|y X IH]; intros acc; cbn [fold_left map]; auto.
Qed.

Lemma pmul_ok n q H X : poly_ok n H -> poly_ok n X ->
  poly_ok n (pmul q H X) /\
  (forall x, cong q (peval (pmul q H X) x) (peval H x * peval X x)) /\
  (forall k, In k (map fst (pmul q H X)) <->
     exists a b, In a (map fst H) /\ In b (map fst X) /\ k = vadd a b).
Proof.
  intros HH HX. unfold pmul. rewrite pmul_into_padd.
  set (L := flat_map _ H).
  assert (HL : forall k c, In (k, c) L -> length k = n /\ nonneg k).
  { intros k c Hin. unfold L in Hin. apply in_flat_map in Hin. destruct Hin as ([a ca] & Ha & Hin).
    apply in_map_iff in Hin. destruct Hin as ([b cb] & E & Hb). injection E as <- <-. cbn [fst].
    assert (length a = n) by (eapply vsorted_len; [apply HH|eauto]).
    assert (length b = n) by (eapply vsorted_len; [apply HX|eauto]).
    split; [now apply vadd_length|]. apply nonneg_vadd; [eapply (proj2 HH)|eapply (proj2 HX)]; eauto. }
  destruct (padd_into_ok n q L []) as (P1 & P2 & P3); auto.
  { split; [apply vsorted_nil|]. intros ? ? []. }
  split; [exact P1|split; [|split]].
  - intros x. rewrite P2. unfold peval at 1. rewrite sumf_nil, Z.add_0_l.
    unfold L, peval. rewrite sumf_flat_map.
    rewrite <- sumf_scal_r. apply cong_sumf. intros [a ca] Ha.
    rewrite sumf_map, <- sumf_scal. apply cong_sumf. intros [b cb] Hb. cbn [fst snd].
    assert (length a = n) by (eapply vsorted_len; [apply HH|eauto]).
    assert (length b = n) by (eapply vsorted_len; [apply HX|eauto]).
    rewrite cong_mod. rewrite mono_vadd; [|congruence|eapply (proj2 HH); eauto|eapply (proj2 HX); eauto].
    apply cong_of_eq. ring.
  - intros Hin. apply P3 in Hin. destruct Hin as [[]|Hin]. apply in_map_iff in Hin.
    destruct Hin as ([k' c'] & <- & Hin). unfold L in Hin. apply in_flat_map in Hin.
    destruct Hin as ([a ca] & Ha & Hin).
    apply in_map_iff in Hin. destruct Hin as ([b cb] & E & Hb). injection E as <- <-. cbn [fst].
    exists a, b. repeat split; auto; apply in_map_iff; eexists; (split; [|eassumption]); auto.
  - intros (a & b & Ha & Hb & ->). apply P3. right.
    apply in_map_iff in Ha. destruct Ha as ([a' ca] & <- & Ha).
    apply in_map_iff in Hb. destruct Hb as ([b' cb] & <- & Hb).
    apply in_map_iff. exists (vadd a' b', (ca * cb) mod q). split; auto.
    unfold L. apply in_flat_map. exists (a', ca). split; auto. apply in_map_iff.
    exists (b', cb). auto.
Qed.

(** * change_of_variables *)
Lemma unit_vec_length n j : length (unit_vec n j) = n.
Proof. unfold unit_vec. rewrite upd_length. apply repeat_length. Qed.

Lemma unit_vec_nth n j i : (j < n)%nat -> nth i (unit_vec n j) 0 = if Nat.eqb j i then 1 else 0.
Proof.
  intros. unfold unit_vec. rewrite nth_upd, repeat_length, nth_repeat.
  destruct (Nat.ltb_spec j n); [|lia]. reflexivity.
Qed.

Lemma unit_vec_nonneg n j : nonneg (unit_vec n j).
Proof.
  apply nonneg_iff. intros i Hi. rewrite unit_vec_length in Hi. unfold unit_vec.
  rewrite nth_upd, nth_repeat. destruct (Nat.eqb j i); [|lia]. destruct (Nat.ltb _ _); lia.
Qed.

Lemma unit_vec_inj n i j : (i < n)%nat -> (j < n)%nat -> unit_vec n i = unit_vec n j -> i = j.
Proof.
  intros Hi Hj E. apply (f_equal (fun l => nth i l 0)) in E.
  rewrite !unit_vec_nth, Nat.eqb_refl in E by auto. destruct (Nat.eqb_spec j i); [auto|lia].
Qed.

Lemma mono_unit x n j : length x = n -> (j < n)%nat -> mono x (unit_vec n j) = nth j x 0.
Proof.
  revert n j; induction x as [|a x IH]; intros [|n] [|j] Hl Hj; simpl in Hl; try lia.
  - unfold unit_vec. cbn [repeat upd mono nth]. rewrite mono_zero. lia.
  - unfold unit_vec. cbn [repeat upd mono nth]. fold (unit_vec n j).
    rewrite IH by lia. lia.
Qed.

Lemma zsum_unit n j : (j < n)%nat -> zsum (unit_vec n j) = 1.
Proof.
  intros. unfold unit_vec. rewrite zsum_upd by now rewrite repeat_length.
  rewrite nth_repeat. assert (zsum (repeat 0 n) = 0) by (clear; induction n; simpl; lia). lia.
Qed.

Lemma cov_row_prefix n row k : (k <= n)%nat ->
  let m := fold_left (fun m j => vinsert (unit_vec n j) (nth j row 0) m) (seq 0 k) [] in
  poly_ok n m /\ (forall e c, In (e, c) m <-> exists j, (j < k)%nat /\ e = unit_vec n j /\ c = nth j row 0) /\
  forall x, length x = n -> peval m x = sumf (fun j => nth j row 0 * nth j x 0) (seq 0 k).
Proof.
  induction k as [|k IH]; intros Hk; cbv zeta.
  - cbn. repeat split; try apply vsorted_nil; try tauto. { intros ? ? []. }
    intros (j & Hj & _). lia.
  - rewrite seq_S, fold_left_app. cbn [fold_left Nat.add].
    destruct (IH ltac:(lia)) as ([I1 I1'] & I2 & I3). clear IH.
    match type of I1 with vsorted _ ?mm => set (m := mm) in * end.
    assert (Hu := unit_vec_length n k).
    assert (In2 : forall e c, In (e, c) (vinsert (unit_vec n k) (nth k row 0) m) <->
       exists j, (j < S k)%nat /\ e = unit_vec n j /\ c = nth j row 0).
    { intros e c. rewrite (vinsert_In n) by auto. rewrite I2. split.
      - intros [[-> ->]|[Hne (j & Hj & H)]]; eauto.
      - intros (j & Hj & -> & ->). destruct (Nat.eq_dec j k) as [->|]; [auto|].
        right. split; [|exists j; repeat split; auto; lia]. intros E. apply unit_vec_inj in E; lia. }
    split; [split|split].
    + now apply vinsert_sorted.
    + intros e c Hin. apply In2 in Hin. destruct Hin as (j & _ & -> & _). apply unit_vec_nonneg.
    + auto.
    + intros x Hx. pose proof (peval_vinsert n m (unit_vec n k) (nth k row 0) x) as HP.
      destruct (vfind (unit_vec n k) m) as [w|] eqn:E.
      { apply (vfind_In n) in E; auto. apply I2 in E. destruct E as (j & Hj & E & _).
        apply unit_vec_inj in E; lia. }
      rewrite sumf_app, sumf_cons, sumf_nil, <- I3 by auto.
      rewrite mono_unit in HP by (auto; lia).
      rewrite Z.mul_0_l, !Z.add_0_r in *. apply HP; auto.
      intros k' c' Hin. eapply vsorted_len; eauto.
Qed.

Lemma vdot_seq (a b : vec) n : length a = n -> length b = n ->
  vdot a b = sumf (fun j => nth j a 0 * nth j b 0) (seq 0 n).
Proof.
  revert b n; induction a as [|x a IH]; intros [|y b] n Ha Hb; simpl in Ha, Hb; subst n; try discriminate; auto.
  unfold vdot in *. cbn [map2 zsum seq]. rewrite sumf_cons. cbn [nth].
  rewrite <- seq_shift, sumf_map. cbn [nth]. f_equal. apply IH; auto.
Qed.

Lemma cov_row_ok n row x : length row = n -> length x = n ->
  poly_ok n (cov_row n row) /\ peval (cov_row n row) x = vdot row x /\
  (forall e c, In (e, c) (cov_row n row) -> zsum e = 1).
Proof.
  intros Hr Hx. destruct (cov_row_prefix n row n (le_n _)) as (P1 & P2 & P3).
  split; [exact P1|split].
  - unfold cov_row. rewrite P3 by auto. symmetry. now apply vdot_seq.
  - intros e c Hin. apply P2 in Hin. destruct Hin as (j & Hj & -> & _). now apply zsum_unit.
Qed.

Lemma cov_pow_ok n q k X H : poly_ok n X -> poly_ok n H ->
  poly_ok n (cov_pow q k X H) /\
  (forall x, cong q (peval (cov_pow q k X H) x) (peval H x * peval X x ^ Z.of_nat k)) /\
  (forall d, (forall e, In e (map fst X) -> zsum e = 1) -> (forall e, In e (map fst H) -> zsum e = d) ->
     forall e, In e (map fst (cov_pow q k X H)) -> zsum e = d + Z.of_nat k).
Proof.
  revert H. induction k as [|k IH]; intros H HX HH; cbn [cov_pow].
  - split; [auto|split].
    + intros x. apply cong_of_eq. change (Z.of_nat 0) with 0. rewrite Z.pow_0_r. lia.
    + intros d _ Hd e He. rewrite (Hd e He). lia.
  - destruct (pmul_ok n q H X HH HX) as (P1 & P2 & P3).
    destruct (IH (pmul q H X) HX P1) as (I1 & I2 & I3). split; [auto|split].
    + intros x. rewrite I2, P2. apply cong_of_eq.
      rewrite Nat2Z.inj_succ, Z.pow_succ_r by lia. ring.
    + intros d H1 H2 e He. assert (HI : zsum e = (d + 1) + Z.of_nat k); [|lia]. apply I3; auto.
      intros e' He'. apply P3 in He'. destruct He' as (a & b & Ha & Hb & ->).
      assert (La : length a = n /\ length b = n).
      { apply in_map_iff in Ha. destruct Ha as ([a' ca] & <- & Ha).
        apply in_map_iff in Hb. destruct Hb as ([b' cb] & <- & Hb).
        split; [eapply vsorted_len; [apply HH|eauto]|eapply vsorted_len; [apply HX|eauto]]. }
      rewrite zsum_vadd by lia. rewrite (H2 a), (H1 b); auto.
Qed.

Lemma nth_poly_rows n (M : list vec) i : nth i (map (cov_row n) M) [] =
  if Nat.ltb i (length M) then cov_row n (nth i M []) else [].
Proof.
  revert i; induction M as [|r M IH]; intros [|i]; cbn [map nth length]; auto.
  rewrite IH. reflexivity.
Qed.

Lemma mono_seq (x e : vec) n : length x = n -> length e = n ->
  mono x e = zprod (map (fun i => nth i x 0 ^ nth i e 0) (seq 0 n)).
Proof.
  revert e n; induction x as [|a x IH]; intros [|k e] n Ha Hb; simpl in Ha, Hb; subst n; try discriminate; auto.
  cbn [mono seq map zprod nth]. f_equal. rewrite <- seq_shift, map_map. cbn [nth].
  apply IH; auto.
Qed.

Lemma cov_term_ok q (M : list vec) e c x : let n := length M in
  (forall r, In r M -> length r = n) -> length e = n -> nonneg e -> length x = n ->
  let T := cov_term q n (map (cov_row n) M) e c in
  poly_ok n T /\ cong q (peval T x) (c * mono (vmatvec M x) e) /\
  (forall k, In k (map fst T) -> zsum k = zsum e).
Proof.
  intros n HM He Hen Hx. cbv zeta. unfold cov_term.
  assert (G : forall k, (k <= n)%nat ->
    let T := fold_left (fun H i => cov_pow q (Z.to_nat (nth i e 0)) (nth i (map (cov_row n) M) []) H)
            (seq 0 k) [(repeat 0 n, c)] in
    poly_ok n T /\ cong q (peval T x) (c * zprod (map (fun i => nth i (vmatvec M x) 0 ^ nth i e 0) (seq 0 k)))
    /\ (forall t, In t (map fst T) -> zsum t = zsum (map (fun i => nth i e 0) (seq 0 k)))).
  { induction k as [|k IH]; intros Hk; cbv zeta.
    - cbn [seq fold_left map zprod]. repeat split.
      + constructor; [apply repeat_length|constructor|intros ? ? []].
      + intros k c' [E|[]]. injection E as <- _. clear. unfold nonneg. induction n; constructor; auto; lia.
      + apply cong_of_eq. rewrite peval_cons. cbn [fst snd]. rewrite mono_zero. unfold peval. rewrite sumf_nil. lia.
      + intros t [<-|[]]. cbn [fst zsum]. clear. induction n; simpl; lia.
    - rewrite seq_S, fold_left_app, !map_app. cbn [fold_left map Nat.add].
      destruct (IH ltac:(lia)) as (I1 & I2 & I3). clear IH.
      match type of I1 with poly_ok _ ?mm => set (T := mm) in * end.
      rewrite nth_poly_rows. fold n. destruct (Nat.ltb_spec k n); [|lia].
      assert (Hrow : length (nth k M []) = n) by (apply HM, nth_In; unfold n in *; lia).
      destruct (cov_row_ok n (nth k M []) x Hrow Hx) as (R1 & R2 & R3).
      destruct (cov_pow_ok n q (Z.to_nat (nth k e 0)) (cov_row n (nth k M [])) T R1 I1) as (Q1 & Q2 & Q3).
      assert (Hek := nonneg_nth e k Hen).
      split; [auto|split].
      + rewrite Q2, I2, R2, zprod_app. cbn [zprod]. rewrite Z2Nat.id by auto.
        assert (Ev : nth k (vmatvec M x) 0 = vdot (nth k M []) x).
        { unfold vmatvec. rewrite (nth_indep _ 0 (vdot [] x)) by (rewrite map_length; lia).
          exact (map_nth (fun r => vdot r x) M [] k). }
        rewrite Ev. apply cong_of_eq. ring.
      + intros t Ht. rewrite zsum_app. cbn [zsum]. 
        assert (HI : zsum t = zsum (map (fun i => nth i e 0) (seq 0 k)) + Z.of_nat (Z.to_nat (nth k e 0))); [|lia].
        apply Q3; auto.
        intros e' He'. apply in_map_iff in He'. destruct He' as ([e'' c''] & <- & He'). eapply R3; eauto. }
  destruct (G n (le_n _)) as (G1 & G2 & G3). cbv zeta in *.
  split; [auto|split].
  - rewrite G2. rewrite (mono_seq _ e n); [reflexivity| |auto].
    unfold vmatvec. now rewrite map_length.
  - intros k Hk. rewrite (G3 k Hk). clear - He. subst n.
    f_equal. rewrite <- He. clear. induction e; cbn [length seq map nth]; auto. f_equal.
    rewrite <- seq_shift, map_map. auto.
Qed.

Lemma change_of_variables_ok q f M : let n := length M in
  (forall r, In r M -> length r = n) ->
  (forall k c, In (k, c) f -> length k = n /\ nonneg k) ->
  exists g, change_of_variables q f M = OK g /\
    poly_ok n g /\
    (forall x, length x = n -> cong q (peval g x) (peval f (vmatvec M x))) /\
    (forall k c, In (k, c) g -> exists e c', In (e, c') f /\ zsum k = zsum e).
Proof.
  intros n HM Hf. unfold change_of_variables. fold n.
  assert (E1 : forallb (fun r => Nat.eqb (length r) n) M = true).
  { apply forallb_forall. intros r Hr. apply Nat.eqb_eq. auto. }
  assert (E2 : forallb (fun t => Nat.eqb (length (fst t)) n) f = true).
  { apply forallb_forall. intros [k c] Hr. apply Nat.eqb_eq. cbn [fst]. now apply (Hf k c). }
  rewrite E1, E2. cbn [negb]. cbv zeta. eexists. split; [reflexivity|].
  assert (G : forall l acc, (forall k c, In (k, c) l -> length k = n /\ nonneg k) -> poly_ok n acc ->
    let g := fold_left (fun acc t => padd_into q (cov_term q n (map (cov_row n) M) (fst t) (snd t)) acc) l acc in
    poly_ok n g /\
    (forall x, length x = n -> cong q (peval g x) (peval acc x + peval l (vmatvec M x))) /\
    (forall k, In k (map fst g) -> In k (map fst acc) \/ exists e c', In (e, c') l /\ zsum k = zsum e)).
  { induction l as [|[e c] l IH]; intros acc Hl Ha; cbv zeta; cbn [fold_left fst snd].
    - split; [auto|split]; auto. intros x Hx. apply cong_of_eq. unfold peval. rewrite sumf_nil. lia.
    - destruct (Hl e c (or_introl eq_refl)) as [He1 He2].
      assert (T := fun x => cov_term_ok q M e c x HM He1 He2). fold n in T. cbv zeta in T.
      destruct (T (repeat 0 n) (repeat_length _ _)) as (T1 & _ & T3).
      set (tt := cov_term q n _ e c) in *.
      assert (HT : forall k c, In (k, c) tt -> length k = n /\ nonneg k).
      { intros k c' Hin. split; [eapply vsorted_len; [apply T1|eauto]|eapply (proj2 T1); eauto]. }
      destruct (padd_into_ok n q tt acc Ha HT) as (P1 & P2 & P3).
      destruct (IH (padd_into q tt acc)) as (I1 & I2 & I3); auto. { intros; apply (Hl k c0); simpl; auto. }
      split; [auto|split].
      + intros x Hx. rewrite I2 by auto. rewrite P2.
        destruct (T x Hx) as (_ & T2 & _). change (cong q (peval tt x) (c * mono (vmatvec M x) e)) in T2. rewrite T2. rewrite peval_cons. cbn [fst snd].
        apply cong_of_eq. ring.
      + intros k Hk. apply I3 in Hk. destruct Hk as [Hk|(e' & c' & Hk & Hk')].
        * apply P3 in Hk. destruct Hk as [Hk|Hk]; auto. right. exists e, c. split; [left; auto|]. auto.
        * right. exists e', c'. split; [right; auto|auto]. }
  destruct (G f [] Hf) as (G1 & G2 & G3).
  { split; [apply vsorted_nil|intros ? ? []]. }
  cbv zeta in *. split; [auto|split].
  - intros x Hx. rewrite G2 by auto. apply cong_of_eq. unfold peval at 1. rewrite sumf_nil. lia.
  - intros k c Hin. destruct (G3 k) as [[]|Hx]; auto. apply in_map_iff. exists (k, c). auto.
Qed.

(** * change_of_variables_monomial *)
Lemma nonneg_repeat0 n : nonneg (repeat 0 n).
Proof. unfold nonneg. induction n; simpl; constructor; auto; lia. Qed.

Definition bsum (n : nat) (a b : Z) : Z :=
  sumf (fun j => choose n j * a ^ Z.of_nat (n - j) * b ^ Z.of_nat j) (seq 0 (S n)).

Lemma binomial_theorem n a b : bsum n a b = (a + b) ^ Z.of_nat n.
Proof.
  induction n as [|n IH].
  - reflexivity.
  - rewrite Nat2Z.inj_succ, Z.pow_succ_r by lia. rewrite <- IH. clear IH.
    unfold bsum at 1.
    change (seq 0 (S (S n))) with (0%nat :: seq 1 (S n)). rewrite sumf_cons, sumf_seq_shift.
    rewrite (sumf_ext _ (fun j => b * (choose n j * a ^ Z.of_nat (n - j) * b ^ Z.of_nat j)
        + choose n (S j) * a ^ Z.of_nat (n - j) * b ^ Z.of_nat (S j))).
    2:{ intros j _. rewrite choose_S. replace (S n - S j)%nat with (n - j)%nat by lia.
        rewrite (Nat2Z.inj_succ j), Z.pow_succ_r by lia. ring. }
    rewrite sumf_plus, sumf_scal. fold (bsum n a b).
    rewrite Z.mul_add_distr_r.
    assert (E : choose (S n) 0 * a ^ Z.of_nat (S n - 0) * b ^ Z.of_nat 0 +
      sumf (fun j => choose n (S j) * a ^ Z.of_nat (n - j) * b ^ Z.of_nat (S j)) (seq 0 (S n)) = a * bsum n a b).
    { rewrite sumf_seq_snoc. cbn [Nat.add]. rewrite (choose_gt n (S n)) by lia.
      rewrite !Z.mul_0_l, Z.add_0_r.
      unfold bsum. change (seq 0 (S n)) with (0%nat :: seq 1 n). rewrite sumf_cons, sumf_seq_shift.
      rewrite Z.mul_add_distr_l. rewrite !choose_0_r, !Nat.sub_0_r.
      rewrite Nat2Z.inj_succ, Z.pow_succ_r by lia. f_equal; [ring|].
      rewrite <- sumf_scal. apply sumf_ext. intros j Hj. apply in_seq in Hj.
      replace (n - j)%nat with (S (n - S j)) by lia.
      rewrite (Nat2Z.inj_succ (n - S j)), Z.pow_succ_r by lia. ring. }
    rewrite <- E. ring.
Qed.

Lemma mono_upd x e i a : length x = length e -> (i < length e)%nat -> nth i e 0 = 0 ->
  mono x (upd e i a) = mono x e * nth i x 0 ^ a.
Proof.
  revert e i; induction x as [|y x IH]; intros [|k e] i Hl Hi H0; simpl in Hl; simpl in Hi; try lia.
  destruct i as [|i]; cbn [upd mono nth] in *.
  - subst k. rewrite Z.pow_0_r. ring.
  - rewrite IH by (auto; lia). ring.
Qed.

Definition ckey (n i : nat) (u j : Z) : vec := upd (upd (repeat 0 (S n)) i (u - j)) n j.

Lemma ckey_length n i u j : length (ckey n i u j) = S n.
Proof. unfold ckey. now rewrite !upd_length, repeat_length. Qed.

Lemma ckey_last n i u j : nth n (ckey n i u j) 0 = j.
Proof. unfold ckey. apply nth_upd_eq. rewrite upd_length, repeat_length. lia. Qed.

Lemma ckey_nonneg n i u j : 0 <= j <= u -> nonneg (ckey n i u j).
Proof.
  intros H. apply nonneg_iff. intros k _. unfold ckey. rewrite !nth_upd, nth_repeat.
  repeat match goal with |- context [if ?b then _ else _] => destruct b end; lia.
Qed.

Lemma ckey_mono n i u j x y : (i < n)%nat -> length x = n ->
  mono (x ++ [y]) (ckey n i u j) = nth i x 0 ^ (u - j) * y ^ j.
Proof.
  intros Hi Hx. unfold ckey.
  assert (L : length (x ++ [y]) = S n) by (rewrite app_length; simpl; lia).
  rewrite mono_upd; rewrite ?upd_length, ?repeat_length; try lia.
  - rewrite mono_upd; rewrite ?repeat_length; try lia.
    + rewrite mono_zero. rewrite app_nth1 by lia. rewrite app_nth2 by lia.
      rewrite Hx, Nat.sub_diag. cbn [nth]. ring.
    + apply nth_repeat.
  - rewrite nth_upd_neq by lia. apply nth_repeat.
Qed.

Lemma covm_factor_ok n i u v js : (i < n)%nat -> NoDup js ->
  (forall j, In j js -> 0 <= j <= u /\ choose (Z.to_nat u) (Z.to_nat j) < 2 ^ 63) ->
  forall m, poly_ok (S n) m -> (forall k c j, In (k, c) m -> In j js -> nth n k 0 <> j) ->
  exists m', covm_factor n i u v js m = OK m' /\ poly_ok (S n) m' /\
    forall x y, length x = n ->
      peval m' (x ++ [y]) = peval m (x ++ [y]) +
        sumf (fun j => choose (Z.to_nat u) (Z.to_nat j) * v ^ j * (nth i x 0 ^ (u - j) * y ^ j)) js.
Proof.
  intros Hi. induction js as [|j js IH]; intros Hnd Hjs m Hm Hdis; cbn [covm_factor].
  - exists m. split; [auto|split; [auto|]]. intros. rewrite sumf_nil. lia.
  - destruct (Hjs j (or_introl eq_refl)) as [Hj Hc]. inversion Hnd; subst.
    rewrite binomial_ok by auto. cbn [bind]. fold (ckey n i u j).
    set (c := choose _ _ * power_long v j).
    assert (Hl : forall k' c', In (k', c') m -> length k' = S n).
    { intros. eapply vsorted_len; [apply Hm|eauto]. }
    destruct (IH H2 ltac:(intros; apply Hjs; simpl; auto) (vinsert (ckey n i u j) c m)) as (m' & I1 & I2 & I3).
    + split; [apply vinsert_sorted; [apply Hm|apply ckey_length]|].
      intros k c0 Hin. apply (vinsert_In (S n)) in Hin; [|apply Hm|apply ckey_length].
      destruct Hin as [[-> _]|[_ Hin]]; [apply ckey_nonneg; auto|eapply (proj2 Hm); eauto].
    + intros k c0 j' Hin Hj'. apply (vinsert_In (S n)) in Hin; [|apply Hm|apply ckey_length].
      destruct Hin as [[-> _]|[_ Hin]].
      * rewrite ckey_last. congruence.
      * eapply Hdis; [eauto|right; auto].
    + exists m'. split; [auto|split; [auto|]]. intros x y Hx. rewrite I3, sumf_cons by auto.
      pose proof (peval_vinsert (S n) m (ckey n i u j) c (x ++ [y]) Hl (ckey_length _ _ _ _)) as HP.
      destruct (vfind (ckey n i u j) m) as [w|] eqn:E.
      { apply (vfind_In (S n)) in E; [|apply Hm|apply ckey_length].
        exfalso. eapply Hdis; [exact E|left; reflexivity|apply ckey_last]. }
      rewrite ckey_mono in HP by auto. cbv beta iota in HP.
      rewrite Z.mul_0_l, Z.add_0_r in HP. rewrite HP. unfold c, power_long. ring.
Qed.

Lemma zseq_map_of_nat n : zseq 0 (Z.of_nat n) = map Z.of_nat (seq 0 n).
Proof.
  induction n as [|n IH]; [reflexivity|].
  rewrite Nat2Z.inj_succ, <- Z.add_1_r, zseq_snoc, IH, seq_S, map_app by lia. reflexivity.
Qed.

Lemma zseq_NoDup a b : NoDup (zseq a b).
Proof.
  unfold zseq. generalize (Z.to_nat (b - a)) as k. intros k. revert a.
  induction k; intros; cbn [zrange]; constructor; auto. rewrite zrange_In. lia.
Qed.

Lemma covm_loop_ok u v : length v = length u -> nonneg u ->
  (forall i j, (i < length u)%nat -> 0 <= j <= nth i u 0 -> choose (Z.to_nat (nth i u 0)) (Z.to_nat j) < 2 ^ 63) ->
  forall is H, (forall i, In i is -> (i < length u)%nat) -> poly_ok (S (length u)) H ->
  exists H', covm_loop (length u) u v is H = OK H' /\ poly_ok (S (length u)) H' /\
   forall x y, length x = length u ->
     peval H' (x ++ [y]) = peval H (x ++ [y]) *
        zprod (map (fun i => (nth i x 0 + y * nth i v 0) ^ nth i u 0) is).
Proof.
  intros Hl Hu Hc. induction is as [|i is IH]; intros H His HH; cbn [covm_loop].
  - exists H. split; [auto|split; [auto|]]. intros. cbn [map zprod]. lia.
  - assert (Hi := His i (or_introl eq_refl)). assert (Hui := nonneg_nth u i Hu).
    destruct (covm_factor_ok (length u) i (nth i u 0) (nth i v 0) (zseq 0 (nth i u 0 + 1)) Hi
       (zseq_NoDup _ _)) with (m := @nil (vec * Z)) as (m & M1 & M2 & M3).
    { intros j Hj. apply zseq_In in Hj. split; [lia|]. apply Hc; auto. lia. }
    { split; [apply vsorted_nil|intros ? ? []]. }
    { intros ? ? ? []. }
    rewrite M1. cbn [bind].
    destruct (pmul_ok (S (length u)) 0 H m HH M2) as (P1 & P2 & _).
    destruct (IH (pmul 0 H m) ltac:(intros; apply His; simpl; auto) P1) as (H' & I1 & I2 & I3).
    exists H'. split; [auto|split; [auto|]]. intros x y Hx.
    rewrite I3 by auto. cbn [map zprod].
    assert (E : peval (pmul 0 H m) (x ++ [y]) = peval H (x ++ [y]) * peval m (x ++ [y])).
    { destruct (P2 (x ++ [y])) as [k Hk]. lia. }
    rewrite E, M3 by auto. unfold peval at 2. rewrite sumf_nil, Z.add_0_l.
    rewrite <- (Z2Nat.id (nth i u 0)) at 1 by auto.
    rewrite Z.add_1_r, <- Nat2Z.inj_succ, zseq_map_of_nat, sumf_map.
    rewrite (sumf_ext _ (fun j => choose (Z.to_nat (nth i u 0)) j * (nth i x 0) ^ Z.of_nat (Z.to_nat (nth i u 0) - j)
       * (y * nth i v 0) ^ Z.of_nat j)).
    + fold (bsum (Z.to_nat (nth i u 0)) (nth i x 0) (y * nth i v 0)).
      rewrite binomial_theorem, Z2Nat.id by auto. ring.
    + intros j Hj. apply in_seq in Hj. rewrite Nat2Z.id. rewrite Z.pow_mul_l.
      replace (Z.of_nat (Z.to_nat (nth i u 0) - j)) with (nth i u 0 - Z.of_nat j) by lia. ring.
Qed.

Lemma covm_ok u v : length v = length u -> nonneg u ->
  (forall i j, (i < length u)%nat -> 0 <= j <= nth i u 0 -> choose (Z.to_nat (nth i u 0)) (Z.to_nat j) < 2 ^ 63) ->
  exists H, change_of_variables_monomial u v = OK H /\ poly_ok (S (length u)) H /\
   forall x y, length x = length u -> peval H (x ++ [y]) = mono (vadd x (vscale y v)) u.
Proof.
  intros Hl Hu Hc. unfold change_of_variables_monomial. rewrite Hl, Nat.eqb_refl. cbn [negb].
  destruct (covm_loop_ok u v Hl Hu Hc (seq 0 (length u)) [(repeat 0 (S (length u)), 1)]) as (H & I1 & I2 & I3).
  { intros i Hi. apply in_seq in Hi. lia. }
  { split.
    - constructor; [apply repeat_length|constructor|intros ? ? []].
    - intros k c' [E|[]]. injection E as <- _. exact (nonneg_repeat0 (S (length u))). }
  exists H. split; [auto|split; [auto|]]. intros x y Hx. rewrite I3 by auto.
  rewrite peval_cons. cbn [fst snd]. rewrite mono_zero. unfold peval. rewrite sumf_nil.
  rewrite (mono_seq _ u (length u)); [|apply vadd_length; rewrite ?vscale_length; auto|auto].
  rewrite Z.mul_1_r, Z.add_0_r, Z.mul_1_l. f_equal. apply map_ext_in. intros i Hi. apply in_seq in Hi.
  rewrite vadd_nth by (rewrite vscale_length; lia). now rewrite vscale_nth.
Qed.

(** * Packaged statements *)
From Coq Require Import Sorted.

Lemma tlg_spec d n : 0 <= d -> 1 <= n ->
  choose (Z.to_nat (d + n - 1)) (Z.to_nat (n - 1)) < 2 ^ 63 ->
  exists l, tuple_list_generator d n = OK l /\
    (forall t, In t l <-> is_tuple (Z.to_nat n) d t) /\
    StronglySorted lex_lt l /\ NoDup l /\
    zlen l = choose (Z.to_nat (d + n - 1)) (Z.to_nat (n - 1)).
Proof.
  intros Hd Hn Hs. exists (enum (Z.to_nat n) (Z.to_nat d)).
  split; [now apply tlg_ok|]. split; [|split; [apply enum_sorted|split; [apply enum_NoDup|]]].
  - intros t. rewrite enum_In by lia. now rewrite Z2Nat.id.
  - unfold zlen. rewrite enum_length by lia. f_equal; lia.
Qed.

(** spec-level exponent of p in n! *)
Lemma vof_exact p n : prime p -> 0 <= n ->
  exists v, valuation_of_factorial n p = OK v /\ val_exact p (zfact n) v.
Proof.
  intros Hp Hn. assert (Hp2 : 2 <= p) by (destruct Hp; lia).
  destruct (factorial_p_adic_ok 0 n p 1 (S (Z.to_nat (Z.log2 n))) Hp2 ltac:(lia) (conj Hn (fuel_enough n Hn)))
    as (v & u & r & E & Hv & H1 & H2 & H3 & H4).
  exists v. split.
  - unfold factorial_p_adic in E. rewrite Z.eqb_refl in E.
    destruct (fpa_loop _ _ _ _ _ _) as [rv|]; [|discriminate]. cbn [bind] in E.
    destruct (valuation_of_factorial n p) as [v'|]; [|discriminate]. cbn [bind] in E.
    destruct (Z.eqb_spec (snd rv) v') as [E'|]; [|discriminate]. congruence.
  - fold (zfact n) in H1. split; [auto|]. split. { exists u. lia. }
    intros [k Hk]. apply (H4 Hp). rewrite H1, Z.pow_add_r in Hk by lia.
    exists k. assert (0 < p ^ v) by (apply Z.pow_pos_nonneg; lia). nia.
Qed.

(** value below 2^63 forces the returned value; refutation above *)
Lemma choose_67_33 : choose 67 33 = 14226520737620288370.
Proof.
  transitivity (zprod (zseq (33 + 1) (67 + 1)) / zprod (zseq 1 (67 - 33 + 1))).
  - symmetry. exact (proj1 (binomial_quot 67 33 ltac:(lia))).
  - vm_compute. reflexivity.
Qed.

Lemma binomial_wrong : exists n k, 0 <= k <= n /\
  exists r, binomial n k = OK r /\ r <> choose (Z.to_nat n) (Z.to_nat k) /\ r < 0.
Proof.
  exists 67, 33. split; [lia|].
  exists (14226520737620288370 - 2 ^ 64).
  change (Z.to_nat 67) with 67%nat. change (Z.to_nat 33) with 33%nat.
  pose proof (binomial_wraps 67 33 ltac:(lia)) as H.
  change (Z.to_nat 67) with 67%nat in H. change (Z.to_nat 33) with 33%nat in H.
  rewrite choose_67_33 in *. split; [apply H; lia|]. lia.
Qed.

(** exactly when the returned value is right *)
Lemma binomial_right_iff n k r : 0 <= k <= n -> binomial n k = OK r ->
  (r = choose (Z.to_nat n) (Z.to_nat k) <-> choose (Z.to_nat n) (Z.to_nat k) < 2 ^ 63).
Proof.
  intros H E. destruct (Z.lt_ge_cases (choose (Z.to_nat n) (Z.to_nat k)) (2 ^ 63)) as [L|L].
  - rewrite binomial_ok in E by auto. split; congruence.
  - destruct (Z.lt_ge_cases (choose (Z.to_nat n) (Z.to_nat k)) (2 ^ 64)) as [L2|L2].
    + rewrite binomial_wraps in E by (auto; lia). injection E as <-. lia.
    + exfalso. unfold binomial in E. destruct (n <? k); [discriminate|]. cbv zeta in E.
      rewrite (proj1 (binomial_quot n k H)) in E.
      destruct (Z.ltb_spec (Z.abs (choose (Z.to_nat n) (Z.to_nat k))) (2 ^ 64)); [lia|discriminate].
Qed.

Lemma vmax_ok v : v <> [] -> exists m, vmax v = OK m /\ In m v /\ forall x, In x v -> x <= m.
Proof.
  destruct v as [|x r]; [congruence|]. intros _. unfold vmax. eexists. split; [reflexivity|].
  revert x. induction r as [|y r IH]; intros x; cbn [fold_left].
  - simpl. split; auto. intros z [->|[]]. lia.
  - destruct (IH (if x <? y then y else x)) as [I1 I2]. set (F := fold_left _ r _) in *.
    destruct (Z.ltb_spec x y); simpl in *; split.
    + tauto.
    + intros z [->|[->|Hz]]; auto. specialize (I2 y (or_introl eq_refl)). lia.
    + tauto.
    + intros z [->|[->|Hz]]; auto. specialize (I2 x (or_introl eq_refl)). lia.
Qed.
