(** Proofs about the de Rham object: dictionaries, relation matrices. *)
From Coq Require Import ZArith List Lia Bool.
From Verif Require Import Base VecModel VecSpec VecProofs ToolsModel ToolsSpec ToolsProofs PolyProofs
  MatModel MatProofs DRModel DRSpec.
Import ListNotations.
Open Scope Z_scope.

(** * spec-level exponent operations *)
Lemma eplus_vadd a b : eplus a b = vadd a b.
Proof. revert b; induction a as [|x a IH]; intros [|y b]; simpl; auto. unfold vadd in *. now rewrite IH. Qed.

Lemma eminus_upd a i : eminus a i = upd a i (nth i a 0 - 1).
Proof. revert i; induction a as [|x a IH]; intros [|i]; simpl; auto. now rewrite IH. Qed.

Lemma eminus_length a i : length (eminus a i) = length a.
Proof. rewrite eminus_upd. apply upd_length. Qed.

Lemma eminus_nth a i j : (i < length a)%nat -> nth j (eminus a i) 0 = nth j a 0 - (if Nat.eqb i j then 1 else 0).
Proof.
  intros H. rewrite eminus_upd, nth_upd. destruct (Nat.eqb_spec i j) as [->|Hn]; [|lia].
  destruct (Nat.ltb_spec j (length a)); lia.
Qed.

Lemma eminus_sum a i : (i < length a)%nat -> zsum (eminus a i) = zsum a - 1.
Proof. intros H. rewrite eminus_upd, zsum_upd by auto. lia. Qed.

Lemma epred_length a : length (epred a) = length a.
Proof. apply map_length. Qed.

Lemma epred_nth a i : (i < length a)%nat -> nth i (epred a) 0 = nth i a 0 - 1.
Proof. intros. unfold epred. now rewrite (nth_map_lt _ _ _ _ 0). Qed.

Lemma epred_sum a : zsum (epred a) = zsum a - Z.of_nat (length a).
Proof. unfold epred. induction a as [|x a IH]; cbn [map zsum length]; [lia|]. rewrite IH. lia. Qed.

Lemma positive_iff a : positive a = true <-> forall i, (i < length a)%nat -> 0 < nth i a 0.
Proof.
  unfold positive. rewrite forallb_forall. split; intros H.
  - intros i Hi. apply Z.ltb_lt, H, nth_In, Hi.
  - intros x Hx. destruct (In_nth _ _ 0 Hx) as (i & Hi & <-). apply Z.ltb_lt; auto.
Qed.

Lemma dec_all_spec w : dec_all w = if positive w then Some (epred w) else None.
Proof.
  induction w as [|x w IH]; simpl; auto. destruct (0 <? x); simpl; auto. rewrite IH.
  unfold positive. destruct (forallb _ w); simpl; auto.
Qed.

Lemma vec_add_ok a b : length a = length b -> vec_add a b = OK (vadd a b).
Proof. intros H. unfold vec_add. now rewrite H, Nat.eqb_refl. Qed.

Lemma vec_diff_pos v i : (i < length v)%nat -> 0 < nth i v 0 -> vec_diff v i = OK (eminus v i).
Proof.
  intros H1 H2. unfold vec_diff. destruct (Nat.ltb_spec i (length v)); [|lia].
  destruct (Z.ltb_spec 0 (nth i v 0)); [|lia]. now rewrite eminus_upd.
Qed.

Lemma is_tuple_len n d t : is_tuple n d t -> length t = n.
Proof. intros H; apply H. Qed.

(** * tuple_index *)
Lemma tuple_index_aux N l : forall k0 m,
  (forall t, In t l -> length t = N) -> NoDup l -> vsorted N m ->
  (forall t, In t l -> vfind t m = None) ->
  let m' := fold_left (fun m kj => vinsert (fst kj) (snd kj) m) (combine l (seq k0 (length l))) m in
  vsorted N m' /\
  (forall k, length k = N -> forall j, vfind k m' = Some j <->
     (vfind k m = Some j \/ exists i, nth_error l i = Some k /\ j = (k0 + i)%nat)).
Proof.
  induction l as [|t l IH]; intros k0 m Hl Hnd Hs Hf; cbn [length seq combine fold_left]; cbv zeta.
  - split; auto. intros k Hk j. split; auto. intros [H|(i & H & _)]; auto. destruct i; discriminate.
  - inversion Hnd as [|? ? Hni Hnd']; subst. cbn [fst snd].
    assert (Ht : length t = N) by (apply Hl; now left).
    destruct (IH (S k0) (vinsert t k0 m)) as [I1 I2]; auto.
    + intros; apply Hl; now right.
    + now apply vinsert_sorted.
    + intros t' Ht'. rewrite (vfind_insert_neq N); auto.
      * apply Hf. now right.
      * apply Hl. now right.
      * intros ->. contradiction.
    + split; auto. intros k Hk j. rewrite I2 by auto. split.
      * intros [H|(i & H1 & H2)].
        -- destruct (vec_eq_dec k t) as [->|Hne].
           ++ rewrite (vfind_insert_eq N) in H by auto. injection H as <-. right. exists 0%nat. split; auto; lia.
           ++ rewrite (vfind_insert_neq N) in H by auto. auto.
        -- right. exists (S i). split; auto; lia.
      * intros [H|(i & H1 & H2)].
        -- left. rewrite (vfind_insert_neq N); auto. intros ->. rewrite Hf in H by now left. discriminate.
        -- destruct i as [|i].
           ++ injection H1 as ->. left. rewrite (vfind_insert_eq N) by auto. f_equal. lia.
           ++ right. exists i. split; auto; lia.
Qed.

Lemma tuple_index_spec N l : (forall t, In t l -> length t = N) -> NoDup l ->
  vsorted N (tuple_index l) /\
  (forall k, length k = N -> forall j, vfind k (tuple_index l) = Some j <-> nth_error l j = Some k).
Proof.
  intros H1 H2. destruct (tuple_index_aux N l 0 [] H1 H2 (vsorted_nil _)) as [I1 I2].
  { intros; reflexivity. }
  fold (tuple_index l) in I1, I2. split; auto.
  intros k Hk j. rewrite I2 by auto. split.
  - intros [H|(i & H & ->)]; [discriminate|auto].
  - intros H. right. exists j. auto.
Qed.

Lemma vinsert_length_new {V} N (m : vmap V) k v : vsorted N m -> length k = N -> vfind k m = None ->
  length (vinsert k v m) = S (length m).
Proof.
  intros Hs Hk. induction Hs as [|k' v' m Hk' Hs IH Hlt].
  - intros _. reflexivity.
  - unfold vfind, vinsert in *. cbn [minsert mfind].
    destruct (vltb k k') eqn:E1; auto. destruct (vltb k' k) eqn:E2; [|discriminate].
    intros H. cbn [length]. rewrite IH; auto.
Qed.

Lemma tuple_index_length N l : (forall t, In t l -> length t = N) -> NoDup l ->
  length (tuple_index l) = length l.
Proof.
  intros H1 H2. unfold tuple_index.
  assert (G : forall k0 m, vsorted N m -> (forall t, In t l -> vfind t m = None) ->
    length (fold_left (fun m kj => vinsert (fst kj) (snd kj) m) (combine l (seq k0 (length l))) m)
    = (length m + length l)%nat).
  { induction l as [|t l IH]; intros k0 m Hs Hf; cbn [length seq combine fold_left]; [lia|].
    inversion H2 as [|? ? Hni Hnd']; subst. cbn [fst snd].
    assert (Ht : length t = N) by (apply H1; now left).
    rewrite IH; auto.
    - rewrite (vinsert_length_new N); auto; [lia|]. apply Hf; now left.
    - intros; apply H1; now right.
    - now apply vinsert_sorted.
    - intros t' Ht'. rewrite (vfind_insert_neq N); auto.
      + apply Hf. now right.
      + apply H1. now right.
      + intros ->. contradiction. }
  rewrite G; auto. constructor.
Qed.

Lemma enum_len n d t : In t (enum (S n) d) -> length t = S n.
Proof. intros H. apply enum_In in H; [|lia]. apply H. Qed.

Lemma enum_idx n d k : is_tuple (S n) (Z.of_nat d) k ->
  exists j, dget (tuple_index (enum (S n) d)) k = OK j /\
    (j < length (enum (S n) d))%nat /\ nth j (enum (S n) d) [] = k.
Proof.
  intros H. assert (Hin : In k (enum (S n) d)) by (apply enum_In; auto; lia).
  destruct (In_nth_error _ _ Hin) as [j Hj]. exists j.
  destruct (tuple_index_spec (S n) (enum (S n) d)) as [_ I].
  { intros t. apply enum_len. } { apply enum_NoDup. }
  unfold dget. rewrite (proj2 (I k (proj1 H) j) Hj). split; auto. split.
  - apply nth_error_Some. rewrite Hj. discriminate.
  - now apply nth_error_nth.
Qed.

Lemma dget_enum_inv n d k j : length k = S n -> dget (tuple_index (enum (S n) d)) k = OK j ->
  is_tuple (S n) (Z.of_nat d) k /\ (j < length (enum (S n) d))%nat /\ nth j (enum (S n) d) [] = k.
Proof.
  intros Hk. unfold dget. destruct (vfind _ _) as [j'|] eqn:E; [|discriminate]. intros H. injection H as ->.
  destruct (tuple_index_spec (S n) (enum (S n) d)) as [_ I].
  { intros t. apply enum_len. } { apply enum_NoDup. }
  apply I in E; auto. split; [|split].
  - apply enum_In; [lia|]. eapply nth_error_In; eauto.
  - apply nth_error_Some. rewrite E. discriminate.
  - now apply nth_error_nth.
Qed.

Lemma enum_nth_tuple n d j : (j < length (enum (S n) d))%nat ->
  is_tuple (S n) (Z.of_nat d) (nth j (enum (S n) d) []).
Proof. intros H. apply enum_In; [lia|]. now apply nth_In. Qed.

Lemma enum_nth_inj n d i j : (i < length (enum (S n) d))%nat -> (j < length (enum (S n) d))%nat ->
  nth i (enum (S n) d) [] = nth j (enum (S n) d) [] -> i = j.
Proof. intros. eapply (proj1 (NoDup_nth _ [])); eauto. apply enum_NoDup. Qed.

(** * the invariant of a constructed object *)
Record dr_inv (slv : solver) (D : dR) : Prop := {
  inv_nd : Z.of_nat (r_n D) < r_d D;
  inv_f : vsorted (S (r_n D)) (r_f D);
  inv_h : forall a c, In (a, c) (r_f D) -> is_tuple (S (r_n D)) (r_d D) a;
  inv_tl : forall l, 0 <= l <= (Z.of_nat (r_n D) + 1) * r_d D ->
    get_at (r_tl D) l = OK (enum (S (r_n D)) (Z.to_nat l));
  inv_td : forall l, 0 <= l <= (Z.of_nat (r_n D) + 1) * r_d D ->
    get_at (r_td D) l = OK (tuple_index (enum (S (r_n D)) (Z.to_nat l)));
  inv_fit : forall l, 0 <= l <= (Z.of_nat (r_n D) + 1) * r_d D ->
    choose (Z.to_nat (l + Z.of_nat (r_n D))) (r_n D) < 2 ^ 63;
  inv_top : exists U, get_solve_J slv D (deg_top D) = OK ([], U);
  inv_basis : exists bs, mapM (init_basis_level slv D (hilbert_J (r_n D) (r_d D))) (zseq 0 (Z.of_nat (r_n D))) = OK bs
    /\ r_basis D = concat bs;
  inv_bdict : r_bdict D = tuple_index (r_basis D)
}.

(** the part of it needed by the relation matrices *)
Record dr_base (D : dR) : Prop := {
  base_d : 1 <= r_d D;
  base_f : vsorted (S (r_n D)) (r_f D);
  base_h : forall a c, In (a, c) (r_f D) -> is_tuple (S (r_n D)) (r_d D) a;
  base_tl : forall l, 0 <= l <= (Z.of_nat (r_n D) + 1) * r_d D ->
    get_at (r_tl D) l = OK (enum (S (r_n D)) (Z.to_nat l));
  base_td : forall l, 0 <= l <= (Z.of_nat (r_n D) + 1) * r_d D ->
    get_at (r_td D) l = OK (tuple_index (enum (S (r_n D)) (Z.to_nat l)))
}.
Lemma inv_base slv D : dr_inv slv D -> dr_base D.
Proof.
  intros inv. constructor; [pose proof (inv_nd _ _ inv); lia|apply (inv_f _ _ inv)|apply (inv_h _ _ inv)|apply (inv_tl _ _ inv)|apply (inv_td _ _ inv)].
Qed.

(** f is a std::map whose keys are monomials of degree d in n+1 variables *)
Definition wf_poly (n : nat) (d : Z) (f : poly) : Prop :=
  vsorted (S n) f /\ forall a c, In (a, c) f -> is_tuple (S n) d a.

Lemma tlg_fits l n ts : 0 <= l -> 0 <= n -> tuple_list_generator l (n + 1) = OK ts ->
  choose (Z.to_nat (l + (n + 1) - 1)) (Z.to_nat (n + 1 - 1)) < 2 ^ 63.
Proof.
  intros Hl Hn E.
  destruct (Z.lt_ge_cases (choose (Z.to_nat (l + (n + 1) - 1)) (Z.to_nat (n + 1 - 1))) (2 ^ 63)) as [L|L]; auto.
  - exfalso. unfold tuple_list_generator in E. apply bind_ok in E. destruct E as (len & E1 & E).
    destruct (binomial_right_iff (l + (n + 1) - 1) (n + 1 - 1) len ltac:(lia) E1) as [R1 R2].
    destruct (Z.leb_spec (n + 1) 0); [discriminate|].
    destruct (Z.ltb_spec len 0); [discriminate|].
    unfold binomial in E1. destruct (_ <? _); [discriminate|].
    rewrite (proj1 (binomial_quot (l + (n + 1) - 1) (n + 1 - 1) ltac:(lia))) in E1.
    destruct (Z.ltb_spec (Z.abs (choose (Z.to_nat (l + (n + 1) - 1)) (Z.to_nat (n + 1 - 1)))) (2 ^ 64)) as [L2|L2]; [|discriminate].
    injection E1 as E1. unfold wrap64 in E1. rewrite Z.mod_small in E1 by lia.
    destruct (Z.ltb_spec (choose (Z.to_nat (l + (n + 1) - 1)) (Z.to_nat (n + 1 - 1))) (2 ^ 63)); lia.
Qed.

Lemma tlg_inv l n ts : 0 <= l -> 0 <= n -> tuple_list_generator l (n + 1) = OK ts ->
  ts = enum (Z.to_nat (n + 1)) (Z.to_nat l).
Proof.
  intros Hl Hn E. pose proof (tlg_fits l n ts Hl Hn E) as L.
  rewrite tlg_ok in E by (auto; lia). congruence.
Qed.

Lemma Forall2_nth_error {A B} (R : A -> B -> Prop) l1 l2 i a : Forall2 R l1 l2 -> nth_error l1 i = Some a ->
  exists b, nth_error l2 i = Some b /\ R a b.
Proof.
  intros H. revert i. induction H; intros [|i] E; simpl in *; try discriminate.
  - injection E as ->. eauto.
  - auto.
Qed.

Lemma zrange_nth_error a k i : (i < k)%nat -> nth_error (zrange a k) i = Some (a + Z.of_nat i).
Proof.
  intros H. rewrite (nth_error_nth' _ 0) by now rewrite zrange_length. now rewrite zrange_nth.
Qed.

Lemma init_tuples_ok n d tl l : init_tuples n d = OK tl -> 0 <= l <= (Z.of_nat n + 1) * d ->
  get_at tl l = OK (enum (S n) (Z.to_nat l)).
Proof.
  intros H Hl. unfold init_tuples in H. apply mapM_ok in H.
  destruct (Forall2_nth_error _ _ _ (Z.to_nat l) l H) as (ts & H1 & H2).
  { unfold zseq. rewrite zrange_nth_error by lia. f_equal. lia. }
  apply get_at_ok. split; [lia|]. rewrite H1. f_equal. apply tlg_inv in H2; try lia.
  rewrite H2. f_equal. lia.
Qed.

Lemma init_tuples_fit n d tl l : init_tuples n d = OK tl -> 0 <= l <= (Z.of_nat n + 1) * d ->
  choose (Z.to_nat (l + Z.of_nat n)) n < 2 ^ 63.
Proof.
  intros H Hl. unfold init_tuples in H. apply mapM_ok in H.
  destruct (Forall2_nth_error _ _ _ (Z.to_nat l) l H) as (ts & H1 & H2).
  { unfold zseq. rewrite zrange_nth_error by lia. f_equal. lia. }
  apply tlg_fits in H2; try lia.
  replace (l + (Z.of_nat n + 1) - 1) with (l + Z.of_nat n) in H2 by lia.
  now replace (Z.to_nat (Z.of_nat n + 1 - 1)) with n in H2 by lia.
Qed.

Lemma get_at_map {A B} (f : A -> B) l i a : get_at l i = OK a -> get_at (map f l) i = OK (f a).
Proof.
  rewrite !get_at_ok. intros [H1 H2]. split; auto. now apply map_nth_error.
Qed.

Lemma init_inv slv q p prec f D : init slv q p prec f = OK D ->
  wf_poly (r_n D) (r_d D) f -> dr_inv slv D /\ r_q D = q /\ r_f D = f.
Proof.
  unfold init. destruct f as [|[a0 c0] f]; [discriminate|]. set (F := (a0, c0) :: f).
  intros H. apply bind_ok in H. destruct H as (? & H1 & H).
  apply bind_ok in H. destruct H as (? & H2 & H).
  apply bind_ok in H. destruct H as (? & H3 & H).
  apply bind_ok in H. destruct H as (tl & H4 & H).
  apply bind_ok in H. destruct H as (top & H5 & H).
  apply bind_ok in H. destruct H as (? & H6 & H).
  apply bind_ok in H. destruct H as (bs & H7 & H).
  injection H as <-. cbn [r_n r_d r_q r_f].
  intros [W1 W2]. split; [|split; auto].
  unfold check in *.
  destruct (Z.ltb_spec (Z.of_nat (length a0 - 1)) (zsum a0)) as [L|]; [|discriminate].
  destruct (Nat.eqb_spec (length (fst top)) 0) as [E6|]; [|discriminate].
  constructor; cbn [r_n r_d r_q r_f r_tl r_td r_basis r_bdict]; auto.
  - intros l Hl. eapply init_tuples_ok; eauto.
  - intros l Hl. eapply (get_at_map tuple_index). eapply init_tuples_ok; eauto.
  - intros l Hl. eapply init_tuples_fit; eauto.
  - destruct top as [B U]. exists U. cbn [fst] in E6. apply length_zero_iff_nil in E6. subst B. exact H5.
  - exists bs. split; auto.
Qed.

Lemma init_p slv q p prec f D : init slv q p prec f = OK D -> r_p D = p.
Proof.
  unfold init. destruct f as [|[a0 c0] f]; [discriminate|].
  intros H. repeat (apply bind_ok in H; destruct H as (? & ? & H)). now injection H as <-.
Qed.

(** * generic list facts *)
Lemma NoDup_map_on {A B} (f : A -> B) l : NoDup l ->
  (forall x y, In x l -> In y l -> f x = f y -> x = y) -> NoDup (map f l).
Proof.
  induction 1 as [|a l Ha Hl IH]; intros H; simpl; constructor.
  - intros Hin. apply in_map_iff in Hin. destruct Hin as (y & E & Hy).
    apply Ha. rewrite (H a y); simpl; auto.
  - apply IH. intros; apply H; simpl; auto.
Qed.

Lemma NoDup_app_intro {A} (l1 l2 : list A) : NoDup l1 -> NoDup l2 ->
  (forall x, In x l1 -> In x l2 -> False) -> NoDup (l1 ++ l2).
Proof.
  induction 1 as [|a l Ha Hl IH]; intros H2 H; simpl; auto. constructor.
  - intros Hin. apply in_app_iff in Hin. destruct Hin; [contradiction|]. eapply H; simpl; eauto.
  - apply IH; auto. intros; eapply H; simpl; eauto.
Qed.

Lemma NoDup_flat_map_on {A B} (f : A -> list B) l : NoDup l ->
  (forall x, In x l -> NoDup (f x)) ->
  (forall x y b, In x l -> In y l -> In b (f x) -> In b (f y) -> x = y) -> NoDup (flat_map f l).
Proof.
  induction 1 as [|a l Ha Hl IH]; intros H1 H2; simpl; [constructor|].
  apply NoDup_app_intro.
  - apply H1; now left.
  - apply IH; intros; [apply H1; now right|]. eapply H2; simpl; eauto.
  - intros b Hb Hb'. apply in_flat_map in Hb'. destruct Hb' as (y & Hy & Hb').
    apply Ha. rewrite (H2 a y b); simpl; auto.
Qed.

Lemma NoDup_filter_on {A} (p : A -> bool) l : NoDup l -> NoDup (filter p l).
Proof. apply NoDup_filter. Qed.

Lemma vsorted_NoDup_list {V} n (m : vmap V) : vsorted n m -> NoDup m.
Proof. intros H. apply vsorted_NoDup in H. now apply NoDup_map_inv in H. Qed.

Lemma vsorted_key_inj {V} n (m : vmap V) k v v' : vsorted n m -> In (k, v) m -> In (k, v') m -> v = v'.
Proof.
  intros Hs H1 H2. assert (Hk : length k = n) by (eapply vsorted_len; eauto).
  apply (vfind_In n) in H1; auto. apply (vfind_In n) in H2; auto. congruence.
Qed.

Lemma sumf_filter {A} (p : A -> bool) (f : A -> Z) l :
  sumf f (filter p l) = sumf (fun a => if p a then f a else 0) l.
Proof.
  induction l as [|a l IH]; [reflexivity|]. simpl. rewrite sumf_cons.
  destruct (p a); rewrite ?sumf_cons, IH; lia.
Qed.

(** position of a monomial in the enumeration (total version of the dictionary) *)
Definition pos (n d : nat) (k : vec) : nat :=
  match vfind k (tuple_index (enum (S n) d)) with Some j => j | None => O end.

Lemma pos_ok n d k : is_tuple (S n) (Z.of_nat d) k ->
  dget (tuple_index (enum (S n) d)) k = OK (pos n d k) /\
  (pos n d k < length (enum (S n) d))%nat /\ nth (pos n d k) (enum (S n) d) [] = k.
Proof.
  intros H. destruct (enum_idx n d k H) as (j & H1 & H2 & H3). unfold pos, dget in *.
  destruct (vfind _ _); [|discriminate]. injection H1 as ->. auto.
Qed.

Lemma pos_inj n d k k' : is_tuple (S n) (Z.of_nat d) k -> is_tuple (S n) (Z.of_nat d) k' ->
  pos n d k = pos n d k' -> k = k'.
Proof.
  intros H H' E. destruct (pos_ok n d k H) as (_ & _ & E1). destruct (pos_ok n d k' H') as (_ & _ & E2).
  congruence.
Qed.

Lemma divmod_inj len i j i' j' : (j < len)%nat -> (j' < len)%nat ->
  (i * len + j = i' * len + j')%nat -> i = i' /\ j = j'.
Proof. intros. assert (i = i') by nia. split; auto. nia. Qed.

(** * matrix_J *)
Lemma tuple_shift n d l s a i : is_tuple (S n) d a -> is_tuple (S n) (l - (d - 1)) s -> (i <= n)%nat ->
  0 < nth i a 0 ->
  is_tuple (S n) l (vadd (eminus a i) s) /\ vadd (eminus a i) s = eminus (eplus s a) i.
Proof.
  intros (A1 & A2 & A3) (S1 & S2 & S3) Hi Ha. split.
  - split; [|split].
    + apply vadd_length; auto. now rewrite eminus_length.
    + apply nonneg_vadd; auto. apply nonneg_iff. rewrite eminus_length. intros j Hj.
      rewrite eminus_nth by lia. pose proof (nonneg_nth a j A2).
      destruct (Nat.eqb_spec i j); subst; lia.
    + rewrite zsum_vadd by (rewrite eminus_length; lia). rewrite eminus_sum by lia. lia.
  - rewrite eplus_vadd. apply vec_ext.
    + rewrite eminus_length, !(vadd_length _ _ (S n)); auto. now rewrite eminus_length.
    + intros j Hj. rewrite eminus_nth by (rewrite (vadd_length _ _ (S n)); auto; lia).
      rewrite !vadd_nth by (rewrite ?eminus_length; congruence).
      rewrite eminus_nth by lia. lia.
Qed.

Section MATJ.
  Variable D : dR.
  Hypothesis inv : dr_base D.
  Let n := r_n D.
  Let d := r_d D.
  Let q := r_q D.
  Let f := r_f D.
  Notation E l := (enum (S n) (Z.to_nat l)).

  Lemma enum_tuple l s : 0 <= l -> In s (E l) <-> is_tuple (S n) l s.
  Proof. intros Hl. rewrite enum_In by lia. now rewrite Z2Nat.id. Qed.

  Variable l : Z.
  Hypothesis Hl : d - 1 <= l <= (Z.of_nat n + 1) * d.

  Let lo := E (l - (d - 1)).
  Let rows := E l.
  Let nc := (S n * length lo)%nat.

  Let triples := flat_map (fun i => flat_map (fun j =>
        map (fun t => ((i, j), t)) (filter (fun t => 0 <? nth i (fst t) 0) f))
        (seq 0 (length lo))) (seq 0 (S n)).

  Let up (ijt : (nat * nat) * (vec * Z)) : nat * nat * Z :=
    let i := fst (fst ijt) in let j := snd (fst ijt) in
    let a := fst (snd ijt) in let c := snd (snd ijt) in
    (pos n (Z.to_nat l) (vadd (eminus a i) (nth j lo [])), (i * length lo + j)%nat, (nth i a 0 * c) mod q).

  Lemma triples_In i j a c : In ((i, j), (a, c)) triples <->
    (i <= n)%nat /\ (j < length lo)%nat /\ In (a, c) f /\ 0 < nth i a 0.
  Proof.
    unfold triples. rewrite in_flat_map. split.
    - intros (i' & Hi & H). apply in_flat_map in H. destruct H as (j' & Hj & H).
      apply in_map_iff in H. destruct H as (t & E & H). apply filter_In in H. injection E as <- <- ->.
      apply in_seq in Hi, Hj. destruct H as [H1 H2]. apply Z.ltb_lt in H2. repeat split; auto; lia.
    - intros (Hi & Hj & H1 & H2). exists i. split; [apply in_seq; lia|]. apply in_flat_map.
      exists j. split; [apply in_seq; lia|]. apply in_map_iff. exists (a, c). split; auto.
      apply filter_In. split; auto. now apply Z.ltb_lt.
  Qed.

  Lemma lo_tuple j : (j < length lo)%nat -> is_tuple (S n) (l - (d - 1)) (nth j lo []).
  Proof. intros Hj. apply enum_tuple; [lia|]. now apply nth_In. Qed.

  Lemma key_ok i j a c : In ((i, j), (a, c)) triples ->
    is_tuple (S n) (Z.of_nat (Z.to_nat l)) (vadd (eminus a i) (nth j lo [])) /\
    vadd (eminus a i) (nth j lo []) = eminus (eplus (nth j lo []) a) i.
  Proof.
    intros H. apply triples_In in H. destruct H as (H1 & H2 & H3 & H4).
    pose proof (base_d _ inv). fold d in H.
    rewrite Z2Nat.id by lia.
    apply (tuple_shift n d); auto.
    - eapply (base_h _ inv); eauto.
    - now apply lo_tuple.
  Qed.

  Lemma triples_NoDup : NoDup triples.
  Proof.
    unfold triples. apply NoDup_flat_map_on; [apply seq_NoDup| |].
    - intros i _. apply NoDup_flat_map_on; [apply seq_NoDup| |].
      + intros j _. apply NoDup_map_on.
        * apply NoDup_filter. eapply vsorted_NoDup_list, (base_f _ inv).
        * intros x y _ _ H. congruence.
      + intros j j' b _ _ H1 H2. apply in_map_iff in H1, H2.
        destruct H1 as (t & <- & _), H2 as (t' & H2 & _). congruence.
    - intros i i' b _ _ H1 H2. apply in_flat_map in H1, H2.
      destruct H1 as (j & _ & H1), H2 as (j' & _ & H2). apply in_map_iff in H1, H2.
      destruct H1 as (t & <- & _), H2 as (t' & H2 & _). congruence.
  Qed.

  Lemma ups_positions_NoDup : NoDup (map fst (map up triples)).
  Proof.
    rewrite map_map. apply NoDup_map_on; [apply triples_NoDup|].
    intros [[i j] [a c]] [[i' j'] [a' c']] Hx Hy H.
    pose proof (key_ok _ _ _ _ Hx) as [K1 K2]. pose proof (key_ok _ _ _ _ Hy) as [K1' K2'].
    apply triples_In in Hx, Hy. destruct Hx as (X1 & X2 & X3 & X4), Hy as (Y1 & Y2 & Y3 & Y4).
    unfold up in H. cbn [fst snd] in H. injection H as H1 H2.
    destruct (divmod_inj _ _ _ _ _ X2 Y2 H2) as [-> ->].
    apply pos_inj in H1; auto.
    assert (a = a').
    { pose proof (base_h _ inv _ _ X3) as T. pose proof (base_h _ inv _ _ Y3) as T'.
      pose proof (lo_tuple _ Y2) as TL.
      fold n in T, T'. destruct T as [T _], T' as [T' _], TL as [TL _].
      apply vec_ext; [congruence|]. intros k Hk.
      assert (E : nth k (vadd (eminus a i') (nth j' lo [])) 0 = nth k (vadd (eminus a' i') (nth j' lo [])) 0) by congruence.
      rewrite !vadd_nth, !eminus_nth in E by (rewrite ?eminus_length; lia). lia. }
    subst a'. f_equal. f_equal. eapply vsorted_key_inj; eauto. apply (base_f _ inv).
  Qed.

  Lemma matrix_J_eq : matrix_J D l = OK (nc, mset_all (map up triples) (mzero (length rows) nc)) /\
    ups_ok (length rows) nc (map up triples).
  Proof.
    pose proof (base_d _ inv) as Hnd. fold d in Hnd.
    assert (U : ups_ok (length rows) nc (map up triples)).
    { intros i j x Hin. apply in_map_iff in Hin. destruct Hin as ([[i' j'] [a c]] & E & Hin).
      unfold up in E. cbn [fst snd] in E. injection E as <- <- <-.
      destruct (key_ok _ _ _ _ Hin) as [K _]. apply pos_ok in K. apply triples_In in Hin.
      split; [apply K|]. unfold nc. nia. }
    split; auto. unfold matrix_J.
    rewrite (base_tl _ inv) by (fold n d; lia). fold n. cbn [bind].
    fold d. destruct (Z.ltb_spec l (d - 1)); [lia|].
    rewrite (base_tl _ inv) by (fold n d; lia). fold n. cbn [bind].
    rewrite (base_td _ inv) by (fold n d; lia). fold n. cbn [bind]. fold lo. fold rows. fold nc.
    unfold matrix_J_ups. fold n f. fold triples.
    rewrite (mapM_total _ up).
    - cbn [bind]. rewrite (proj2 (in_range_ok _ _ _) U). reflexivity.
    - intros [[i j] [a c]] Hin. cbn [fst snd].
      pose proof (key_ok _ _ _ _ Hin) as [K1 K2]. apply triples_In in Hin.
      destruct Hin as (X1 & X2 & X3 & X4).
      pose proof (base_h _ inv _ _ X3) as (T1 & _). fold n in T1.
      pose proof (lo_tuple _ X2) as (TL & _).
      rewrite vec_diff_pos by (auto; lia). cbn [bind].
      rewrite vec_add_ok by (rewrite eminus_length; congruence). cbn [bind].
      unfold rows. rewrite (proj1 (pos_ok _ _ _ K1)). reflexivity.
  Qed.

  (** weighted form of the relation matrix *)
  Lemma matrix_J_weighted_b : exists T, matrix_J D l = OK (nc, T) /\ shape T (length rows) nc /\
    forall (X : vec -> Z) i j, (i <= n)%nat -> (j < length lo)%nat ->
      sumf (fun r => mget T r (i * length lo + j) * X (nth r rows [])) (seq 0 (length rows)) =
      sumf (fun t => if 0 <? nth i (fst t) 0
                     then ((nth i (fst t) 0 * snd t) mod q) * X (eminus (eplus (nth j lo []) (fst t)) i) else 0) f.
  Proof.
    destruct matrix_J_eq as [E U]. eexists. split; [exact E|].
    set (T := mset_all _ _).
    pose proof (fun w => mset_all_wsum (map up triples) (mzero (length rows) nc) (length rows) nc w
      (shape_mzero _ _) U ups_positions_NoDup (fun _ _ _ _ => mget_mzero _ _ _ _)) as W.
    fold T in W. split; [apply (W (fun _ _ => 0))|].
    intros X i j Hi Hj.
    set (col := (i * length lo + j)%nat).
    assert (Hcol : (col < nc)%nat) by (unfold col, nc; nia).
    specialize (W (fun r c => if Nat.eqb c col then X (nth r rows []) else 0)). destruct W as [_ W].
    rewrite wsum_mzero in W. unfold wsum in W.
    erewrite sumf_ext.
    2:{ intros r Hr. transitivity (sumf (fun j0 => (if Nat.eqb j0 col then X (nth r rows []) else 0) * mget T r j0) (seq 0 nc)); [|reflexivity].
        rewrite (sumf_seq_single _ 0 nc col); [|lia|].
        - rewrite Nat.eqb_refl. lia.
        - intros k _ Hk. apply Nat.eqb_neq in Hk. rewrite Hk. lia. }
    rewrite W. rewrite sumf_map. unfold triples. rewrite sumf_flat_map.
    rewrite (sumf_seq_single _ 0 (S n) i); [|lia|].
    - rewrite sumf_flat_map. rewrite (sumf_seq_single _ 0 (length lo) j); [|lia|].
      + rewrite sumf_map, sumf_filter, Z.add_0_l. apply sumf_ext. intros [a c] Ht. cbn [fst snd].
        destruct (Z.ltb_spec 0 (nth i a 0)) as [Ha|]; auto.
        unfold up. cbn [fst snd]. fold col. rewrite Nat.eqb_refl.
        destruct (key_ok i j a c) as [K1 K2]. { apply triples_In. auto. }
        destruct (pos_ok _ _ _ K1) as (_ & _ & K3). unfold rows. rewrite K3, K2. lia.
      + intros j' Hj' Hne. apply sumf_zero. intros [[i0 j0] t] Hin. apply in_map_iff in Hin.
        destruct Hin as (t' & E' & _). injection E' as <- <- <-. unfold up. cbn [fst snd].
        destruct (Nat.eqb_spec (i * length lo + j') col) as [E'|]; [|lia].
        exfalso. unfold col in E'. lia.
    - intros i' Hi' Hne. rewrite sumf_flat_map. apply sumf_zero. intros j' Hj'. apply in_seq in Hj'.
      apply sumf_zero. intros [[i0 j0] t] Hin. apply in_map_iff in Hin.
      destruct Hin as (t' & E' & _). injection E' as <- <- <-. unfold up. cbn [fst snd].
      destruct (Nat.eqb_spec (i' * length lo + j') col) as [E'|]; [|lia].
      exfalso. unfold col in E'. destruct (divmod_inj (length lo) i' j' i j); auto; lia.
  Qed.
End MATJ.

Definition matrix_J_weighted slv D (inv : dr_inv slv D) := matrix_J_weighted_b D (inv_base slv D inv).
