(** Proofs about the constructors. *)
From Coq Require Import ZArith List Bool Lia Znumtheory.
From Verif Require Import Base VecModel VecSpec VecProofs ToolsModel ToolsSpec ToolsProofs MatModel MatProofs DRModel DRSpec DRProofs PolyProofs
  NDModel NDSpec NDMat ChangeSpec SolveModel SolveSpec SolveProofs HilbTop HilbInit HilbCode TestModel TestProofs SaveProofs CacheProofs CtorModel CtorSpec.
Import ListNotations.
Open Scope Z_scope.

(** ** maps filled from a list *)
Definition ins (l : list (vec * Z)) (f : poly) : poly := fold_left (fun m kc => vinsert (fst kc) (snd kc) m) l f.

Lemma ins_ok m l : forall f, vsorted m f -> (forall k c, In (k, c) l -> length k = m) -> NoDup (map fst l) ->
  vsorted m (ins l f) /\ forall k c, In (k, c) (ins l f) <-> In (k, c) l \/ (In (k, c) f /\ ~ In k (map fst l)).
Proof.
  induction l as [|[k0 c0] l IH]; intros f Hf Hl ND; unfold ins; cbn [fold_left].
  - split; auto. intros k c. cbn [In map]. tauto.
  - cbn [map fst] in ND. inversion ND as [|? ? N1 N2]; subst. cbn [fst snd].
    assert (L0 : length k0 = m) by (apply (Hl k0 c0); now left).
    destruct (IH (vinsert k0 c0 f)) as (S1 & S2); auto using vinsert_sorted.
    { intros k c H. apply (Hl k c). now right. }
    fold (ins l (vinsert k0 c0 f)). split; auto. intros k c. rewrite S2, (vinsert_In m) by auto. cbn [In map fst]. split.
    + intros [H|[[[-> ->]|[H1 H2]] H3]]; [auto|auto|]. right. split; auto. intros [E|E]; auto.
    + intros [[E|H]|[H1 H2]]; auto.
      * injection E as <- <-. right. auto.
      * right. split; [|tauto]. right. split; [|exact H1]. intros ->. apply H2. now left.
Qed.

Lemma combine_nth_In {A B} (l : list A) (l' : list B) a b x : length l = length l' ->
  In x (combine l l') <-> exists i, (i < length l)%nat /\ x = (nth i l a, nth i l' b).
Proof.
  intros L. split.
  - intros H. destruct (In_nth _ _ (a, b) H) as (i & Hi & E). rewrite combine_length, <- L, Nat.min_id in Hi. exists i. split; auto. now rewrite <- E, combine_nth.
  - intros (i & Hi & ->). rewrite <- combine_nth by auto. apply nth_In. rewrite combine_length. lia.
Qed.

Lemma ins_coeffs n d g td v f : (forall t, In t td -> is_tuple (S n) d t) -> NoDup td -> length v = length td ->
  vsorted (S n) f -> (forall k c, In (k, c) f -> In k td) ->
  coeffs_of n d g td v (ins (combine td (map g v)) f) /\ forall k c, In (k, c) (ins (combine td (map g v)) f) -> In k td.
Proof.
  intros Ht ND Lv Sf Kf. assert (L : length td = length (map g v)) by (rewrite map_length; auto).
  assert (Mf : map fst (combine td (map g v)) = td).
  { clear - L. revert td L. generalize (map g v). intros w. induction w as [|x w IH]; intros [|t td] L; cbn in *; try lia; auto. f_equal. apply IH. lia. }
  destruct (ins_ok (S n) (combine td (map g v)) f Sf) as (S1 & S2).
  { intros k c H. apply in_combine_l in H. apply (Ht k H). }
  { now rewrite Mf. }
  rewrite Mf in S2.
  assert (K : forall k c, In (k, c) (ins (combine td (map g v)) f) <-> In (k, c) (combine td (map g v))).
  { intros k c. rewrite S2. split; auto. intros [H|[H1 H2]]; auto. elim H2. eauto. }
  split.
  - split; [split; auto|].
    + intros a c H. apply K, in_combine_l in H. auto.
    + split.
      * transitivity (length (map fst (ins (combine td (map g v)) f))); [now rewrite map_length|].
        pose proof (vsorted_NoDup _ _ S1) as N1. apply Nat.le_antisymm; apply NoDup_incl_length; auto.
        -- intros k H. apply in_map_iff in H. destruct H as ([k' c] & <- & H). apply K, in_combine_l in H. exact H.
        -- intros k H. destruct (In_nth _ _ [] H) as (i & Hi & <-). apply in_map_iff. exists (nth i td [], g (nth i v 0)). split; auto.
           apply K. apply (combine_nth_In td (map g v) [] (g 0)); auto. exists i. split; auto. now rewrite map_nth.
      * intros i Hi. apply K. apply (combine_nth_In td (map g v) [] (g 0)); auto. exists i. split; auto. now rewrite map_nth.
  - intros k c H. apply K, in_combine_l in H. exact H.
Qed.

Lemma coeffs_unique n d g td v f f' : NoDup td -> coeffs_of n d g td v f -> coeffs_of n d g td v f' -> f = f'.
Proof.
  intros ND ((S1 & _) & L1 & H1) ((S2 & _) & L2 & H2).
  assert (X : forall h, vsorted (S n) h -> length h = length td -> (forall i, (i < length td)%nat -> In (nth i td [], g (nth i v 0)) h) ->
    forall k c, In (k, c) h <-> exists i, (i < length td)%nat /\ k = nth i td [] /\ c = g (nth i v 0)).
  { intros h Sh Lh Hh k c. split.
    - intros H. assert (Kd : In k td).
      { assert (I : incl td (map fst h)). { intros t Ht. destruct (In_nth _ _ [] Ht) as (i & Hi & <-). apply in_map_iff. exists (nth i td [], g (nth i v 0)). auto. }
        apply (NoDup_length_incl ND) in I; [|rewrite map_length; lia]. apply I. apply in_map_iff. exists (k, c). auto. }
      destruct (In_nth _ _ [] Kd) as (i & Hi & E). exists i. split; auto. split; auto. specialize (Hh i Hi). rewrite E in Hh.
      assert (Lk : length k = S n) by (eapply vsorted_len; eauto).
      apply (vfind_In (S n)) in H; auto. apply (vfind_In (S n)) in Hh; auto. congruence.
    - intros (i & Hi & -> & ->). auto. }
  apply (vsorted_ext (S n)); auto. intros k c. rewrite (X f), (X f') by auto. tauto.
Qed.

Lemma fold_seq_ins td (w : list Z) : length td = length w -> forall f,
  fold_left (fun m i => vinsert (nth i td []) (nth i w 0) m) (seq 0 (length w)) f = ins (combine td w) f.
Proof.
  revert w. induction td as [|t td IH]; intros [|x w] L f; cbn in L; try lia; [reflexivity|].
  unfold ins. cbn [length seq fold_left combine fst snd nth]. rewrite <- seq_shift.
  rewrite <- (IH w) by lia. generalize (vinsert t x f). clear. generalize (seq 0 (length w)). intros l.
  induction l as [|i l IH]; intros m; cbn [map fold_left]; auto.
Qed.

Lemma vector_map_ok (q : Z) (n : nat) (d : Z) v td : 0 <= d -> tuple_list_generator d (Z.of_nat n + 1) = OK td ->
  (length v = length td -> exists f, vector_map q (Z.of_nat n) d v = OK f /\ coeffs_of n d (fun x => x mod q) td v f) /\
  (length v <> length td -> vector_map q (Z.of_nat n) d v = Err EAssert).
Proof.
  intros Hd T. assert (E : td = enum (S n) (Z.to_nat d)).
  { pose proof (tlg_fits d (Z.of_nat n) td Hd ltac:(lia) T) as F. rewrite tlg_ok in T by (lia || exact F). injection T as <-. f_equal. lia. }
  unfold vector_map. rewrite T. cbn [bind]. split; intros L.
  - rewrite L, Nat.eqb_refl. cbn [check bind]. eexists. split; [reflexivity|].
    replace (fold_left _ _ _) with (ins (combine td (map (fun x => x mod q) v)) []).
    + apply ins_coeffs; auto.
      * intros t H. subst td. apply enum_In in H; [|lia]. now rewrite Z2Nat.id in H by auto.
      * subst td. apply enum_NoDup.
      * apply vsorted_nil.
      * intros k c [].
    + rewrite <- (fold_seq_ins td (map (fun x => x mod q) v)) by (now rewrite map_length). rewrite map_length, L.
      assert (Z0 : 0 mod q = 0) by apply Zmod_0_l.
      generalize (@nil (vec * Z)). generalize (seq 0 (length td)). intros l. induction l as [|i l IH]; intros m; cbn [fold_left]; auto.
      rewrite <- Z0 at 1. rewrite (map_nth (fun x => x mod q)). apply IH.
  - assert (X : Nat.eqb (length td) (length v) = false) by (apply Nat.eqb_neq; auto). now rewrite X.
Qed.

Lemma lift_map_ok q m f : vsorted m f -> lift_map q f = map (fun kc => (fst kc, snd kc mod q)) f.
Proof.
  intros Sf. assert (E : lift_map q f = ins (map (fun kc => (fst kc, snd kc mod q)) f) []).
  { unfold lift_map, ins. generalize (@nil (vec * Z)). induction f as [|kc f IH]; intros g; cbn [fold_left map fst snd]; auto. apply IH. now inversion Sf. }
  rewrite E. assert (Sm : vsorted m (map (fun kc => (fst kc, snd kc mod q)) f)).
  { clear E. induction Sf as [|k v r K S IH L]; cbn [map fst snd]; constructor; auto. intros k' v' I. apply in_map_iff in I. destruct I as ([k2 v2] & X & I). injection X as <- <-. eapply L; eauto. }
  destruct (ins_ok m (map (fun kc => (fst kc, snd kc mod q)) f) []) as (S1 & S2).
  - apply vsorted_nil.
  - intros k c H. eapply vsorted_len; eauto.
  - now apply vsorted_NoDup with (n := m).
  - apply (vsorted_ext m); auto. intros k c. rewrite S2. cbn [In]. tauto.
Qed.

(** ** the tables *)
Section Tab.
  Variables (get : Z -> res (list nat * mat)) (hil : list Z) (tl : list (list vec)).
  Definition tab_good (tab : stab) : Prop := zsorted tab /\ forall l x, In (l, x) tab -> get l = OK x.

  Lemma tab_nil : tab_good [].
  Proof. split; [constructor|intros l x []]. Qed.
  Lemma solve_t_good tab l : tab_good tab ->
    (exists x tab', get l = OK x /\ solve_t get tab l = OK (x, tab') /\ tab_good tab') \/ (exists e, get l = Err e /\ solve_t get tab l = Err e).
  Proof.
    intros (S & H). unfold solve_t. destruct (mfind Z.ltb l tab) as [x|] eqn:F.
    - left. exists x, tab. apply zfind_In in F; auto. repeat split; auto.
    - destruct (get l) as [x|e] eqn:G; [left|right; exists e; auto]. exists x, (minsert Z.ltb l x tab). split; auto. split; auto. split; [now apply zinsert_sorted|].
      intros l' y I. apply zinsert_In in I; auto. destruct I as [[-> ->]|[_ I]]; auto.
  Qed.

  Definition level (l : Z) : res (list vec) :=
    BU <- get l ;;
    h <- get_at hil l ;;
    _ <- check (h =? zlen (fst BU)) EAssert ;;
    tll <- get_at tl l ;;
    mapM (fun b => get_at tll (Z.of_nat b)) (fst BU).

  Lemma levels_t ls : forall tab b0, tab_good tab ->
    (st <- foldM (level_t get hil tl) ls (tab, b0) ;; OK (snd st)) = (bs <- mapM level ls ;; OK (b0 ++ concat bs)).
  Proof.
    induction ls as [|l ls IH]; intros tab b0 T; cbn [foldM mapM bind concat snd]; [now rewrite app_nil_r|].
    unfold level_t at 1, level at 1. cbn [fst snd].
    destruct (solve_t_good tab l T) as [(x & tab' & G & -> & T')|(e & G & ->)]; rewrite G; cbn [bind fst snd]; auto.
    destruct (get_at hil l) as [h|]; cbn [bind]; auto. destruct (check (h =? zlen (fst x)) EAssert); cbn [bind]; auto.
    destruct (get_at tl l) as [tll|]; cbn [bind]; auto. destruct (mapM _ (fst x)) as [bs|]; cbn [bind]; auto.
    rewrite IH by auto. destruct (mapM level ls) as [rs|]; cbn [bind concat]; auto. now rewrite app_assoc.
  Qed.
End Tab.

Lemma mapM_map' {A B C} (g : A -> B) (F : B -> res C) l : mapM F (map g l) = mapM (fun x => F (g x)) l.
Proof. induction l as [|a l IH]; cbn [map mapM]; auto. now rewrite IH. Qed.

Lemma init_t_nil slv q p prec f : init_t slv q p prec f [] = init slv q p prec f.
Proof.
  unfold init_t, init. destruct f as [|[a0 c0] f0]; auto. set (n := (length a0 - 1)%nat). set (d := zsum a0).
  destruct (check (Z.of_nat n <? d) EAssert); cbn [bind]; auto. destruct (check (negb (p =? 0)) EUB); cbn [bind]; auto.
  destruct (check (negb (Z.rem d p =? 0)) EAssert); cbn [bind]; auto. destruct (init_tuples n d) as [tl|]; cbn [bind]; auto.
  set (D0 := mk_dR _ _ _ _ _ _ _ _ _ _).
  destruct (solve_t_good (get_solve_J slv D0) [] (deg_top D0) (tab_nil _)) as [(x & tab' & G & -> & T')|(e & G & ->)]; rewrite G; cbn [bind fst snd]; auto.
  destruct (check _ EAssert); cbn [bind]; auto.
  pose proof (levels_t (get_solve_J slv D0) (hilbert_J n d) tl (map (fun i => (i + 1) * d - (Z.of_nat n + 1)) (zseq 0 (Z.of_nat n))) tab' [] T') as E.
  rewrite mapM_map' in E. change (mapM (fun x0 => level (get_solve_J slv D0) (hilbert_J n d) tl ((x0 + 1) * d - (Z.of_nat n + 1))) (zseq 0 (Z.of_nat n)))
    with (mapM (init_basis_level slv D0 (hilbert_J n d)) (zseq 0 (Z.of_nat n))) in E.
  destruct (foldM _ _ _) as [st|]; destruct (mapM _ _) as [bs|]; cbn [bind app] in E |- *; try discriminate; try congruence.
Qed.

Lemma init_ND_t_nil slv q p prec f : init_ND_t slv q p prec f [] [] = init_ND slv q p prec f.
Proof.
  unfold init_ND_t, init_ND. rewrite init_t_nil. destruct (init slv q p prec f) as [D|]; cbn [bind]; auto.
  destruct (solve_t_good (get_solve_ND slv D) [] (top_ND D) (tab_nil _)) as [(x & tab' & G & -> & T')|(e & G & ->)]; rewrite G; cbn [bind fst snd]; auto.
  destruct (check _ EAssert); cbn [bind]; auto.
  pose proof (levels_t (get_solve_ND slv D) (hilbert_ND (r_n D) (r_d D)) (r_tl D) (map (fun i => i * r_d D) (zseq 0 (Z.of_nat (r_n D) + 1))) tab' [] T') as E.
  rewrite mapM_map' in E. change (mapM (fun x0 => level (get_solve_ND slv D) (hilbert_ND (r_n D) (r_d D)) (r_tl D) (x0 * r_d D)) (zseq 0 (Z.of_nat (r_n D) + 1)))
    with (mapM (init_ND_level slv D (hilbert_ND (r_n D) (r_d D))) (zseq 0 (Z.of_nat (r_n D) + 1))) in E.
  destruct (foldM _ _ _) as [st|]; destruct (mapM _ _) as [bs|]; cbn [bind app] in E |- *; try discriminate; try congruence.
  injection E as ->. reflexivity.
Qed.

(** ** the rows left over do not depend on the precision *)
Lemma solver_first lu inv p q prec nc T B U : padic_solver lu inv p q prec nc T = OK (B, U) ->
  exists U', padic_solver lu inv p q 1 nc T = OK (B, U').
Proof.
  unfold padic_solver, solve_padic, solve_padic_flint. destruct (Nat.eqb nc 0); [intros H; injection H as <- <-; eauto|].
  destruct (solve_zz_p lu inv true p nc (reduce_mat p T)) as [[B0 U0]|]; cbn [bind fst snd]; [|discriminate].
  change (Z.to_nat 1) with 1%nat. cbn [lift_loop lift_loop_Z]. rewrite Z.ltb_irrefl. cbn [bind].
  destruct (q mod 2 ^ 64 =? q); intros H; apply bind_ok in H; destruct H as (U1 & _ & H); injection H as <- <-; eauto.
Qed.

(** ** terms with coefficient zero play no role *)
Lemma same_filter m f g : vsorted m f -> vsorted m g -> same_terms f g ->
  filter (fun kc => negb (snd kc =? 0)) f = filter (fun kc => negb (snd kc =? 0)) g.
Proof.
  intros Sf Sg H.
  assert (X : forall h, vsorted m h -> vsorted m (filter (fun kc : vec * Z => negb (snd kc =? 0)) h)).
  { intros h. induction 1 as [|k v r K S IH L]; cbn [filter snd]; [constructor|]. destruct (negb (v =? 0)); auto. constructor; auto.
    intros k' v' I. apply filter_In in I. eapply L. apply I. }
  apply (vsorted_ext m); auto. intros k c. rewrite !filter_In. cbn [snd]. destruct (Z.eqb_spec c 0) as [->|N]; cbn [negb].
  - split; intros [_ E]; discriminate.
  - rewrite (H k c N). tauto.
Qed.
Lemma same_sumf m f g (F : vec * Z -> Z) : vsorted m f -> vsorted m g -> same_terms f g -> (forall k, F (k, 0) = 0) -> sumf F f = sumf F g.
Proof.
  intros Sf Sg H F0.
  assert (X : forall h, sumf F h = sumf F (filter (fun kc => negb (snd kc =? 0)) h)).
  { intros h. rewrite sumf_filter. apply sumf_ext. intros [k c] _. cbn [snd]. destruct (Z.eqb_spec c 0) as [->|]; cbn [negb]; auto. }
  rewrite (X f), (X g). now rewrite (same_filter m f g).
Qed.

Lemma mat_entries_eq r n len (T T' : mat) : shape T r (n * len) -> shape T' r (n * len) ->
  (forall i j k, (k < r)%nat -> (i < n)%nat -> (j < len)%nat -> mget T k (i * len + j) = mget T' k (i * len + j)) -> T = T'.
Proof.
  intros [L1 S1] [L2 S2] H. apply nth_ext with (d := []) (d' := []); [congruence|]. intros k Hk. rewrite Forall_forall in S1, S2.
  assert (I1 : length (nth k T []) = (n * len)%nat) by (apply S1, nth_In; auto).
  assert (I2 : length (nth k T' []) = (n * len)%nat) by (apply S2, nth_In; lia).
  apply nth_ext with (d := 0) (d' := 0); [congruence|]. intros c Hc. rewrite I1 in Hc.
  assert (Z0 : (len <> 0)%nat) by (intros ->; lia).
  specialize (H (c / len)%nat (c mod len)%nat k). unfold mget in H. rewrite (Nat.mul_comm (c / len)), <- Nat.div_mod in H by auto.
  apply H; [lia| |apply Nat.mod_upper_bound; auto]. apply Nat.div_lt_upper_bound; auto. lia.
Qed.

Section Same.
  Variables (D : dR) (g : poly).
  Let D' := with_f D g.
  Hypothesis b1 : dr_base D.
  Hypothesis b2 : dr_base D'.
  Hypothesis HS : same_terms (r_f D) g.
  Let n := r_n D.
  Let d := r_d D.

  Lemma pick_row l (T : mat) c k : (k < length (enum (S n) l))%nat ->
    sumf (fun r => mget T r c * (if list_eq_dec Z.eq_dec (nth r (enum (S n) l) []) (nth k (enum (S n) l) []) then 1 else 0)) (seq 0 (length (enum (S n) l))) = mget T k c.
  Proof.
    intros Hk. rewrite (sumf_seq_single _ 0 _ k); [|lia|].
    - destruct (list_eq_dec _ _ _); [ring|congruence].
    - intros j Hj Hne. destruct (list_eq_dec _ _ _) as [E|]; [|ring]. exfalso. apply Hne. apply (enum_nth_inj n l); auto. lia.
  Qed.

  Lemma matrix_J_same l : 0 <= l <= (Z.of_nat n + 1) * d -> matrix_J D' l = matrix_J D l.
  Proof.
    intros Hl. destruct (Z_lt_le_dec l (d - 1)) as [Low|Hi].
    - unfold matrix_J. cbn [D' with_f r_tl r_d]. fold d. destruct (Z.ltb_spec l (d - 1)); [reflexivity|lia].
    - destruct (matrix_J_weighted_b D b1 l) as (T & M1 & S1 & W1); [fold n d; lia|].
      destruct (matrix_J_weighted_b D' b2 l) as (T' & M2 & S2 & W2); [cbn [D' with_f r_n r_d]; fold n d; lia|].
      cbn [D' with_f r_n r_d r_q r_f] in M2, S2, W2. fold n d in M1, S1, W1, M2, S2, W2. fold D' in M2. rewrite M1, M2. do 2 f_equal. symmetry.
      eapply mat_entries_eq; [exact S1|exact S2|]. intros i j k Hk Hi' Hj.
      set (X := fun m => if list_eq_dec Z.eq_dec m (nth k (enum (S n) (Z.to_nat l)) []) then 1 else 0).
      rewrite <- (pick_row (Z.to_nat l) T) by auto. rewrite <- (pick_row (Z.to_nat l) T') by auto.
      etransitivity; [apply (W1 X i j); auto; lia|]. etransitivity; [|symmetry; apply (W2 X i j); auto; lia].
      apply (same_sumf (S n)); [apply (base_f D b1)|apply (base_f D' b2)|exact HS|]. intros a. cbn [fst snd]. rewrite Z.mul_0_r, Zmod_0_l. now destruct (0 <? _).
  Qed.
  Lemma matrix_ND_same l : 0 <= l <= (Z.of_nat n + 1) * d -> matrix_ND D' l = matrix_ND D l.
  Proof.
    intros Hl. destruct (Z_lt_le_dec l d) as [Low|Hi].
    - unfold matrix_ND. cbn [D' with_f r_tl r_d]. fold d. destruct (Z.ltb_spec l d); [reflexivity|lia].
    - destruct (matrix_ND_weighted D b1 l) as (T & M1 & S1 & W1); [fold n d; lia|].
      destruct (matrix_ND_weighted D' b2 l) as (T' & M2 & S2 & W2); [cbn [D' with_f r_n r_d]; fold n d; lia|].
      cbn [D' with_f r_n r_d r_q r_f] in M2, S2, W2. fold n d in M1, S1, W1, M2, S2, W2. fold D' in M2. rewrite M1, M2. do 2 f_equal. symmetry.
      eapply mat_entries_eq; [exact S1|exact S2|]. intros i j k Hk Hi' Hj.
      set (X := fun m => if list_eq_dec Z.eq_dec m (nth k (enum (S n) (Z.to_nat l)) []) then 1 else 0).
      rewrite <- (pick_row (Z.to_nat l) T) by auto. rewrite <- (pick_row (Z.to_nat l) T') by auto.
      etransitivity; [apply (W1 X i j); auto; lia|]. etransitivity; [|symmetry; apply (W2 X i j); auto; lia].
      apply (same_sumf (S n)); [apply (base_f D b1)|apply (base_f D' b2)|exact HS|]. intros a. cbn [fst snd]. now rewrite Z.mul_0_r, Zmod_0_l.
  Qed.
End Same.

Lemma same_sym f g : same_terms f g -> same_terms g f.
Proof. intros H k c N. symmetry. now apply H. Qed.

Lemma mapM_ext' {A B} (f g : A -> res B) l : (forall a, In a l -> f a = g a) -> mapM f l = mapM g l.
Proof. induction l as [|a l IH]; intros H; cbn [mapM]; auto. rewrite (H a) by now left. rewrite IH; auto. intros; apply H; now right. Qed.

Section SameInit.
  Variables (n : nat) (d : Z) (f g : poly) (tl : list (list vec)).
  Hypothesis Wf : wf_poly n d f.
  Hypothesis Wg : wf_poly n d g.
  Hypothesis Nf : f <> [].
  Hypothesis Ng : g <> [].
  Hypothesis Htl : init_tuples n d = OK tl.
  Hypothesis HS : same_terms f g.

  Lemma base_any p prec q h b bd : 1 <= d -> wf_poly n d h -> dr_base (mk_dR p prec q n d h tl (map tuple_index tl) b bd).
  Proof using Htl.
    intros Hd Wh. constructor; cbn [r_d r_n r_f r_tl r_td]; [lia|apply Wh|apply Wh| |].
    - intros k Hk. eapply init_tuples_ok; eauto.
    - intros k Hk. eapply (get_at_map tuple_index). eapply init_tuples_ok; eauto.
  Qed.

  Lemma init_same slv q p prec : init slv q p prec g = (D <- init slv q p prec f ;; OK (with_f D g)).
  Proof.
    rewrite (init_unfold slv q p prec n d f tl Nf Wf Htl), (init_unfold slv q p prec n d g tl Ng Wg Htl).
    destruct (Z.ltb_spec (Z.of_nat n) d) as [Hd|]; [|reflexivity]. cbn [check bind].
    destruct (check (negb (p =? 0)) EUB); cbn [bind]; auto. destruct (check (negb (Z.rem d p =? 0)) EAssert); cbn [bind]; auto.
    set (D := mk_dR p prec q n d f tl (map tuple_index tl) [] []). set (D' := mk_dR p prec q n d g tl (map tuple_index tl) [] []).
    assert (b1 : dr_base D) by (apply base_any; auto; lia). assert (b2 : dr_base (with_f D g)) by (apply base_any; auto; lia).
    assert (E : forall l, 0 <= l <= (Z.of_nat n + 1) * d -> get_solve_J slv D' l = get_solve_J slv D l).
    { intros l Hl. unfold get_solve_J. change D' with (with_f D g). now rewrite (matrix_J_same D g b1 b2 HS l Hl). }
    rewrite E by nia. destruct (get_solve_J slv D _) as [top|]; cbn [bind]; auto. destruct (check _ EAssert); cbn [bind]; auto.
    rewrite (mapM_ext' (init_basis_level slv D' (hilbert_J n d)) (init_basis_level slv D (hilbert_J n d))).
    - destruct (mapM _ _); cbn [bind]; reflexivity.
    - intros i Hi. apply zseq_In in Hi. unfold init_basis_level. cbn [D D' r_n r_d r_tl]. fold D D'. rewrite E by nia. reflexivity.
  Qed.

  Lemma init_fields' slv q p prec D : init slv q p prec f = OK D ->
    r_n D = n /\ r_d D = d /\ r_f D = f /\ r_tl D = tl /\ r_td D = map tuple_index tl /\ Z.of_nat n < d.
  Proof.
    rewrite (init_unfold slv q p prec n d f tl Nf Wf Htl). destruct (Z.ltb_spec (Z.of_nat n) d) as [Hd|]; [|discriminate]. cbn [check bind].
    destruct (check (negb (p =? 0)) EUB); cbn [bind]; [|discriminate]. destruct (check (negb (Z.rem d p =? 0)) EAssert); cbn [bind]; [|discriminate].
    intros H. apply bind_ok in H. destruct H as (top & _ & H). apply bind_ok in H. destruct H as (u & _ & H). apply bind_ok in H. destruct H as (bs & _ & H).
    injection H as <-. cbn [r_n r_d r_f r_tl r_td]. auto 10.
  Qed.

  Lemma init_ND_same slv q p prec : init_ND slv q p prec g = (N <- init_ND slv q p prec f ;; OK (mk_dND (with_f (nd_dr N) g) (nd_basis N) (nd_bdict N))).
  Proof.
    unfold init_ND. rewrite init_same. destruct (init slv q p prec f) as [D|] eqn:HD; cbn [bind]; auto.
    destruct (init_fields' _ _ _ _ _ HD) as (En & Ed & Ef & Et & Etd & Hd).
    assert (b1 : dr_base D). { pose proof (base_any p prec q f [] [] ltac:(lia) Wf) as B. constructor; rewrite ?En, ?Ed, ?Ef, ?Et, ?Etd; apply B. }
    assert (b2 : dr_base (with_f D g)). { pose proof (base_any p prec q g [] [] ltac:(lia) Wg) as B. constructor; cbn [with_f r_n r_d r_f r_tl r_td]; rewrite ?En, ?Ed, ?Et, ?Etd; apply B. }
    rewrite <- Ef in HS.
    assert (E : forall l, 0 <= l <= (Z.of_nat n + 1) * d -> get_solve_ND slv (with_f D g) l = get_solve_ND slv D l).
    { intros l Hl. unfold get_solve_ND. rewrite (matrix_ND_same D g b1 b2 HS l); auto. now rewrite En, Ed. }
    unfold top_ND. cbn [with_f r_n r_d]. fold (with_f D g). rewrite E by (rewrite En, Ed; nia).
    destruct (get_solve_ND slv D _) as [top|]; cbn [bind]; auto. destruct (check _ EAssert); cbn [bind]; auto.
    rewrite (mapM_ext' (init_ND_level slv (with_f D g) (hilbert_ND (r_n D) (r_d D))) (init_ND_level slv D (hilbert_ND (r_n D) (r_d D)))).
    - destruct (mapM _ _) as [bs|]; cbn [bind]; auto. destruct (check _ EAssert); cbn [bind]; auto.
    - intros i Hi. apply zseq_In in Hi. rewrite En in Hi. unfold init_ND_level. cbn [with_f r_n r_d r_tl]. fold (with_f D g). rewrite E by (rewrite Ed; nia). reflexivity.
  Qed.
End SameInit.
