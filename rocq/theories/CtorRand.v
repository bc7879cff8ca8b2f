(** Proofs about the constructors that draw a random polynomial. *)
From Coq Require Import ZArith List Bool Lia Znumtheory.
From Verif Require Import Base VecModel VecSpec VecProofs ToolsModel ToolsSpec ToolsProofs MatModel MatProofs DRModel DRSpec DRProofs PolyProofs
  NDModel NDSpec NDMat ChangeSpec SolveModel SolveSpec SolveProofs HilbKoszul HilbPoly HilbTop HilbDim HilbNum HilbInit HilbCode TestModel TestProofs CtorModel CtorSpec CtorProofs.
Import ListNotations.
Open Scope Z_scope.

(** ** the Fermat polynomial is smooth and non-degenerate if p does not divide d *)
Section Fermat.
  Variables (m : nat) (p d e : Z).
  Hypothesis Pp : prime p.
  Hypothesis Hpd : ~ (p | d).
  Hypothesis Hm : (0 < m)%nat.
  Hypothesis He : 1 <= e.
  Let l := (e - 1) * Z.of_nat m + 1.
  Definition up_e (i : nat) (s : vec) : vec := upd s i (nth i s 0 + e).
  Definition first_big (t : vec) : option nat := find (fun j => e <=? nth j t 0) (seq 0 m).

  Lemma first_big_ok t : is_tuple m l t -> exists i, first_big t = Some i /\ (i < m)%nat /\ e <= nth i t 0.
  Proof using Hm He.
    intros (L & N & Z). unfold first_big. destruct (find _ _) as [i|] eqn:F.
    - apply find_some in F. destruct F as [F1 F2]. apply in_seq in F1. exists i. repeat split; [lia|]. now apply Z.leb_le.
    - exfalso. assert (X : zsum t <= (e - 1) * Z.of_nat m); [|lia].
      rewrite <- L. assert (Y : forall x, In x t -> x <= e - 1).
      { intros x Hx. destruct (In_nth _ _ 0 Hx) as (i & Hi & <-). pose proof (find_none _ _ F i) as G. cbv beta in G. rewrite Z.leb_gt in G.
        specialize (G ltac:(apply in_seq; lia)). lia. }
      clear - Y He. induction t as [|x t IH]; [cbn; lia|]. cbn [zsum fold_right length]. pose proof (Y x ltac:(now left)).
      assert (Z : zsum t <= (e - 1) * Z.of_nat (length t)) by (apply IH; intros; apply Y; now right). rewrite Nat2Z.inj_succ. unfold zsum in *. cbn [fold_right] in *. nia.
  Qed.

  Lemma fermat_gen (K : nat -> vec -> vec -> Z) :
    (forall i s t, (i < m)%nat -> is_tuple m (l - e) s -> is_tuple m l t -> K i s t = if list_eq_dec Z.eq_dec (up_e i s) t then d else 0) ->
    forall G : vec -> Z, exists h : nat -> vec -> Z, forall t, is_tuple m l t ->
      cong p (G t) (sumf (fun i => sumf (fun s => h i s * K i s t) (enum m (Z.to_nat (l - e)))) (seq 0 m)).
  Proof.
    intros HK G. assert (Hle : 0 <= l - e) by (unfold l; nia).
    assert (B : exists c, cong p (d * c) 1).
    { assert (R : rel_prime d p) by (apply rel_prime_sym, prime_rel_prime; auto). apply rel_prime_bezout in R. destruct R as [u v E]. exists u. exists (- v). lia. }
    destruct B as (c & Hc).
    exists (fun i s => match first_big (up_e i s) with Some j => if Nat.eqb j i then c * G (up_e i s) else 0 | None => 0 end). intros t Ht.
    destruct (first_big_ok t Ht) as (i0 & F & Hi0 & Ge). pose proof Ht as (L & N & Z).
    rewrite (sumf_seq_single _ 0 m i0); [|lia|].
    - set (s0 := upd t i0 (nth i0 t 0 - e)).
      assert (U0 : up_e i0 s0 = t).
      { unfold up_e, s0. rewrite nth_upd_eq by lia. apply nth_ext with (d := 0) (d' := 0); rewrite !upd_length; auto. intros k Hk.
        destruct (Nat.eq_dec k i0) as [->|Nk]; [rewrite nth_upd_eq by (rewrite upd_length; lia); lia|]. now rewrite !nth_upd_neq by auto. }
      assert (T0 : is_tuple m (l - e) s0).
      { unfold s0. split; [rewrite upd_length; auto|]. split.
        - apply nonneg_iff. rewrite upd_length. intros k Hk. destruct (Nat.eq_dec k i0) as [->|Nk]; [rewrite nth_upd_eq by lia; lia|]. rewrite nth_upd_neq by auto. now apply nonneg_nth.
        - rewrite zsum_upd by lia. lia. }
      rewrite (sumf_ext _ (fun s => if list_eq_dec Z.eq_dec s0 s then c * G t * d else 0)).
      + rewrite (sumf_pick (list_eq_dec Z.eq_dec) (fun _ => c * G t * d)) by apply enum_NoDup. destruct (in_dec _ _ _) as [|Y].
        * replace (c * G t * d) with (d * c * G t) by ring. apply cong_sym. eapply cong_trans; [apply cong_mul; [exact Hc|apply cong_refl]|]. apply cong_of_eq. ring.
        * exfalso. apply Y. apply enum_In; [lia|]. now rewrite Z2Nat.id.
      + intros s Hs. apply enum_In in Hs; [|lia]. rewrite Z2Nat.id in Hs by auto. rewrite HK by auto.
        destruct (list_eq_dec Z.eq_dec (up_e i0 s) t) as [E|E], (list_eq_dec Z.eq_dec s0 s) as [E'|E'].
        * rewrite E, F, Nat.eqb_refl. ring.
        * exfalso. apply E'. unfold s0. rewrite <- E. unfold up_e. destruct Hs as (Ls & _). rewrite nth_upd_eq by lia.
          apply nth_ext with (d := 0) (d' := 0); rewrite !upd_length; auto. intros k Hk.
          destruct (Nat.eq_dec k i0) as [->|Nk]; [rewrite nth_upd_eq by (rewrite upd_length; lia); lia|]. now rewrite !nth_upd_neq by auto.
        * subst s. congruence.
        * ring.
    - intros i Hi Ni. apply sumf_zero. intros s Hs. apply enum_In in Hs; [|lia]. rewrite Z2Nat.id in Hs by auto. rewrite HK by (auto; lia).
      destruct (list_eq_dec Z.eq_dec (up_e i s) t) as [E|]; [|ring]. rewrite E, F. destruct (Nat.eqb_spec i0 i); [congruence|ring].
  Qed.
End Fermat.

(** coefficients of the Fermat polynomial *)
Definition pure (m : nat) (d : Z) (t : vec) : Z := if existsb (fun i => if list_eq_dec Z.eq_dec (upd (repeat 0 m) i d) t then true else false) (seq 0 m) then 1 else 0.

Lemma pure_one m d i : (i < m)%nat -> pure m d (upd (repeat 0 m) i d) = 1.
Proof.
  intros Hi. unfold pure. rewrite (proj2 (existsb_exists _ _)); auto. exists i. split; [apply in_seq; lia|]. destruct (list_eq_dec _ _ _); auto.
Qed.
Lemma pure_zero m d t i : 1 <= d -> (i < m)%nat -> is_tuple m d t -> t <> upd (repeat 0 m) i d -> nth i t 0 * pure m d t = 0.
Proof.
  intros Hd Hi Ht N. unfold pure. destruct (existsb _ _) eqn:E; [|ring]. apply existsb_exists in E. destruct E as (j & Hj & E). apply in_seq in Hj.
  destruct (list_eq_dec _ _ _) as [E'|]; [|discriminate]. destruct (Nat.eq_dec i j) as [<-|Nij]; [congruence|].
  rewrite <- E', nth_upd_neq by auto. rewrite nth_repeat. ring.
Qed.
Lemma pure_01 m d t : pure m d t = 0 \/ pure m d t = 1.
Proof. unfold pure. destruct (existsb _ _); auto. Qed.

Lemma eplus_nth a : forall b i, length a = length b -> nth i (eplus a b) 0 = nth i a 0 + nth i b 0.
Proof. induction a as [|x a IH]; intros [|y b] [|i] L; cbn in *; try lia. apply IH. lia. Qed.
Lemma eminus_nth a : forall i k, (i < length a)%nat -> nth k (eminus a i) 0 = if Nat.eqb k i then nth k a 0 - 1 else nth k a 0.
Proof.
  induction a as [|x a IH]; intros i k L; cbn [length] in L; [lia|]. destruct i as [|i]; destruct k as [|k]; cbn [eminus nth Nat.eqb]; auto. apply IH. lia.
Qed.
Lemma eminus_len a : forall i, length (eminus a i) = length a.
Proof. induction a as [|x a IH]; intros [|i]; cbn [eminus length]; auto. Qed.

Section FermatPoly.
  Variables (n : nat) (d p : Z) (f : poly).
  Hypothesis Pp : prime p.
  Hypothesis Hpd : ~ (p | d).
  Hypothesis Hd : 2 <= d.
  Hypothesis W : wf_poly n d f.
  Hypothesis HF : forall a c, In (a, c) f -> c = pure (S n) d a.
  Hypothesis HI : forall i, (i <= n)%nat -> In (upd (repeat 0 (S n)) i d, 1) f.

  Lemma pair_dec (x y : vec * Z) : {x = y} + {x <> y}.
  Proof. decide equality; [apply Z.eq_dec|apply (list_eq_dec Z.eq_dec)]. Qed.

  Lemma sum_pure (Q : vec -> bool) i : (i <= n)%nat ->
    sumf (fun ac => if Q (fst ac) then nth i (fst ac) 0 * snd ac else 0) f = if Q (upd (repeat 0 (S n)) i d) then d else 0.
  Proof.
    intros Hi. set (u := upd (repeat 0 (S n)) i d).
    assert (U : nth i u 0 = d) by (unfold u; rewrite nth_upd_eq; auto; rewrite repeat_length; lia).
    rewrite (sumf_ext _ (fun ac => if pair_dec (u, 1) ac then (fun _ => if Q u then d else 0) ac else 0)).
    - rewrite (sumf_pick pair_dec (fun _ => if Q u then d else 0)).
      + destruct (in_dec _ _ _) as [|Y]; auto. elim Y. now apply HI.
      + apply (NoDup_map_inv fst). eapply vsorted_NoDup. apply W.
    - intros [a c] Ha. cbn [fst snd]. destruct (pair_dec (u, 1) (a, c)) as [E|E].
      + injection E as <- <-. rewrite U. destruct (Q u); ring.
      + assert (Na : a <> u). { intros ->. apply E. f_equal. rewrite (HF _ _ Ha). symmetry. apply pure_one. lia. }
        rewrite (HF _ _ Ha). rewrite (pure_zero (S n) d a i); [now destruct (Q a)|lia|lia| |exact Na]. eapply (proj2 W); eauto.
  Qed.

  Lemma fermat_smooth : smooth_mod p n d f.
  Proof.
    intros G. unfold in_jacobian.
    destruct (fermat_gen (S n) p d (d - 1) Pp Hpd ltac:(lia) ltac:(lia) (fun i s t => coef_dx f i s t)) with (G := G) as (h & Hh).
    - intros i s t Hi Hs Ht. unfold coef_dx.
      rewrite (sumf_ext _ (fun ac => if (if list_eq_dec Z.eq_dec (eminus (eplus s (fst ac)) i) t then true else false) then nth i (fst ac) 0 * snd ac else 0))
        by (intros ac _; destruct (list_eq_dec _ _ _); auto).
      rewrite (sum_pure (fun a => if list_eq_dec Z.eq_dec (eminus (eplus s a) i) t then true else false)) by lia.
      assert (E : eminus (eplus s (upd (repeat 0 (S n)) i d)) i = up_e (d - 1) i s).
      { destruct Hs as (Ls & _). assert (LL : length (eplus s (upd (repeat 0 (S n)) i d)) = S n) by (rewrite eplus_length; [auto|rewrite upd_length, repeat_length; auto]).
        unfold up_e. apply nth_ext with (d := 0) (d' := 0); rewrite eminus_len, ?upd_length, LL; auto. intros k Hk.
        rewrite eminus_nth by lia. rewrite eplus_nth by (rewrite upd_length, repeat_length; auto).
        destruct (Nat.eqb_spec k i) as [->|Nk].
        - rewrite nth_upd_eq by (rewrite repeat_length; lia). rewrite nth_upd_eq by lia. lia.
        - rewrite !nth_upd_neq by auto. rewrite nth_repeat. lia. }
      rewrite E. destruct (list_eq_dec _ _ _); auto.
    - exists h. intros t Ht. replace ((d - 2) * (Z.of_nat n + 1) + 1) with ((d - 1 - 1) * Z.of_nat (S n) + 1) in Ht |- * by lia. apply (Hh t Ht).
  Qed.

  Lemma fermat_nd : non_degenerate p n d f.
  Proof.
    intros G. unfold in_log_jacobian.
    destruct (fermat_gen (S n) p d d Pp Hpd ltac:(lia) ltac:(lia) (fun i s t => coef_xdx f i s t)) with (G := G) as (h & Hh).
    - intros i s t Hi Hs Ht. unfold coef_xdx.
      rewrite (sumf_ext _ (fun ac => if (if list_eq_dec Z.eq_dec (eplus s (fst ac)) t then true else false) then nth i (fst ac) 0 * snd ac else 0))
        by (intros ac _; destruct (list_eq_dec _ _ _); auto).
      rewrite (sum_pure (fun a => if list_eq_dec Z.eq_dec (eplus s a) t then true else false)) by lia.
      assert (E : eplus s (upd (repeat 0 (S n)) i d) = up_e d i s).
      { destruct Hs as (Ls & _). assert (LL : length (eplus s (upd (repeat 0 (S n)) i d)) = S n) by (rewrite eplus_length; [auto|rewrite upd_length, repeat_length; auto]).
        unfold up_e. apply nth_ext with (d := 0) (d' := 0); rewrite ?upd_length, LL; auto. intros k Hk.
        rewrite eplus_nth by (rewrite upd_length, repeat_length; auto).
        destruct (Nat.eq_dec k i) as [->|Nk].
        - rewrite nth_upd_eq by (rewrite repeat_length; lia). rewrite nth_upd_eq by lia. lia.
        - rewrite !nth_upd_neq by auto. rewrite nth_repeat. lia. }
      rewrite E. destruct (list_eq_dec _ _ _); auto.
    - exists h. intros t Ht. replace ((d - 1) * (Z.of_nat n + 1) + 1) with ((d - 1) * Z.of_nat (S n) + 1) in Ht |- * by lia. apply (Hh t Ht).
  Qed.
End FermatPoly.

Lemma zsum_repeat0 k : zsum (repeat 0 k) = 0.
Proof. induction k; simpl; lia. Qed.

(** ** one round of the loop *)
Section Loop.
  Variables (p q prec : Z) (n : nat) (d : Z) (tl : list (list vec)).
  Hypothesis Pp : prime p.
  Hypothesis Hq : p <= q.
  Hypothesis Hd : 2 <= d.
  Hypothesis Htl : init_tuples n d = OK tl.
  Notation td := (enum (S n) (Z.to_nat d)).
  Notation cf := (coeffs_of n d (fun x => x mod p) td).
  Variables (get : dR -> Z -> res (list nat * mat)) (l : Z) (good : poly -> Prop).
  Definition D1 (f : poly) : dR := mk_dR p 1 q n d f tl (map tuple_index tl) [] [].
  Hypothesis Hget : forall f, wf_poly n d f -> exists B U, get (D1 f) l = OK (B, U) /\ (B = [] <-> good f).

  Lemma td_at : get_at tl d = OK td.
  Proof using Hd Htl. apply (init_tuples_ok n d tl); auto; nia. Qed.
  Lemma td_tuple t : In t td -> is_tuple (S n) d t.
  Proof using Hd. intros H. apply enum_In in H; [|lia]. now rewrite Z2Nat.id in H by lia. Qed.
  Lemma td_pos : (0 < length td)%nat.
  Proof using Hd.
    assert (I : In (upd (repeat 0 (S n)) 0 d) td).
    { apply enum_In; [lia|]. rewrite Z2Nat.id by lia. split; [rewrite upd_length, repeat_length; auto|]. split.
      - apply nonneg_iff. rewrite upd_length, repeat_length. intros i Hi. destruct i; cbn [repeat upd nth]; [lia|]. rewrite nth_repeat. lia.
      - rewrite zsum_upd by (rewrite repeat_length; lia). rewrite nth_repeat, zsum_repeat0. lia. }
    destruct td; [destruct I|cbn; lia].
  Qed.

  Definition okst (f : poly) : Prop := vsorted (S n) f /\ forall k c, In (k, c) f -> In k td.

  Lemma draw_short ts : forall f rs, (length rs < length ts)%nat -> draw_coeffs p q ts f rs = Err EFuel.
  Proof.
    induction ts as [|t ts IH]; intros f rs L; cbn [length] in L; [lia|]. cbn [draw_coeffs]. unfold dbind at 1, random_bnd.
    destruct rs as [|x rs]; [reflexivity|]. cbn [bind fst snd]. apply IH. cbn [length] in L. lia.
  Qed.
  Lemma draw_ins ts : forall f b rest, length b = length ts ->
    draw_coeffs p q ts f (b ++ rest) = OK (ins (combine ts (map (fun x => x mod p) b)) f, rest).
  Proof using Hq Pp.
    pose proof (prime_ge_2 p Pp) as P2.
    induction ts as [|t ts IH]; intros f [|x b] rest L; cbn [length] in L; try lia; [reflexivity|]. cbn [draw_coeffs]. unfold dbind at 1, random_bnd.
    cbn [app bind fst snd]. rewrite IH by lia. unfold ins. cbn [map combine fold_left fst snd].
    rewrite (Z.mod_small (x mod p) q) by (pose proof (Z.mod_pos_bound x p); lia). reflexivity.
  Qed.
  Lemma draw_ok f b rest : okst f -> length b = length td -> exists g, draw_coeffs p q td f (b ++ rest) = OK (g, rest) /\ cf b g /\ okst g.
  Proof using Hq Pp Hd.
    intros (S1 & S2) L. exists (ins (combine td (map (fun x => x mod p) b)) f). split; [now apply draw_ins|].
    destruct (ins_coeffs n d (fun x => x mod p) td b f) as (C & K); auto using td_tuple, enum_NoDup. split; auto. split; auto. apply C.
  Qed.

  (** the block is that of a good polynomial *)
  Definition good_block (b : list Z) : Prop := length b = length td /\ exists f, cf b f /\ good f.
  Definition bad_block (b : list Z) : Prop := length b = length td /\ exists f, cf b f /\ ~ good f.

  Lemma loop_bad fuel f b rest : okst f -> bad_block b -> exists g, okst g /\
    random_loop get q p n d tl l (S fuel) f (b ++ rest) = random_loop get q p n d tl l fuel g rest.
  Proof.
    intros O (L & f0 & C0 & NG). destruct (draw_ok f b rest O L) as (g & E & C & O'). exists g. split; auto.
    assert (g = f0) by (eapply coeffs_unique; eauto using enum_NoDup). subst f0.
    cbn [random_loop]. unfold dbind at 1, dlift at 1. rewrite td_at. cbn [bind fst snd]. unfold dbind at 1. rewrite E. cbn [bind fst snd].
    unfold dbind at 1, dlift at 1. destruct (Hget g (proj1 C)) as (B & U & G & HB). fold (D1 g). unfold solve_t. cbn [mfind]. rewrite G. cbn [bind fst snd].
    destruct B as [|x B]; [elim NG; now apply HB|]. reflexivity.
  Qed.
  Lemma loop_good fuel f b rest : okst f -> good_block b -> exists g tab, cf b g /\ good g /\
    random_loop get q p n d tl l (S fuel) f (b ++ rest) = OK (g, tab, rest).
  Proof.
    intros O (L & f0 & C0 & NG). destruct (draw_ok f b rest O L) as (g & E & C & O').
    assert (g = f0) by (eapply coeffs_unique; eauto using enum_NoDup). subst f0.
    cbn [random_loop]. unfold dbind at 1, dlift at 1. rewrite td_at. cbn [bind fst snd]. unfold dbind at 1. rewrite E. cbn [bind fst snd].
    unfold dbind at 1, dlift at 1. destruct (Hget g (proj1 C)) as (B & U & G & HB). fold (D1 g). unfold solve_t. cbn [mfind]. rewrite G. cbn [bind fst snd].
    rewrite (proj2 HB NG). cbn [length Nat.eqb]. unfold dret. eauto.
  Qed.
  Lemma loop_short fuel f rest : (length rest < length td)%nat -> random_loop get q p n d tl l fuel f rest = Err EFuel.
  Proof.
    intros L. destruct fuel as [|fuel]; [reflexivity|]. cbn [random_loop]. unfold dbind at 1, dlift at 1. rewrite td_at. cbn [bind fst snd]. unfold dbind at 1.
    rewrite draw_short by auto. reflexivity.
  Qed.

  (** the first good block gives the polynomial *)
  Lemma loop_first bs : Forall bad_block bs -> forall fuel f b rest, okst f -> good_block b -> (length bs < fuel)%nat ->
    exists g tab, cf b g /\ good g /\ random_loop get q p n d tl l fuel f (concat bs ++ b ++ rest) = OK (g, tab, rest).
  Proof.
    induction 1 as [|c bs HB HF IH]; intros fuel f b rest O G L; cbn [length] in L; (destruct fuel as [|fuel]; [lia|]).
    - cbn [concat app]. now apply loop_good.
    - cbn [concat]. rewrite <- app_assoc. destruct (loop_bad fuel f c (concat bs ++ b ++ rest) O HB) as (g & O' & E). rewrite E. apply IH; auto. lia.
  Qed.
  Lemma loop_none bs : Forall bad_block bs -> forall fuel f rest, okst f -> (length rest < length td)%nat ->
    random_loop get q p n d tl l fuel f (concat bs ++ rest) = Err EFuel.
  Proof.
    induction 1 as [|c bs HB HF IH]; intros fuel f rest O L.
    - cbn [concat app]. now apply loop_short.
    - destruct fuel as [|fuel]; [reflexivity|]. cbn [concat]. rewrite <- app_assoc. destruct (loop_bad fuel f c (concat bs ++ rest) O HB) as (g & O' & E). rewrite E. now apply IH.
  Qed.

  Lemma block_dec b : length b = length td -> good_block b \/ bad_block b.
  Proof.
    intros L. destruct (draw_ok [] b []) as (g & _ & C & _); auto. { split; [apply vsorted_nil|intros k c []]. }
    destruct (Hget g (proj1 C)) as (B & U & _ & HB). destruct B as [|x B]; [left|right]; split; auto; exists g; split; auto; [now apply HB|].
    intros X. apply HB in X. discriminate.
  Qed.

  (** every list of numbers is made of blocks *)
  Lemma blocks rs : exists bs tail, Forall bad_block bs /\ ((rs = concat bs ++ tail /\ (length tail < length td)%nat) \/
    exists b, good_block b /\ rs = concat bs ++ b ++ tail).
  Proof.
    remember (length rs) as k eqn:K. assert (K' : (length rs <= k)%nat) by lia. clear K. revert rs K'. induction k as [|k IH]; intros rs K.
    - exists [], rs. split; auto. left. split; auto. pose proof td_pos. lia.
    - destruct (Nat.lt_ge_cases (length rs) (length td)) as [Lt|Ge]; [exists [], rs; split; auto|].
      assert (Lb : length (firstn (length td) rs) = length td) by (rewrite firstn_length; lia).
      rewrite <- (firstn_skipn (length td) rs). destruct (block_dec _ Lb) as [G|G].
      + exists [], (skipn (length td) rs). split; auto. right. exists (firstn (length td) rs). auto.
      + destruct (IH (skipn (length td) rs)) as (bs & tail & F & [[E L]|(b & Gb & E)]).
        * rewrite skipn_length. pose proof td_pos. lia.
        * exists (firstn (length td) rs :: bs), tail. split; [now constructor|]. left. cbn [concat]. rewrite <- app_assoc, <- E. auto.
        * exists (firstn (length td) rs :: bs), tail. split; [now constructor|]. right. exists b. split; auto. cbn [concat]. rewrite <- app_assoc, <- E. auto.
  Qed.
  Lemma blocks_length bs : Forall bad_block bs -> (length bs <= length (concat bs))%nat.
  Proof. induction 1 as [|b bs (L & _) H IH]; cbn [concat length]; auto. rewrite app_length. pose proof td_pos. lia. Qed.

  Section Whole.
    Context {A : Type} (fin : poly -> res A).
    Definition whole : draws A := fun rs => dbind (dlift (init_tuples n d)) (fun tl =>
      dbind (random_loop get q p n d tl l (S (length rs)) []) (fun ft => dlift (fin (fst ft)))) rs.

    Lemma whole_first bs b rest : Forall bad_block bs -> good_block b -> exists g, cf b g /\ good g /\
      whole (concat bs ++ b ++ rest) = (x <- fin g ;; OK (x, rest)).
    Proof.
      intros F G. unfold whole. unfold dbind at 1, dlift at 1. rewrite Htl. cbn [bind fst snd]. unfold dbind at 1.
      destruct (loop_first bs F (S (length (concat bs ++ b ++ rest))) [] b rest) as (g & tab & C & Gd & E); auto.
      { split; [apply vsorted_nil|intros k c []]. }
      { pose proof (blocks_length bs F). rewrite app_length. lia. }
      exists g. split; auto. split; auto. rewrite E. cbn [bind fst snd]. reflexivity.
    Qed.
    Lemma whole_none bs tail : Forall bad_block bs -> (length tail < length td)%nat -> whole (concat bs ++ tail) = Err EFuel.
    Proof.
      intros F L. unfold whole. unfold dbind at 1, dlift at 1. rewrite Htl. cbn [bind fst snd]. unfold dbind at 1.
      rewrite loop_none; auto. split; [apply vsorted_nil|intros k c []].
    Qed.
    Lemma whole_live (P : A -> Prop) b0 : good_block b0 -> (forall g, wf_poly n d g -> g <> [] -> good g -> exists x, fin g = OK x /\ P x) -> live P whole.
    Proof.
      intros G0 HP rs. assert (NE : forall b g, cf b g -> g <> []).
      { intros b g (_ & L & _) ->. pose proof td_pos. cbn [length] in L. lia. }
      destruct (blocks rs) as (bs & tail & F & [[-> L]|(b & Gb & ->)]).
      - right. split; [now apply whole_none|].
        destruct (block_dec (tail ++ repeat 0 (length td - length tail))) as [G|G].
        { rewrite app_length, repeat_length. lia. }
        + exists (repeat 0 (length td - length tail)).
          destruct (whole_first bs _ [] F G) as (g & C & Gd & _). destruct (HP g (proj1 C) (NE _ _ C) Gd) as (x & Ex & Px). exists x. split; auto.
          intros tl'. rewrite <- app_assoc, (app_assoc tail). destruct (whole_first bs _ tl' F G) as (g' & C' & _ & E).
          rewrite E. rewrite (coeffs_unique n d _ td _ g' g (enum_NoDup _ _) C' C), Ex. reflexivity.
        + exists (repeat 0 (length td - length tail) ++ b0).
          assert (F' : Forall bad_block (bs ++ [tail ++ repeat 0 (length td - length tail)])) by (apply Forall_app; auto).
          destruct (whole_first _ b0 [] F' G0) as (g & C & Gd & _). destruct (HP g (proj1 C) (NE _ _ C) Gd) as (x & Ex & Px). exists x. split; auto.
          intros tl'. destruct (whole_first _ b0 tl' F' G0) as (g' & C' & _ & E).
          replace ((concat bs ++ tail) ++ (repeat 0 (length td - length tail) ++ b0) ++ tl') with
            (concat (bs ++ [tail ++ repeat 0 (length td - length tail)]) ++ b0 ++ tl') by (rewrite concat_app; cbn [concat]; rewrite app_nil_r, <- !app_assoc; reflexivity).
          rewrite E. rewrite (coeffs_unique n d _ td _ g' g (enum_NoDup _ _) C' C), Ex. reflexivity.
      - left. destruct (whole_first bs b tail F Gb) as (g & C & Gd & E). destruct (HP g (proj1 C) (NE _ _ C) Gd) as (x & Ex & Px).
        exists x, (concat bs ++ b), tail. split; auto. split; [now rewrite app_assoc|]. split; [now rewrite E, Ex|]. intros tl'.
        rewrite <- !app_assoc. destruct (whole_first bs b (tail ++ tl') F Gb) as (g' & C' & _ & E').
        rewrite E'. rewrite (coeffs_unique n d _ td _ g' g (enum_NoDup _ _) C' C), Ex. reflexivity.
    Qed.
    Lemma whole_hangs : (forall g, wf_poly n d g -> ~ good g) -> forall rs, whole rs = Err EFuel.
    Proof.
      intros H rs. destruct (blocks rs) as (bs & tail & F & [[-> L]|(b & (_ & g & C & G) & ->)]); [now apply whole_none|]. elim (H g); auto. apply C.
    Qed.
  End Whole.

  (** the block of the Fermat polynomial *)
  Definition fermat_block : list Z := map (pure (S n) d) td.
  Lemma fermat_poly : exists f, cf fermat_block f /\ (forall a c, In (a, c) f -> c = pure (S n) d a) /\ (forall i, (i <= n)%nat -> In (upd (repeat 0 (S n)) i d, 1) f).
  Proof using Pp Hq Hd.
    pose proof (prime_ge_2 p Pp) as P2.
    destruct (draw_ok [] fermat_block []) as (g & _ & C & O). { split; [apply vsorted_nil|intros k c []]. } { unfold fermat_block. now rewrite map_length. }
    exists g. split; auto. destruct C as ((S1 & S2) & L & H).
    assert (K : forall t, In t td -> In (t, pure (S n) d t) g).
    { intros t Ht. destruct (In_nth _ _ [] Ht) as (i & Hi & E). specialize (H i Hi). unfold fermat_block in H. rewrite (nth_map_lt (pure (S n) d) td i 0 [] Hi) in H. rewrite E in H.
      rewrite Z.mod_small in H by (destruct (pure_01 (S n) d t) as [->| ->]; lia). exact H. }
    split.
    - intros a c Ha. pose proof (proj2 O _ _ Ha) as Ia. specialize (K a Ia). assert (La : length a = S n) by (apply (td_tuple a Ia)).
      apply (vfind_In (S n)) in Ha; auto. apply (vfind_In (S n)) in K; auto. congruence.
    - intros i Hi. rewrite <- (pure_one (S n) d i) by lia. apply K. apply enum_In; [lia|]. rewrite Z2Nat.id by lia. split; [rewrite upd_length, repeat_length; auto|]. split.
      + apply nonneg_iff. rewrite upd_length, repeat_length. intros k Hk. destruct (Nat.eq_dec k i) as [->|Nk]; [rewrite nth_upd_eq by (rewrite repeat_length; lia); lia|].
        rewrite nth_upd_neq by auto. rewrite nth_repeat. lia.
      + rewrite zsum_upd by (rewrite repeat_length; lia). rewrite nth_repeat, zsum_repeat0. lia.
  Qed.
End Loop.

(** ** the two constructors *)
Section Both.
  Variables (p prec : Z) (lu : ech_fun) (inv : inv_fun) (n : nat) (d : Z) (tl : list (list vec)).
  Hypothesis Pp : prime p.
  Hypothesis Hprec : 1 <= prec.
  Hypothesis HE : ech_spec p lu.
  Hypothesis HI : inv_spec p inv.
  Hypothesis Hd : 2 <= d.
  Hypothesis Htl : init_tuples n d = OK tl.
  Notation q := (p ^ prec).
  Notation slv1 := (padic_solver lu inv p q 1).
  Notation slv := (padic_solver lu inv p q prec).

  Lemma p_le_q : p <= q.
  Proof using Pp Hprec. pose proof (prime_ge_2 p Pp). rewrite <- (Z.pow_1_r p) at 1. apply Z.pow_le_mono_r; lia. Qed.

  Lemma get_J f : wf_poly n d f -> exists B U, get_solve_J slv1 (D1 p q n d tl f) ((d - 2) * (Z.of_nat n + 1) + 1) = OK (B, U) /\ (B = [] <-> smooth_mod p n d f).
  Proof.
    intros W. assert (b0 : dr_base (D1 p q n d tl f)) by (apply base_any; auto; lia).
    assert (Hl : 0 <= (d - 2) * (Z.of_nat n + 1) + 1 <= (Z.of_nat n + 1) * d) by nia.
    destruct (solve_J_qbasis p prec lu inv n d f Pp Hprec HE HI W ltac:(lia) _ b0 eq_refl eq_refl eq_refl eq_refl _ Hl) as (B & U & E & _ & Q).
    unfold get_solve_J in *. apply bind_ok in E. destruct E as (cM & E1 & E2). rewrite E1. cbn [bind]. destruct (solver_first _ _ _ _ _ _ _ _ _ E2) as (U' & E3).
    exists B, U'. split; auto. split.
    - intros B0 G. eapply (empty_J p n d f W); eauto; try lia; nia.
    - intros SM. assert (V : vanishH (S n) p (d - 1) (Js n f)) by (eapply exact_J; eauto; nia).
      pose proof (size_J p n d f Pp W ltac:(lia) _ B Hd V Q) as SZ.
      unfold znth, hilbert_J in SZ. destruct (Z.ltb_spec ((d - 2) * (Z.of_nat n + 1) + 1) 0); [lia|]. rewrite nth_overflow in SZ.
      + unfold zlen in SZ. destruct B; [reflexivity|cbn [length] in SZ; lia].
      + rewrite hilbert_pow_length by lia. nia.
  Qed.
  Lemma get_ND f : wf_poly n d f -> exists B U, get_solve_ND slv1 (D1 p q n d tl f) ((d - 1) * (Z.of_nat n + 1) + 1) = OK (B, U) /\ (B = [] <-> non_degenerate p n d f).
  Proof.
    intros W. assert (b0 : dr_base (D1 p q n d tl f)) by (apply base_any; auto; lia).
    assert (Hl : 0 <= (d - 1) * (Z.of_nat n + 1) + 1 <= (Z.of_nat n + 1) * d) by nia.
    destruct (solve_ND_qbasis p prec lu inv n d f Pp Hprec HE HI W _ b0 eq_refl eq_refl eq_refl eq_refl _ Hl) as (B & U & E & _ & Q).
    unfold get_solve_ND in *. apply bind_ok in E. destruct E as (cM & E1 & E2). rewrite E1. cbn [bind]. destruct (solver_first _ _ _ _ _ _ _ _ _ E2) as (U' & E3).
    exists B, U'. split; auto. split.
    - intros B0 G. eapply (empty_ND p n d f W); eauto; try lia; nia.
    - intros SM. assert (V : vanishH (S n) p d (Ls n f)) by (eapply exact_L; [exact W| | |exact SM]; nia).
      pose proof (size_ND p n d f Pp W ltac:(lia) _ B V Q) as SZ.
      unfold znth, hilbert_ND in SZ. destruct (Z.ltb_spec ((d - 1) * (Z.of_nat n + 1) + 1) 0); [lia|]. rewrite nth_overflow in SZ.
      + unfold zlen in SZ. destruct B; [reflexivity|cbn [length] in SZ; lia].
      + rewrite hilbert_pow_length by lia. nia.
  Qed.

  Lemma random_whole rs : ctor_random slv1 slv q p prec n d rs =
    whole p q n d (get_solve_J slv1) ((d - 2) * (Z.of_nat n + 1) + 1) (init slv q p prec) rs.
  Proof using.
    clear; unfold ctor_random, whole, dbind, dlift. destruct (init_tuples n d); cbn [bind fst snd]; auto. destruct (random_loop _ _ _ _ _ _ _ _ _ _); cbn [bind]; auto. now rewrite init_t_nil.
  Qed.
  Lemma random_ND_whole rs : ctor_random_ND slv1 slv q p prec n d rs =
    whole p q n d (get_solve_ND slv1) ((d - 1) * (Z.of_nat n + 1) + 1) (init_ND slv q p prec) rs.
  Proof using.
    clear; unfold ctor_random_ND, whole, dbind, dlift. destruct (init_tuples n d); cbn [bind fst snd]; auto. destruct (random_loop _ _ _ _ _ _ _ _ _ _); cbn [bind]; auto. now rewrite init_ND_t_nil.
  Qed.
End Both.
