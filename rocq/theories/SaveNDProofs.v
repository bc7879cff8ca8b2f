(** Reading back what save wrote, for a non-degenerate object; the loaded tables
    contain the values the object would compute. *)
From Coq Require Import ZArith List Bool Lia.
From Verif Require Import Base VecModel VecSpec VecProofs ToolsModel ToolsSpec ToolsProofs MatModel MatProofs DRModel DRSpec DRProofs
  NDModel NDSpec NDRed IoModel IoProofs SaveModel SaveProofs CacheModel CacheProofs NDCacheModel NDCacheProofs SaveNDModel.
Import ListNotations.
Open Scope Z_scope.

Lemma combine_app {A B} (l1 l1' : list A) (l2 l2' : list B) : length l1 = length l2 -> combine (l1 ++ l1') (l2 ++ l2') = combine l1 l2 ++ combine l1' l2'.
Proof. revert l2. induction l1 as [|a l1 IH]; intros [|b l2] L; try discriminate; auto. cbn [app combine]. rewrite IH; auto. Qed.
Lemma mapM_length {A B} (g : A -> res B) l r : mapM g l = OK r -> length l = length r.
Proof. intros H. apply mapM_ok in H. induction H; cbn [length]; auto. Qed.
Lemma nth_zrange m : forall a k, (k < m)%nat -> nth k (zrange a m) 0 = a + Z.of_nat k.
Proof.
  induction m as [|m IH]; intros a k H; [lia|]. destruct k as [|k]; cbn [zrange nth]; [lia|]. rewrite IH by lia. lia.
Qed.
Lemma zrange_length m : forall a, length (zrange a m) = m.
Proof. induction m as [|m IH]; intros a; cbn [zrange length]; auto. Qed.

Lemma nd_init slv p prec q f N : init_ND slv q p prec f = OK N -> init slv q p prec f = OK (nd_dr N).
Proof.
  unfold init_ND. intros H. apply bind_ok in H. destruct H as (D' & H1 & H).
  repeat (apply bind_ok in H; destruct H as (? & ? & H)). injection H as <-. exact H1.
Qed.

Section LoadND.
  Variables (slv : solver) (p prec q : Z) (f : poly) (N : dND).
  Notation D := (nd_dr N).
  Hypothesis HN : init_ND slv q p prec f = OK N.
  Hypothesis HW : wf_poly (r_n D) (r_d D) f.
  Hypothesis HQ : q = p ^ prec.
  Hypothesis HR : solver_reduced q slv.

  Lemma load_levels_ND hil is : forall bs tab0 bas0 rest,
    mapM (init_ND_level slv D hil) is = OK bs ->
    exists ps, mapM (fun i => get_solve_ND slv D (i * r_d D)) is = OK ps /\
      foldM (fun st i => read_level q hil (r_tl D) st (i * r_d D)) is (tab0, bas0, c_nl :: flat_map print_pair ps ++ rest) =
      OK (tab0 ++ combine (map (fun i => i * r_d D) is) (map conv ps), bas0 ++ concat bs, c_nl :: rest).
  Proof using HR.
    induction is as [|i is IH]; intros bs tab0 bas0 rest H.
    - injection H as <-. exists []. split; [reflexivity|]. cbn [foldM map combine concat flat_map app]. now rewrite !app_nil_r.
    - cbn [mapM] in H. apply bind_ok in H. destruct H as (b & Hb & H). apply bind_ok in H. destruct H as (bs' & H & H1).
      injection H1 as <-. unfold init_ND_level in Hb. apply bind_ok in Hb. destruct Hb as (BU & Hs & Hb).
      apply bind_ok in Hb. destruct Hb as (h & Hh & Hb). apply bind_ok in Hb. destruct Hb as (? & Hc & Hb).
      apply bind_ok in Hb. destruct Hb as (tll & Ht & Hb).
      destruct (IH bs' (tab0 ++ [(i * r_d D, conv BU)]) (bas0 ++ b) rest H) as (ps & E1 & E2).
      exists (BU :: ps). split; [cbn [mapM]; rewrite Hs; cbn [bind]; rewrite E1; reflexivity|].
      cbn [foldM flat_map]. rewrite <- app_assoc. unfold read_level at 1.
      assert (PP : parse_pair q (c_nl :: print_pair BU ++ flat_map print_pair ps ++ rest) = OK (conv BU, c_nl :: flat_map print_pair ps ++ rest)).
      { unfold get_solve_ND in Hs. apply bind_ok in Hs. destruct Hs as (cM & _ & Hs). eapply parse_pair_slv; [exact HR|exact Hs]. }
      rewrite PP. cbn [bind fst snd conv]. rewrite Hh. cbn [bind].
      unfold zlen in *. rewrite map_length. rewrite Hc. cbn [bind]. rewrite Ht. cbn [bind].
      replace (mapM (get_at tll) (map Z.of_nat (fst BU))) with (OK b).
      2:{ rewrite <- Hb. clear. generalize (fst BU) as l. induction l as [|x l IH]; auto. cbn [map mapM]. now rewrite IH. }
      cbn [bind]. fold (conv BU). etransitivity; [exact E2|]. do 3 f_equal.
      + cbn [map combine]. now rewrite <- app_assoc.
      + cbn [concat]. now rewrite app_assoc.
  Qed.

  Lemma save_load_ND vb sm : exists s tabJ tab, save_text_ND slv N vb sm = OK s /\
    mapM (get_solve_J slv D) (saved_degs D) = OK tabJ /\ mapM (get_solve_ND slv D) (saved_degs_ND D) = OK tab /\
    forall rest, load_text_ND p q (s ++ rest) =
      OK (mk_dND (with_f D (naive_lift p f)) (nd_basis N) (nd_bdict N),
          hilbert_J (r_n D) (r_d D), combine (saved_degs D) (map conv tabJ),
          hilbert_ND (r_n D) (r_d D), combine (saved_degs_ND D) (map conv tab), vb, sm).
  Proof.
    destruct (save_load slv p prec q f D (nd_init _ _ _ _ _ _ HN) HW HQ HR vb sm) as (s & tabJ & S1 & S2 & S3).
    destruct (init_ND_inv _ _ _ _ _ _ HN HW) as (inv & _ & _).
    destruct (ni_basis _ _ inv) as (bs & Ebs & Eb). destruct (ni_top _ _ inv) as (Ut & Et).
    destruct (load_levels_ND _ _ bs [] [] [] Ebs) as (ps & Eps & _).
    assert (Etab : mapM (get_solve_ND slv D) (saved_degs_ND D) = OK (ps ++ [([], Ut)])).
    { unfold saved_degs_ND. apply mapM_app_ok; [rewrite mapM_map; exact Eps|]. cbn [mapM]. rewrite Et. reflexivity. }
    eexists _, tabJ, _. split; [|split; [exact S2|split; [exact Etab|]]].
    { unfold save_text_ND. rewrite S1. cbn [bind]. rewrite Etab. cbn [bind]. reflexivity. }
    intros rest. unfold load_text_ND. rewrite <- !app_assoc, S3. cbn [bind].
    destruct (load_levels_ND _ _ bs [] [] (print_pair ([], Ut) ++ rest) Ebs) as (ps' & Eps' & Ef).
    assert (ps' = ps) by congruence. subst ps'. clear Eps'.
    assert (SV : forall (pe : text -> res (Z * text)) s, parse_vec pe (c_nl :: s) = parse_vec pe s) by reflexivity.
    assert (PV : forall l s, stop s -> parse_vec parse_Z (print_vec print_Z l ++ s) = OK (l, s)).
    { intros. apply (print_vec_read _ _ _ print_Z_read); auto. apply Forall_forall; auto. }
    unfold line. rewrite <- !app_assoc. rewrite SV, PV by reflexivity. cbn [bind fst snd app].
    rewrite flat_map_app. cbn [flat_map]. rewrite app_nil_r, <- app_assoc. unfold with_f. cbn [r_n r_d r_tl].
    match type of Ef with ?l = _ => match goal with |- context [foldM ?a ?b ?c] => change (foldM a b c) with l end end.
    rewrite Ef. cbn [bind app].
    assert (PP : parse_pair q (c_nl :: print_pair ([], Ut) ++ rest) = OK (conv ([], Ut), c_nl :: rest)).
    { unfold get_solve_ND in Et. apply bind_ok in Et. destruct Et as (cM & _ & Hs). eapply parse_pair_slv; [exact HR|exact Hs]. }
    rewrite PP. cbn [bind fst snd]. rewrite <- Eb. rewrite (proj2 (Z.eqb_eq _ _) (ni_len _ _ inv)). cbn [check bind].
    rewrite <- (ni_bdict _ _ inv). unfold saved_degs_ND. rewrite map_app, combine_app; [reflexivity|].
    rewrite !map_length. now apply mapM_length in Eps.
  Qed.
End LoadND.

(** ** the loaded tables *)
Lemma table_of_conv (l : list Z) (t : list (list nat * mat)) : table_of (combine l (map conv t)) = combine l t.
Proof.
  revert t. induction l as [|x l IH]; intros [|[B U] t]; auto. cbn [map combine table_of fst snd conv]. f_equal.
  - do 2 f_equal. rewrite map_map. rewrite <- (map_id B) at 2. apply map_ext. apply Nat2Z.id.
  - apply IH.
Qed.
Lemma combine_vals {B} (g : Z -> res B) l t : mapM g l = OK t -> forall k x, In (k, x) (combine l t) -> g k = OK x.
Proof. intros H. apply mapM_ok in H. induction H as [|a b l t Hg H IH]; intros k x X; [destruct X|]. destruct X as [X|X]; [congruence|now apply IH]. Qed.
Lemma combine_zsorted {B} l (t : list B) : (forall i j, (i < j < length l)%nat -> nth i l 0 < nth j l 0) -> zsorted (combine l t).
Proof.
  revert t. induction l as [|x l IH]; intros [|b t] H; try constructor; cbn [combine]; auto.
  - apply IH. intros i j Hij. apply (H (S i) (S j)). cbn [length]. lia.
  - intros k v Hk. apply in_combine_l in Hk. destruct (In_nth _ _ 0 Hk) as (j & Lj & <-).
    apply Z.ltb_lt. apply (H 0%nat (S j)). cbn [length]. lia.
Qed.
Lemma arith_sorted a b m top : 0 < a -> (0 < m -> a * (m - 1) + b < top) -> forall i j,
  (i < j < length (map (fun i => (i * a + b)%Z) (zseq 0 m) ++ [top]))%nat ->
  nth i (map (fun i => (i * a + b)%Z) (zseq 0 m) ++ [top]) 0 < nth j (map (fun i => (i * a + b)%Z) (zseq 0 m) ++ [top]) 0.
Proof.
  intros Ha Ht i j. assert (LZ : length (zseq 0 m) = Z.to_nat m) by (unfold zseq; rewrite zrange_length; f_equal; lia).
  rewrite app_length, map_length, LZ. cbn [length]. intros H.
  assert (E : forall k, (k < Z.to_nat m)%nat -> nth k (map (fun i => i * a + b) (zseq 0 m) ++ [top]) 0 = Z.of_nat k * a + b).
  { intros k Hk. rewrite app_nth1 by (rewrite map_length; lia).
    rewrite (nth_indep _ 0 (0 * a + b)) by (rewrite map_length; lia). rewrite (map_nth (fun i => i * a + b)).
    f_equal. f_equal. unfold zseq. rewrite nth_zrange by lia. lia. }
  rewrite (E i) by lia. destruct (Nat.eq_dec j (Z.to_nat m)) as [->|].
  - rewrite app_nth2 by (rewrite map_length; lia). rewrite map_length, LZ, Nat.sub_diag. cbn [nth]. nia.
  - rewrite E by lia. nia.
Qed.

Section Tables.
  Variables (slv : solver) (D : dR) (T : list poly).
  Hypothesis Hd : Z.of_nat (r_n D) < r_d D.

  Lemma loaded_ok tabJ : mapM (get_solve_J slv D) (saved_degs D) = OK tabJ ->
    cache_ok slv D T (loaded_cache T (combine (saved_degs D) (map conv tabJ))).
  Proof.
    intros HJ. unfold loaded_cache. rewrite table_of_conv. constructor; cbn; auto; try (intros; contradiction); try constructor.
    - apply combine_zsorted. unfold saved_degs, deg_top.
      replace (map (fun i => (i + 1) * r_d D - (Z.of_nat (r_n D) + 1)) (zseq 0 (Z.of_nat (r_n D))))
        with (map (fun i => i * r_d D + (r_d D - (Z.of_nat (r_n D) + 1))) (zseq 0 (Z.of_nat (r_n D)))) by (apply map_ext; intros; lia).
      apply arith_sorted; nia.
    - apply combine_vals. exact HJ.
    - intros [|i] x E; discriminate.
  Qed.
End Tables.
Lemma loaded_nok slv N T tabJ tab : Z.of_nat (r_n (nd_dr N)) < r_d (nd_dr N) -> mapM (get_solve_J slv (nd_dr N)) (saved_degs (nd_dr N)) = OK tabJ ->
  mapM (get_solve_ND slv (nd_dr N)) (saved_degs_ND (nd_dr N)) = OK tab ->
  ncache_ok slv N T (loaded_ncache T (combine (saved_degs (nd_dr N)) (map conv tabJ)) (combine (saved_degs_ND (nd_dr N)) (map conv tab))).
Proof.
  intros Hd HJ H. constructor; cbn; auto using tabv_nil.
  - now apply loaded_ok.
  - rewrite table_of_conv. apply combine_zsorted. unfold saved_degs_ND, top_ND. set (D := nd_dr N) in *.
    replace (map (fun i => i * r_d D) (zseq 0 (Z.of_nat (r_n D) + 1)))
      with (map (fun i => i * r_d D + 0) (zseq 0 (Z.of_nat (r_n D) + 1))) by (apply map_ext; intros; lia).
    apply arith_sorted; nia.
  - rewrite table_of_conv. apply combine_vals. exact H.
Qed.
