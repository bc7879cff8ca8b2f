(** Proofs for the pencil x^4 + y^4 + z^4 + w^4 + lambda xyzw. *)
From Coq Require Import ZArith Znumtheory List Bool Lia.
From Verif Require Import Base VecModel VecSpec VecProofs ToolsModel ToolsSpec ToolsProofs MatModel MatProofs DRModel DRSpec DRProofs NDModel NDSpec LinAlg SolveModel SolveSpec ChangeSpec CtorModel ArgsModel RunProofs HilbTop HilbCode DwModel.
Import ListNotations.
Open Scope Z_scope.

Definition dw (lam : Z) : poly := [([0; 0; 0; 4], 1); ([0; 0; 4; 0], 1); ([0; 4; 0; 0], 1); ([1; 1; 1; 1], lam); ([4; 0; 0; 0], 1)].
Lemma dwork_map_eq conv lam : dwork_map conv 4 lam = [([0; 0; 0; 4], conv 1); ([0; 0; 4; 0], conv 1); ([0; 4; 0; 0], conv 1); ([1; 1; 1; 1], conv lam); ([4; 0; 0; 0], conv 1)].
Proof. reflexivity. Qed.
Lemma dw_wf lam : wf_poly 3 4 (dw lam).
Proof.
  split; [repeat constructor; cbn [In]; try tauto; intros k v H; repeat destruct H as [H|H]; try contradiction; now injection H as <- <-|].
  intros a c H. repeat destruct H as [H|H]; try contradiction; injection H as <- <-; repeat split; repeat constructor; lia.
Qed.

Definition dlt (a t : list Z) : Z := if list_eq_dec Z.eq_dec a t then 1 else 0.
Lemma dlt_same a : dlt a a = 1.
Proof. unfold dlt. now destruct (list_eq_dec Z.eq_dec a a). Qed.
Lemma dlt_pick g a l : NoDup l -> In a l -> sumf (fun t => g t * dlt a t) l = g a.
Proof.
  intros N I. rewrite (sumf_ext _ (fun b => if list_eq_dec Z.eq_dec a b then g b else 0)).
  - rewrite sumf_pick by auto. now destruct (in_dec _ a l).
  - intros t _. unfold dlt. destruct (list_eq_dec Z.eq_dec a t); lia.
Qed.
Lemma tuple4 l t : is_tuple 4 l t -> exists a b c e, t = [a; b; c; e] /\ 0 <= a /\ 0 <= b /\ 0 <= c /\ 0 <= e /\ a + b + c + e = l.
Proof.
  intros (L & N & Z). destruct t as [|a [|b [|c [|e [|x t]]]]]; try discriminate. exists a, b, c, e. split; auto.
  inversion N as [|? ? N1 N']; subst. inversion N' as [|? ? N2 N'']; subst. inversion N'' as [|? ? N3 N3']; subst. inversion N3' as [|? ? N4 _]; subst. cbn in *. lia.
Qed.
Lemma mk_tuple4 l a b c e : 0 <= a -> 0 <= b -> 0 <= c -> 0 <= e -> a + b + c + e = l -> is_tuple 4 l [a; b; c; e].
Proof. intros. split; [reflexivity|]. split; [repeat constructor; auto|]. cbn. lia. Qed.

Section Pencil.
  Variables (p lam : Z).
  Hypothesis Pp : prime p.
  Hypothesis p3 : 3 <= p.
  Notation f := (dw lam).

  Lemma four_inv : exists e, cong p (4 * e) 1.
  Proof.
    apply prime_inv; auto. intros (k & H). rewrite Z.sub_0_r in H. assert (D : (p | 2 * 2)) by (exists k; lia).
    apply prime_mult in D; auto. assert (X : (p | 2)) by tauto. apply Z.divide_pos_le in X; lia.
  Qed.

  (** ** non-degeneracy *)
  Definition I (G : list Z -> Z) : Prop := in_log_jacobian p 3 4 f 13 G.

  Lemma I_cong G G' : (forall t, is_tuple 4 13 t -> cong p (G' t) (G t)) -> I G -> I G'.
  Proof. intros H (h & Hh). exists h. intros t Ht. eapply cong_trans; [apply H; auto|]. now apply Hh. Qed.
  Lemma I_lin a b G G' : I G -> I G' -> I (fun t => a * G t + b * G' t).
  Proof.
    intros (h & Hh) (h' & Hh'). exists (fun i s => a * h i s + b * h' i s). intros t Ht.
    eapply cong_trans; [apply cong_add; apply cong_mul; [apply cong_refl|apply (Hh t Ht)|apply cong_refl|apply (Hh' t Ht)]|]. apply cong_of_eq.
    rewrite <- !sumf_scal, <- sumf_plus. apply sumf_ext. intros i _. rewrite <- !sumf_scal, <- sumf_plus. apply sumf_ext. intros s _. ring.
  Qed.
  Lemma I_scal a G : I G -> I (fun t => a * G t).
  Proof. intros H. apply (I_cong (fun t => a * G t + 0 * G t)); [|now apply I_lin]. intros t _. apply cong_of_eq. lia. Qed.
  Lemma I_unit a e G : cong p (a * e) 1 -> I (fun t => a * G t) -> I G.
  Proof.
    intros H J. apply (I_cong (fun t => e * (a * G t))); [|now apply I_scal]. intros t _. apply cong_sym.
    apply (cong_trans _ _ ((a * e) * G t)); [apply cong_of_eq; ring|]. apply (cong_trans _ _ (1 * G t)); [|apply cong_of_eq; ring].
    apply cong_mul; [exact H|apply cong_refl].
  Qed.
  Lemma I_gen i s : (i < 4)%nat -> is_tuple 4 9 s -> I (fun t => coef_xdx f i s t).
  Proof.
    intros Hi Hs. exists (fun i' s' => (if Nat.eqb i' i then 1 else 0) * dlt s s'). intros t Ht. apply cong_of_eq.
    rewrite (sumf_seq_single _ 0 4 i); [|lia|].
    - rewrite Nat.eqb_refl. change (Z.to_nat (13 - 4)) with 9%nat. rewrite (sumf_ext _ (fun s' => coef_xdx f i s' t * dlt s s')) by (intros; ring).
      rewrite (dlt_pick (fun s' => coef_xdx f i s' t)); auto; [apply enum_NoDup|]. apply enum_In; [lia|]. exact Hs.
    - intros j Hj Nj. apply sumf_zero. intros s' _. destruct (Nat.eqb_spec j i); [lia|ring].
  Qed.
  Lemma coef_xdx_dw i s t : (i < 4)%nat -> coef_xdx f i s t = 4 * dlt (eplus s (upd [0; 0; 0; 0] i 4)) t + lam * dlt (eplus s [1; 1; 1; 1]) t.
  Proof.
    intros Hi. unfold coef_xdx, dw, dlt. rewrite !sumf_cons, sumf_nil. cbn [fst snd].
    destruct i as [|[|[|[|i]]]]; [| | | |lia]; cbn [nth upd]; repeat destruct (list_eq_dec Z.eq_dec _ _); lia.
  Qed.

  Definition st (i : nat) (t : list Z) : list Z := eplus (upd t i (nth i t 0 - 4)) [1; 1; 1; 1].
  Lemma rel i t : (i < 4)%nat -> is_tuple 4 13 t -> 4 <= nth i t 0 ->
    is_tuple 4 13 (st i t) /\ I (fun u => 4 * dlt t u + lam * dlt (st i t) u).
  Proof.
    intros Hi Ht H4. destruct (tuple4 _ _ Ht) as (a & b & c & e & -> & Ha & Hb & Hc & He & Hs).
    assert (Hsub : is_tuple 4 9 (upd [a; b; c; e] i (nth i [a; b; c; e] 0 - 4))).
    { destruct i as [|[|[|[|i]]]]; [| | | |lia]; cbn [nth upd] in *; apply mk_tuple4; lia. }
    split.
    - unfold st. destruct i as [|[|[|[|i]]]]; [| | | |lia]; cbn [nth upd eplus] in *; apply mk_tuple4; lia.
    - apply (I_cong (fun u => coef_xdx f i (upd [a; b; c; e] i (nth i [a; b; c; e] 0 - 4)) u)); [|now apply I_gen].
      intros u _. apply cong_of_eq. rewrite coef_xdx_dw by auto. unfold st. f_equal. f_equal. f_equal.
      destruct i as [|[|[|[|i]]]]; [| | | |lia]; cbn [nth upd eplus]; repeat f_equal; lia.
  Qed.
  Fixpoint walk (js : list nat) (t : list Z) : option (list Z) :=
    match js with
    | [] => Some t
    | i :: js => if Nat.ltb i 4 && (4 <=? nth i t 0) then walk js (st i t) else None
    end.
  Lemma walk_rel js : forall t t', is_tuple 4 13 t -> walk js t = Some t' ->
    is_tuple 4 13 t' /\ I (fun u => 4 ^ Z.of_nat (length js) * dlt t u - (- lam) ^ Z.of_nat (length js) * dlt t' u).
  Proof.
    induction js as [|i js IH]; intros t t' Ht E; cbn [walk length] in *.
    - injection E as <-. split; auto. exists (fun _ _ => 0). intros u _. apply cong_of_eq. change (Z.of_nat 0) with 0. rewrite !Z.pow_0_r.
      rewrite sumf_zero; [lia|]. intros j _. apply sumf_zero. intros; ring.
    - destruct (Nat.ltb_spec i 4); [|discriminate]. destruct (Z.leb_spec 4 (nth i t 0)); [|discriminate]. cbn [andb] in E.
      destruct (rel i t) as (T1 & R1); auto. destruct (IH _ _ T1 E) as (T2 & R2). split; auto.
      pose proof (I_lin (4 ^ Z.of_nat (length js)) (- lam) _ _ R1 R2) as R.
      eapply I_cong; [|exact R]. intros u _. apply cong_of_eq. cbv beta. rewrite Nat2Z.inj_succ, !Z.pow_succ_r by lia. ring.
  Qed.

  Definition perms : list (list nat) :=
    flat_map (fun i => flat_map (fun j => flat_map (fun k => flat_map (fun l =>
      if Nat.eqb (i + j + k + l) 6 && negb (Nat.eqb i j) && negb (Nat.eqb i k) && negb (Nat.eqb j k) then [[i; j; k; l]] else []) (seq 0 4)) (seq 0 4)) (seq 0 4)) (seq 0 4).
  Definition good (t : list Z) : bool :=
    existsb (fun js => Nat.eqb (length js) 4 && match walk js t with Some t' => if list_eq_dec Z.eq_dec t' t then true else false | None => false end) perms.
  Fixpoint search (k : nat) (t : list Z) : bool :=
    good t || match k with
              | O => false
              | S k => existsb (fun i => Nat.ltb i 4 && (4 <=? nth i t 0) && search k (st i t)) (seq 0 4)
              end.
  Lemma search_all : forallb (search 4) (enum 4 13) = true.
  Proof. vm_compute. reflexivity. Qed.

  Hypothesis Hlam : ~ (p | lam ^ 4 - 256).
  Lemma good_I t : is_tuple 4 13 t -> good t = true -> I (dlt t).
  Proof.
    intros Ht G. apply existsb_exists in G. destruct G as (js & _ & G). destruct (Nat.eqb_spec (length js) 4) as [L|]; [|discriminate].
    destruct (walk js t) as [t'|] eqn:E; [|discriminate]. destruct (list_eq_dec Z.eq_dec t' t) as [->|]; [|discriminate].
    destruct (walk_rel js t t Ht E) as (_ & R). rewrite L in R.
    destruct (prime_inv p (256 - lam ^ 4) Pp) as (e & He).
    { intros (k & Hk). apply Hlam. exists (- k). lia. }
    apply (I_unit (256 - lam ^ 4) e); auto. eapply I_cong; [|exact R]. intros u _. apply cong_of_eq. cbv beta. change (Z.of_nat 4) with 4. change (4 ^ 4) with 256.
    replace ((- lam) ^ 4) with (lam ^ 4) by ring. ring.
  Qed.
  Lemma search_I k : forall t, is_tuple 4 13 t -> search k t = true -> I (dlt t).
  Proof.
    induction k as [|k IH]; intros t Ht S; cbn [search] in S; apply orb_true_iff in S; destruct S as [S|S]; try (now apply good_I).
    apply existsb_exists in S. destruct S as (i & _ & S). apply andb_true_iff in S. destruct S as (S1 & S2). apply andb_true_iff in S1. destruct S1 as (S0 & S1).
    apply Nat.ltb_lt in S0. apply Z.leb_le in S1. destruct (rel i t S0 Ht S1) as (T1 & R). specialize (IH _ T1 S2).
    destruct four_inv as (e & He). apply (I_unit 4 e); auto. pose proof (I_lin 1 (- lam) _ _ R IH) as J.
    eapply I_cong; [|exact J]. intros u _. apply cong_of_eq. cbv beta. ring.
  Qed.
  Lemma dw_nd : non_degenerate p 3 4 f.
  Proof.
    intros G. change (I G). assert (X : forall l, (forall t, In t l -> is_tuple 4 13 t) -> I (fun u => sumf (fun t => G t * dlt t u) l)).
    { induction l as [|t l IH]; intros Hl.
      - apply (I_cong (fun u => 0 * dlt [] u)); [|].
        + intros u _. apply cong_of_eq. now rewrite sumf_nil.
        + exists (fun _ _ => 0). intros u _. apply cong_of_eq. rewrite sumf_zero; [lia|]. intros j _. apply sumf_zero. intros; ring.
      - assert (T : is_tuple 4 13 t) by (apply Hl; now left). assert (S : search 4 t = true).
        { pose proof search_all as A. rewrite forallb_forall in A. apply A. apply enum_In; [lia|exact T]. }
        pose proof (I_lin (G t) 1 _ _ (search_I 4 t T S) (IH (fun t' H => Hl t' (or_intror H)))) as J.
        eapply I_cong; [|exact J]. intros u _. apply cong_of_eq. rewrite sumf_cons. cbv beta. ring. }
    specialize (X (enum 4 13)). assert (Y : forall t, In t (enum 4 13) -> is_tuple 4 13 t) by (intros t Ht; apply enum_In in Ht; [exact Ht|lia]).
    eapply I_cong; [|exact (X Y)]. intros u Hu. apply cong_of_eq. symmetry.
    rewrite (sumf_ext _ (fun t => G t * dlt u t)).
    - apply (dlt_pick G); [apply enum_NoDup|]. apply enum_In; [lia|exact Hu].
    - intros t _. unfold dlt. destruct (list_eq_dec Z.eq_dec t u), (list_eq_dec Z.eq_dec u t); subst; try reflexivity; congruence.
  Qed.
End Pencil.

Section Singular.
  Variables (p lam : Z).
  Hypothesis Pp : prime p.
  Hypothesis p3 : 3 <= p.
  Notation f := (dw lam).
  Hypothesis Hlam : (p | lam ^ 4 - 256).

  (** the singular point (1 : 1 : 1 : w) *)
  Lemma sing_point : exists w, cong p (4 + lam * w) 0 /\ cong p (4 * w ^ 3 + lam) 0.
  Proof.
    destruct (four_inv p Pp p3) as (e & He). assert (H4 : cong p (lam ^ 4) 256) by exact Hlam.
    assert (E3 : cong p (4 ^ 3 * e ^ 3) 1). { replace (4 ^ 3 * e ^ 3) with ((4 * e) * ((4 * e) * (4 * e))) by ring. change 1 with (1 * (1 * 1)). repeat apply cong_mul; exact He. }
    assert (W1 : cong p (lam * (- (lam ^ 3 * e ^ 3))) (- 4)).
    { replace (lam * (- (lam ^ 3 * e ^ 3))) with (- (lam ^ 4 * e ^ 3)) by ring. apply (cong_trans _ _ (- (256 * e ^ 3))).
      - destruct H4 as (k & Hk). exists (- k * e ^ 3). replace (lam ^ 4) with (k * p + 256) by lia. ring.
      - destruct E3 as (k & Hk). exists (- 4 * k). replace (256 * e ^ 3) with (4 * (4 ^ 3 * e ^ 3)) by ring. replace (4 ^ 3 * e ^ 3) with (k * p + 1) by lia. ring. }
    exists (- (lam ^ 3 * e ^ 3)). split.
    - destruct W1 as (k & Hk). exists k. lia.
    - (* 4 w^3 = - lam: multiply by lam^3, which is invertible *)
      set (w := - (lam ^ 3 * e ^ 3)) in *.
      assert (C : cong p (lam ^ 3 * (4 * w ^ 3 + lam)) 0).
      { replace (lam ^ 3 * (4 * w ^ 3 + lam)) with (4 * ((lam * w) * ((lam * w) * (lam * w))) + lam ^ 4) by ring.
        apply (cong_trans _ _ (4 * ((-4) * ((-4) * (-4))) + 256)); [|apply cong_of_eq; reflexivity].
        apply cong_add; [|exact H4]. apply cong_mul; [apply cong_refl|]. repeat apply cong_mul; exact W1. }
      destruct C as (k & Hk). rewrite Z.sub_0_r in Hk. assert (D : (p | lam ^ 3 * (4 * w ^ 3 + lam))) by (exists k; lia).
      apply prime_mult in D; auto. destruct D as [D|(m & D)]; [|exists m; lia].
      exfalso. destruct D as (m & D). destruct H4 as (k' & H4). assert (X : (p | 2 ^ 8)). { exists (m * lam - k'). replace (lam ^ 4) with (lam ^ 3 * lam) in H4 by ring. rewrite D in H4. change (2 ^ 8) with 256. nia. }
      assert (N2 : ~ (p | 2)) by (intros N; apply Z.divide_pos_le in N; lia).
      change (2 ^ 8) with (2 * (2 * (2 * (2 * (2 * (2 * (2 * 2))))))) in X. repeat (apply prime_mult in X; [|exact Pp]; destruct X as [X|X]; [contradiction|]). contradiction.
  Qed.

  Lemma coef_dx_dw i s t : (i < 4)%nat -> coef_dx f i s t = 4 * dlt (eminus (eplus s (upd [0; 0; 0; 0] i 4)) i) t + lam * dlt (eminus (eplus s [1; 1; 1; 1]) i) t.
  Proof.
    intros Hi. unfold coef_dx, dw, dlt. rewrite !sumf_cons, sumf_nil. cbn [fst snd].
    destruct i as [|[|[|[|i]]]]; [| | | |lia]; cbn [nth upd]; repeat destruct (list_eq_dec Z.eq_dec _ _); lia.
  Qed.

  Lemma dw_not_smooth : ~ (forall G, in_jacobian p 3 4 f 9 G).
  Proof.
    intros S. destruct sing_point as (w & W1 & W2). destruct (S (dlt [9; 0; 0; 0])) as (h & Hh).
    set (T := enum 4 9). set (x := [1; 1; 1; w]).
    assert (IT : forall t, is_tuple 4 9 t -> In t T) by (intros t Ht; apply enum_In; [lia|exact Ht]).
    assert (E1 : cong p (sumf (fun t => dlt [9; 0; 0; 0] t * mono x t) T)
      (sumf (fun t => sumf (fun i => sumf (fun s => h i s * coef_dx f i s t) (enum 4 (Z.to_nat (9 - (4 - 1))))) (seq 0 4) * mono x t) T)).
    { apply cong_sumf. intros t Ht. apply cong_mul; [|apply cong_refl]. apply Hh. apply enum_In in Ht; [exact Ht|lia]. }
    assert (E2 : sumf (fun t => dlt [9; 0; 0; 0] t * mono x t) T = 1).
    { rewrite (sumf_ext _ (fun t => mono x t * dlt [9; 0; 0; 0] t)) by (intros; ring). rewrite (dlt_pick (mono x)); [reflexivity|apply enum_NoDup|].
      apply IT. apply mk_tuple4; lia. }
    assert (E3 : cong p (sumf (fun t => sumf (fun i => sumf (fun s => h i s * coef_dx f i s t) (enum 4 (Z.to_nat (9 - (4 - 1))))) (seq 0 4) * mono x t) T) 0).
    { change (Z.to_nat (9 - (4 - 1))) with 6%nat.
      rewrite (sumf_ext _ (fun t => sumf (fun i => sumf (fun s => h i s * coef_dx f i s t * mono x t) (enum 4 6)) (seq 0 4))).
      2:{ intros t _. rewrite <- sumf_scal_r. apply sumf_ext. intros i _. now rewrite <- sumf_scal_r. }
      rewrite sumf_swap. apply (cong_trans _ _ (sumf (fun _ => 0) (seq 0 4))); [|apply cong_of_eq; apply sumf_zero; auto]. apply cong_sumf. intros i Hi. apply in_seq in Hi.
      rewrite sumf_swap. apply (cong_trans _ _ (sumf (fun _ => 0) (enum 4 6))); [|apply cong_of_eq; apply sumf_zero; auto]. apply cong_sumf. intros s Hs.
      apply enum_In in Hs; [|lia]. destruct (tuple4 _ _ Hs) as (a & b & c & e & -> & Ha & Hb & Hc & He & Hsum). change (Z.of_nat 6) with 6 in Hsum.
      rewrite (sumf_ext _ (fun t => (h i [a; b; c; e] * 4) * (mono x t * dlt (eminus (eplus [a; b; c; e] (upd [0; 0; 0; 0] i 4)) i) t) +
        (h i [a; b; c; e] * lam) * (mono x t * dlt (eminus (eplus [a; b; c; e] [1; 1; 1; 1]) i) t))).
      2:{ intros t _. rewrite coef_dx_dw by lia. ring. }
      rewrite sumf_plus, !sumf_scal. rewrite !(dlt_pick (mono x)); try apply enum_NoDup; try (apply IT; destruct i as [|[|[|[|i]]]]; [| | | |lia]; cbn [nth upd eplus eminus]; apply mk_tuple4; lia).
      unfold x. generalize (h i [a; b; c; e]). intros hv. destruct i as [|[|[|[|i]]]]; [| | | |lia]; cbn [nth upd eplus eminus mono]; rewrite ?Z.pow_1_l by lia.
      1,2,3: replace (e + 0) with e by lia; rewrite Z.pow_add_r by lia; rewrite Z.pow_1_r;
        apply (cong_trans _ _ (hv * w ^ e * (4 + lam * w))); [apply cong_of_eq; ring|];
        apply (cong_trans _ _ (hv * w ^ e * 0)); [apply cong_mul; [apply cong_refl|exact W1]|apply cong_of_eq; ring].
      replace (e + 4 - 1) with (e + 3) by lia. replace (e + 1 - 1) with e by lia. rewrite Z.pow_add_r by lia.
      apply (cong_trans _ _ (hv * w ^ e * (4 * w ^ 3 + lam))); [apply cong_of_eq; ring|].
      apply (cong_trans _ _ (hv * w ^ e * 0)); [apply cong_mul; [apply cong_refl|exact W2]|apply cong_of_eq; ring]. }
    rewrite E2 in E1. pose proof (cong_trans _ _ _ _ E1 E3) as (k & Hk). assert (D : (p | 1)) by (exists k; lia). apply Z.divide_pos_le in D; lia.
  Qed.
End Singular.

(** without smoothness the assertion on the top degree fails (dr/init.cc 83) *)
Lemma init_singular p prec lu inv n d f tl : prime p -> 1 <= prec -> ech_spec p lu -> inv_spec p inv -> f <> [] -> wf_poly n d f -> Z.of_nat n < d -> 2 <= d ->
  init_tuples n d = OK tl -> ~ (forall G, in_jacobian p n d f ((d - 2) * (Z.of_nat n + 1) + 1) G) ->
  init (padic_solver lu inv p (p ^ prec) prec) (p ^ prec) p prec f = Err EAssert.
Proof.
  intros Pp Hprec HE HI Hf W Hnd H2 Htl NS. rewrite (init_unfold _ (p ^ prec) p prec n d f tl Hf W Htl). pose proof (prime_ge_2 p Pp) as P2.
  destruct (Z.ltb_spec (Z.of_nat n) d) as [_|]; [|lia]. cbn [check bind].
  destruct (Z.eqb_spec p 0) as [|_]; [lia|]. cbn [negb check bind].
  destruct (Z.eqb_spec (Z.rem d p) 0) as [K|K]; [reflexivity|]. cbn [negb check bind].
  assert (Hl : 0 <= (d - 2) * (Z.of_nat n + 1) + 1 <= (Z.of_nat n + 1) * d) by nia.
  destruct (solve_J_qbasis p prec lu inv n d f Pp Hprec HE HI W ltac:(lia) _ (base0 p prec n d f tl W H2 Htl) eq_refl eq_refl eq_refl eq_refl _ Hl) as (B & U & HB & _ & Q).
  rewrite HB. cbn [bind fst].
  destruct (Nat.eqb_spec (length B) 0) as [L|L]; [|reflexivity]. destruct NS.
  intros G. apply (empty_J p n d f W ltac:(lia) ((d - 2) * (Z.of_nat n + 1) + 1) B ltac:(lia) ltac:(nia) Q). destruct B; [reflexivity|discriminate].
Qed.
