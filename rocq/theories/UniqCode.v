(** The functionals exist for every object the constructor returns. *)
From Coq Require Import ZArith List Bool Lia Znumtheory.
From Verif Require Import Base VecModel VecSpec ToolsModel ToolsSpec ToolsProofs MatModel MatProofs DRModel DRSpec DRProofs DRLemmas DRRed DRFinal MpzModel MpzSpec MpzProofs LinAlg
  NDBasis SolveModel SolveSpec SolveProofs SmoothProofs LuInst HilbKoszul HilbPoly HilbTop HilbDim HilbNum HilbInit UniqKoszul UniqFun.
Import ListNotations.
Open Scope Z_scope.

(** position of w in l *)
Fixpoint idx (w : list Z) (l : list (list Z)) : nat :=
  match l with [] => O | x :: l => if list_eq_dec Z.eq_dec x w then O else S (idx w l) end.
Lemma idx_nth l : NoDup l -> forall r, (r < length l)%nat -> idx (nth r l []) l = r.
Proof.
  induction 1 as [|x l Nx ND IH]; intros [|r] H; cbn [length nth idx] in *; try lia.
  - destruct (list_eq_dec _ _ _); [auto|congruence].
  - destruct (list_eq_dec _ x _) as [->|]; [exfalso; apply Nx, nth_In; lia|]. rewrite IH by lia. auto.
Qed.

(** ** spanning sets of the right size are independent *)
Section Dim2.
  Variables (m : nat) (p : Z).
  Hypothesis Pp : prime p.
  Hypothesis Hm : (0 < m)%nat.
  Lemma span_ind S t L L' : good (OpP m) S -> (forall x, S0 p x -> S x) ->
    (forall x, In x L -> Gs m x /\ homog t x) -> (forall c, Gs m c -> homog t c -> exists l, S (fun w => c w - lincomb l L w)) ->
    qbasis m p S t L' -> length L' = length L -> qbasis m p S t L.
  Proof using Pp Hm.
    intros HS H0 QI QS B' EL. split; auto. intros l Hl i Hi.
    destruct (fin_choice (fun _ : nat => 0) (fun i a => S (fun w => nth i L' zfn w - lincomb a L w)) (length L')) as (A & HA).
    { intros j Hj. destruct (qb_in _ _ _ _ _ B' (nth j L' zfn)) as (G1 & G2); [now apply nth_In|]. now apply QS. }
    set (N := length L) in *.
    destruct (kernel_vector p N Pp (N + 1) (fun i j => if Nat.eqb i N then l j else A i j)) as (x & (k & Hk & Nk) & K); [lia|].
    assert (K' : forall j, (j < N)%nat -> cong p (sumf (fun i => x i * A i j) (seq 0 N) + x N * l j) 0).
    { intros j Hj. specialize (K j Hj). rewrite seq_app, sumf_app, Nat.add_0_l in K. cbn [seq] in K. rewrite sumf_cons, sumf_nil, Nat.eqb_refl, Z.add_0_r in K.
      rewrite (sumf_ext _ (fun i => x i * A i j)) in K; auto. intros i' Hi'. apply in_seq in Hi'. destruct (Nat.eqb_spec i' N); [lia|auto]. }
    assert (X0 : forall j, (j < N)%nat -> cong p (x j) 0).
    { intros j Hj. apply (qb_ind _ _ _ _ _ B' x); [|lia]. pose proof (g_sub _ _ HS) as SS.
      assert (T1 : S (lincomb (fun j => sumf (fun i => x i * A i j) (seq 0 N) + x N * l j) L)) by (apply (lin_zero m p Hm S _ L HS H0); intros j' Hj'; apply (K' j' Hj')).
      assert (T2 : S (fun w => sumf (fun i => x i * (nth i L' zfn w - lincomb (A i) L w)) (seq 0 N))).
      { apply (s_sumf S SS (fun i w => x i * (nth i L' zfn w - lincomb (A i) L w))). intros i' Hi'. apply in_seq in Hi'.
        apply (s_scal S SS (x i') (fun w => nth i' L' zfn w - lincomb (A i') L w)). apply HA. lia. }
      pose proof (s_scal S SS (x N) _ Hl) as T3.
      eapply (s_ext S SS); [|apply (s_sub S SS _ _ (s_add S SS _ _ T1 T2) T3)]. intros w. cbv beta. unfold lincomb. fold N.
      rewrite (sumf_ext (fun i0 => (sumf (fun i1 => x i1 * A i1 i0) (seq 0 N) + x N * l i0) * nth i0 L zfn w)
        (fun i0 => sumf (fun i1 => x i1 * (A i1 i0 * nth i0 L zfn w)) (seq 0 N) + x N * (l i0 * nth i0 L zfn w))).
      2:{ intros i0 _. rewrite Z.mul_add_distr_r, <- sumf_scal_r. f_equal; [apply sumf_ext; intros; ring|ring]. }
      rewrite sumf_plus, sumf_scal. rewrite (sumf_swap (fun i0 i1 => x i1 * (A i1 i0 * nth i0 L zfn w))).
      rewrite EL. rewrite (sumf_ext (fun i0 => x i0 * (nth i0 L' zfn w - _)) (fun i0 => x i0 * nth i0 L' zfn w + -1 * (x i0 * sumf (fun i1 => A i0 i1 * nth i1 L zfn w) (seq 0 N)))) by (intros; ring).
      rewrite sumf_plus, sumf_scal. rewrite (sumf_ext (fun y => sumf (fun i0 => x y * (A y i0 * nth i0 L zfn w)) (seq 0 N)) (fun y => x y * sumf (fun i1 => A y i1 * nth i1 L zfn w) (seq 0 N))) by (intros; now rewrite sumf_scal).
      lia. }
    assert (k = N) as ->. { destruct (Nat.lt_ge_cases k N) as [C|C]; [exfalso; apply Nk; auto|lia]. }
    specialize (K' i Hi). assert (K2 : cong p (x N * l i) 0).
    { replace (x N * l i) with (sumf (fun i0 => x i0 * A i0 i) (seq 0 N) + x N * l i - sumf (fun i0 => x i0 * A i0 i) (seq 0 N)) by lia.
      replace 0 with (0 - 0) by lia. apply cong_sub; auto. replace 0 with (sumf (fun _ : nat => 0) (seq 0 N)) by (now apply sumf_zero). apply cong_sumf.
      intros j Hj. apply in_seq in Hj. replace 0 with (0 * A j i) by lia. apply cong_mul; [apply X0; lia|apply cong_refl]. }
    destruct K2 as (z & Hz). rewrite Z.sub_0_r in Hz. destruct (prime_mult p Pp (x N) (l i)) as [X|X]; [exists z; exact Hz| |].
    - exfalso. apply Nk. destruct X as (y & Hy). exists y. lia.
    - destruct X as (y & Hy). exists y. lia.
  Qed.
End Dim2.

(** ** what a solution of the system says *)
Section Dec.
  Variables (n : nat) (d q : Z) (f : poly) (t : Z).
  Hypothesis W : wf_poly n d f.
  Let m := S n.
  Notation rows := (mons m t).
  Notation lo := (mons m (t - (d - 1))).
  Notation nc := (m * length lo)%nat.
  Variables (T : mat) (B : list nat) (U : mat).
  Hypothesis HT : forall r i j, (r < length rows)%nat -> (i <= n)%nat -> (j < length lo)%nat ->
    cong q (mget T r (i * length lo + j)) (coef_dx f i (nth j lo []) (nth r rows [])).
  Hypothesis HS : solves q (length rows) nc (mget T) B (mget U).

  Definition dec_h (w : list Z) (i : nat) (s : list Z) : Z :=
    if in_dec (list_eq_dec Z.eq_dec) s lo then mget U (i * length lo + idx s lo) (idx w rows) else 0.
  Definition dec_c (w : list Z) (k : nat) : Z := mget U (nc + k) (idx w rows).
  Definition dec_b : list (list Z) := map (fun b => nth b rows []) B.

  Lemma dec_vform w : vform n (t - (d - 1)) (dec_h w).
  Proof.
    intros i Hi. split; intros s; unfold dec_h; destruct (in_dec _ _ _) as [I|]; try congruence; apply mons_In in I; try (unfold m; lia); destruct I as (A1 & A2 & A3); tauto.
  Qed.
  Lemma dec_b_tuple b : In b dec_b -> is_tuple m t b.
  Proof.
    intros Hb. apply in_map_iff in Hb. destruct Hb as (k & <- & Hk). apply mons_In; [unfold m; lia|]. apply nth_In. now apply HS.
  Qed.
  Lemma dec_b_NoDup : NoDup dec_b.
  Proof.
    apply NoDup_map_on.
    - apply strict_inc_NoDup. apply HS.
    - intros x y Hx Hy E. apply (proj1 (NoDup_nth rows []) (mons_NoDup m t)); auto; now apply HS.
  Qed.

  Lemma dec_span w v : is_tuple m t w -> cong q (dmon w v) (Fsum n f (dec_h w) v + lincomb (dec_c w) (map dmon dec_b) v).
  Proof using W HT HS.
    intros Hw. assert (M0 : (0 < m)%nat) by (unfold m; lia).
    assert (QI : forall x, In x (map dmon dec_b) -> Gs m x /\ homog t x).
    { intros x Hx. apply in_map_iff in Hx. destruct Hx as (b & <- & Hb). apply (dmon_G n). now apply dec_b_tuple. }
    destruct (lincomb_G m M0 (dec_c w) (map dmon dec_b) t QI) as (GL & HL).
    destruct (Fsum_form n d f W t (dec_h w) (dec_vform w)) as (GF & HF). fold m in GF.
    destruct (in_dec (list_eq_dec Z.eq_dec) v rows) as [Iv|Nv].
    2:{ assert (NT : ~ is_tuple m t v) by (intros X; apply Nv; apply mons_In; auto).
        assert (Z0 : forall x : list Z -> Z, Gs m x -> homog t x -> x v = 0).
        { intros x G1 H1. destruct (Z.eq_dec (x v) 0) as [|Nx]; auto. exfalso. apply NT. destruct (G1 v Nx). split; [|split]; auto.
          destruct (Z.eq_dec (zsum v) t); auto. exfalso. auto. }
        rewrite (Z0 _ GF HF), (Z0 _ GL HL). unfold dmon. destruct (list_eq_dec _ _ _) as [->|]; [contradiction|apply cong_refl]. }
    apply (mons_In m t w M0) in Hw. destruct (In_nth _ _ [] Hw) as (c & Hc & <-). destruct (In_nth _ _ [] Iv) as (r & Hr & <-).
    pose proof (mons_NoDup m t) as NR. pose proof (mons_NoDup m (t - (d - 1))) as NL.
    assert (Tr : is_tuple m t (nth r rows [])) by (apply mons_In; auto).
    destruct HS as (S1 & S2 & S3). specialize (S3 r c Hr Hc).
    assert (E1 : dmon (nth c rows []) (nth r rows []) = if Nat.eqb r c then 1 else 0).
    { unfold dmon. destruct (list_eq_dec _ _ _) as [E|N], (Nat.eqb_spec r c) as [->|N']; auto; [|congruence].
      exfalso. apply N'. now apply (proj1 (NoDup_nth rows []) NR). }
    rewrite E1. eapply cong_trans; [apply cong_sym, S3|]. apply cong_add.
    - unfold Fsum. fold m. rewrite seq_blocks. apply cong_sumf. intros i Hi. apply in_seq in Hi. unfold Fx.
      assert (FJ : form m (d - 1) (dxP f i)).
      { pose proof (Js_forms n d f W) as JF. rewrite Forall_forall in JF. apply JF. unfold Js. apply in_map. apply in_seq. lia. }
      destruct (dec_vform (nth c rows []) i ltac:(unfold m in Hi; lia)) as (V1 & V2).
      rewrite (act_coef m (d - 1) M0 (dxP f i) (t - (d - 1)) _ _ FJ V1 V2) by apply Tr.
      rewrite (sumf_nth _ lo []). apply cong_sumf. intros j Hj. apply in_seq in Hj. rewrite coefP_dx.
      unfold dec_h. destruct (in_dec _ _ _) as [_|N]; [|exfalso; apply N, nth_In; lia].
      rewrite !idx_nth by (auto; lia). rewrite Z.mul_comm. apply cong_mul; [apply cong_refl|]. apply HT; unfold m in *; lia.
    - apply cong_of_eq. unfold lincomb. assert (LB : length dec_b = length B) by (unfold dec_b; apply map_length). rewrite map_length, LB. apply sumf_ext. intros k Hk. apply in_seq in Hk.
      assert (Hk' : (k < length dec_b)%nat) by (unfold dec_b; rewrite map_length; lia).
      rewrite (nth_indep _ zfn (dmon [])) by (rewrite map_length; auto). rewrite map_nth. unfold dec_b.
      rewrite (nth_indep (map (fun b => nth b rows []) B) [] (nth 0 rows [])) by (rewrite map_length; lia). rewrite (map_nth (fun b => nth b rows [])).
      unfold dec_c. rewrite idx_nth by auto. unfold dmon.
      assert (Hb : (nth k B O < length rows)%nat) by (apply S2, nth_In; lia).
      destruct (Nat.eqb_spec (nth k B O) r) as [E|N], (list_eq_dec Z.eq_dec (nth r rows []) (nth (nth k B O) rows [])) as [E'|N']; try lia.
      + exfalso. apply N'. now rewrite E.
      + exfalso. apply N. symmetry. now apply (proj1 (NoDup_nth rows []) NR).
  Qed.

  (** every form of degree t is a combination of the basis modulo the ideal *)
  Lemma dec_qspan p : (p | q) -> forall c, Gs m c -> homog t c -> exists l, ideal m p (Js n f) (fun w => c w - lincomb l (map dmon dec_b) w).
  Proof using W HT HS.
    intros Hp c Gc Hc. exists (fun i => sumf (fun w => c w * dec_c w i) rows).
    apply (ideal_chain m p (d - 1) _ (Js_forms n d f W)).
    set (A := fun i v => if Nat.ltb i m then sumf (fun w => c w * dec_h w i v) rows else 0).
    assert (VA : vform n (t - (d - 1)) (fun i v => sumf (fun w => c w * dec_h w i v) rows)) by (apply vform_sum; intros; apply dec_vform).
    exists (mk1 A). split; [|split; [apply mk1_hdeg|]].
    - intros J. apply mk1_in; [apply (s_0 _ (Gs_sub m))|]. intros i _. unfold A. destruct (Nat.ltb_spec i m) as [H|H]; [|apply (s_0 _ (Gs_sub m))].
      apply VA. exact H.
    - rewrite Js_length, <- (Fs_acts n f). intros v. rewrite (Fsum_first n f).
      rewrite (Fsum_ext n f _ (fun i v => sumf (fun w => c w * dec_h w i v) rows)).
      2:{ intros i v' Hi. rewrite mk1_one by auto. unfold A. destruct (Nat.ltb_spec i m); [auto|unfold m in *; lia]. }
      rewrite Fsum_sum, lincomb_sum. rewrite (expand n t c Gc Hc v) at 1. fold m.
      apply (cong_divide q); auto.
      apply cong_trans with (sumf (fun w => c w * (Fsum n f (dec_h w) v + lincomb (dec_c w) (map dmon dec_b) v)) rows - sumf (fun w => c w * lincomb (dec_c w) (map dmon dec_b) v) rows - sumf (fun w => c w * Fsum n f (dec_h w) v) rows).
      + apply cong_sub; [|apply cong_refl]. apply cong_sub; [|apply cong_refl]. apply cong_sumf. intros w Hw. apply cong_mul; [apply cong_refl|].
        apply dec_span. apply mons_In in Hw; [auto|unfold m; lia].
      + apply cong_of_eq. rewrite (sumf_ext _ (fun w => c w * Fsum n f (dec_h w) v + c w * lincomb (dec_c w) (map dmon dec_b) v)) by (intros; ring).
        rewrite sumf_plus. lia.
  Qed.
End Dec.

(** ** the object *)
Section Obj.
  Variables (p prec : Z) (slv : solver) (D : dR).
  Notation n := (r_n D).
  Notation d := (r_d D).
  Notation f := (r_f D).
  Notation q := (p ^ prec).
  Notation m := (S n).
  Hypothesis Pp : prime p.
  Hypothesis Hprec : 1 <= prec.
  Hypothesis inv : dr_inv slv D.
  Hypothesis Eq : r_q D = q.
  Hypothesis Hslv : solver_ok q slv.
  Hypothesis Hn : (1 <= n)%nat.

  Lemma o_W : wf_poly n d f.
  Proof using inv Eq Hslv Hn Hprec Pp. split; [apply (inv_f _ _ inv)|apply (inv_h _ _ inv)]. Qed.
  Lemma o_d : 2 <= d.
  Proof using inv Eq Hslv Hn Hprec Pp. pose proof (inv_nd _ _ inv). lia. Qed.
  Lemma o_base : dr_base D.
  Proof using inv Eq Hslv Hn Hprec Pp. pose proof o_d. constructor; [lia|apply (inv_f _ _ inv)|apply (inv_h _ _ inv)|apply (inv_tl _ _ inv)|apply (inv_td _ _ inv)]. Qed.
  Lemma o_pq : (p | q).
  Proof using inv Eq Hslv Hn Hprec Pp. exists (p ^ (prec - 1)). replace prec with (prec - 1 + 1) at 1 by lia. rewrite Z.pow_add_r by lia. now rewrite Z.pow_1_r. Qed.

  (** the solution of degree l of the object *)
  Lemma o_solve l B U : 0 <= l <= (Z.of_nat n + 1) * d -> get_solve_J slv D l = OK (B, U) ->
    exists T, (forall r i j, (r < length (mons m l))%nat -> (i <= n)%nat -> (j < length (mons m (l - (d - 1))))%nat ->
        cong q (mget T r (i * length (mons m (l - (d - 1))) + j)) (coef_dx f i (nth j (mons m (l - (d - 1))) []) (nth r (mons m l) []))) /\
      solves q (length (mons m l)) (m * length (mons m (l - (d - 1)))) (mget T) B (mget U).
  Proof using inv Eq Hslv Hn Hprec Pp.
    intros Hl H. pose proof o_d as D2. pose proof o_base as base. unfold get_solve_J in H. destruct (Z_lt_le_dec l (d - 1)) as [Low|Hi].
    - assert (M : matrix_J D l = OK (0%nat, mzero (length (mons m l)) 0)).
      { unfold matrix_J. rewrite (base_tl D base) by lia. cbn [bind]. rewrite <- (mons_enum n l) by lia. 
        destruct (Z.ltb_spec l (d - 1)); [reflexivity|lia]. }
      rewrite M in H. cbn [bind fst snd] in H.
      assert (L0 : mons m (l - (d - 1)) = []) by (unfold mons; destruct (Z.ltb_spec (l - (d - 1)) 0); [reflexivity|lia]).
      rewrite L0. cbn [length]. rewrite Nat.mul_0_r. exists (mzero (length (mons m l)) 0). split; [intros; lia|].
      exact (proj1 (Hslv _ _ _ _ _ (shape_mzero _ _) H)).
    - destruct (matrix_J_entry_b D base l) as (ts & ss & T & G1 & G2 & MJ & SH & MT); [lia|].
      rewrite (base_tl D base) in G1, G2 by nia. apply (f_equal (fun r => match r with OK x => x | Err _ => [] end)) in G1, G2. cbv beta iota in G1, G2. subst ts ss.
      rewrite Eq in MT. rewrite <- !(mons_enum n) in * by lia. rewrite MJ in H. cbn [bind fst snd] in H.
      exists T. split; auto. exact (proj1 (Hslv _ _ _ _ _ SH H)).
  Qed.

  Lemma o_vanish : vanishH m p (d - 1) (Js n f).
  Proof using inv Eq Hslv Hn Hprec Pp.
    pose proof o_d as D2. pose proof o_W as W. destruct (inv_top _ _ inv) as (U & HU).
    assert (Hl : 0 <= deg_top D <= (Z.of_nat n + 1) * d) by (unfold deg_top; nia).
    destruct (o_solve _ _ _ Hl HU) as (T & HT & HS).
    apply (koszul_exact m p (d - 1) (deg_top D) (Js n f)); [lia|lia|unfold deg_top; nia|apply Js_forms; auto|apply Js_length|].
    intros alpha Ha. exists (fun i s => dec_h n d (deg_top D) U alpha i s). intros t Ht. rewrite Js_length.
    pose proof (dec_span n d q f (deg_top D) W T [] U HT HS alpha t Ha) as E.
    apply (cong_divide q); [apply o_pq|]. eapply cong_trans; [|eapply cong_trans; [apply E|]].
    - apply cong_of_eq. reflexivity.
    - apply cong_of_eq. change (lincomb (dec_c n d (deg_top D) U alpha) (map dmon (dec_b n (deg_top D) [])) t) with 0. rewrite Z.add_0_r. unfold Fsum. apply sumf_ext. intros i Hi. apply in_seq in Hi.
      rewrite Js_nth by lia. unfold Fx.
      assert (FJ : form m (d - 1) (dxP f i)).
      { pose proof (Js_forms n d f W) as JF. rewrite Forall_forall in JF. apply JF. unfold Js. apply in_map. apply in_seq. lia. }
      destruct (dec_vform n d (deg_top D) U alpha i ltac:(lia)) as (V1 & V2).
      apply (act_coef m (d - 1) ltac:(lia) (dxP f i) (deg_top D - (d - 1)) _ _ FJ V1 V2). apply Ht.
  Qed.

  (** ** decompositions for all pole orders *)
  Definition sol (k : nat) : res (list nat * mat) :=
    let t := dg n d k in
    if Nat.leb k n then get_solve_J slv D t
    else
      let lo := mons m (t - (d - 1)) in
      padic_solver lu_inst inv_inst p q prec (m * length lo)%nat
        (tab (length (mons m t)) (m * length lo) (fun r c => coef_dx f (c / length lo) (nth (c mod length lo) lo []) (nth r (mons m t) []))).
  Definition solB (k : nat) : list nat := match sol k with OK (B, _) => B | Err _ => [] end.
  Definition solU (k : nat) : mat := match sol k with OK (_, U) => U | Err _ => [] end.
  Definition bsk (k : nat) : list (list Z) := dec_b n (dg n d k) (solB k).

  Lemma dg_pos k : (1 <= k)%nat -> 0 <= dg n d k.
  Proof using inv Eq Hslv Hn Hprec Pp. intros H. pose proof (inv_nd _ _ inv). unfold dg. nia. Qed.

  Lemma level_solve k : (1 <= k <= n)%nat -> exists B U, get_solve_J slv D (dg n d k) = OK (B, U) /\ zlen B = znth (hilbert_J n d) (dg n d k) /\
    forall b, In b (dec_b n (dg n d k) B) <-> (In b (r_basis D) /\ pole_of n d b = Z.of_nat k).
  Proof using inv Eq Hslv Hn Hprec Pp.
    intros Hk. pose proof o_d as D2. assert (Q2 : 2 <= r_q D).
    { rewrite Eq. pose proof (prime_ge_2 p Pp). apply Z.le_trans with (p ^ 1); [lia|]. apply Z.pow_le_mono_r; lia. }
    assert (Hs : solver_ok (r_q D) slv) by (now rewrite Eq).
    destruct (basis_levels slv D inv) as (bs & F & EB). set (i := Z.of_nat k - 1).
    assert (El : lev D i = dg n d k) by (unfold lev, dg, i; lia).
    destruct (Forall2_nth_error _ _ _ (k - 1)%nat i F) as (b & Hb & Hi).
    { unfold zseq. rewrite zrange_nth_error by lia. f_equal. unfold i; lia. }
    assert (Hi2 := Hi). unfold init_basis_level in Hi2. fold (lev D i) in Hi2. apply bind_ok in Hi2. destruct Hi2 as ([B U] & H1 & H2). cbn [fst snd] in H2.
    apply bind_ok in H2. destruct H2 as (h & H3 & H2). apply bind_ok in H2. destruct H2 as ([] & H4 & _).
    exists B, U. rewrite El in *. split; auto. split.
    - apply get_at_ok in H3. destruct H3 as (H3 & H3'). unfold check in H4. destruct (Z.eqb_spec h (zlen B)) as [<-|]; [|discriminate]. unfold znth.
      destruct (Z.ltb_spec (dg n d k) 0); [lia|]. symmetry. now apply nth_error_nth.
    - assert (Hi0 : 0 <= i < Z.of_nat n) by (unfold i; lia).
      destruct (level_ok slv D inv Hs i b Hi0 Hi) as (nc & T & B' & U' & _ & _ & G1 & S1 & _ & Eb). rewrite El in *. rewrite H1 in G1. injection G1 as <- <-.
      assert (Ebb : dec_b n (dg n d k) B = b) by (rewrite Eb; unfold dec_b; rewrite (mons_enum n) by (apply dg_pos; lia); reflexivity).
      rewrite Ebb. intros x. split.
      + intros Hx. split.
        * rewrite EB. apply in_concat. exists b. split; auto. eapply nth_error_In; eauto.
        * rewrite (pole_lev slv D inv i x Hi0); [unfold i; lia|]. rewrite Eb in Hx. eapply level_elem; eauto. rewrite El. exact S1. rewrite El. exact Hx.
      + intros (Hx & Px). rewrite EB in Hx. apply in_concat in Hx. destruct Hx as (l & Hl & Hx).
        destruct (In_nth_error _ _ Hl) as (j & Hj).
        assert (Lj : (j < n)%nat).
        { apply Forall2_len in F. rewrite zseq_length in F. assert (j < length bs)%nat by (apply nth_error_Some; congruence). lia. }
        assert (Hj' : init_basis_level slv D (hilbert_J n d) (Z.of_nat j) = OK l).
        { destruct (Forall2_nth_error _ _ _ j (Z.of_nat j) F) as (l' & Hl' & Hj').
          - unfold zseq. rewrite zrange_nth_error by lia. f_equal.
          - congruence. }
        assert (Hj0 : 0 <= Z.of_nat j < Z.of_nat n) by lia.
        destruct (level_ok slv D inv Hs (Z.of_nat j) l Hj0 Hj') as (nc2 & T2 & B2 & U2 & _ & _ & _ & S2 & _ & El2).
        assert (Px' : pole_of n d x = Z.of_nat j + 1).
        { apply (pole_lev slv D inv _ x Hj0). rewrite El2 in Hx. eapply level_elem; eauto. }
        assert (j = (k - 1)%nat) by lia. subst j. congruence.
  Qed.

  Lemma sol_ok k : (1 <= k)%nat -> exists B U, sol k = OK (B, U) /\
    (exists T, (forall r i j, (r < length (mons m (dg n d k)))%nat -> (i <= n)%nat -> (j < length (mons m (dg n d k - (d - 1))))%nat ->
        cong q (mget T r (i * length (mons m (dg n d k - (d - 1))) + j)) (coef_dx f i (nth j (mons m (dg n d k - (d - 1))) []) (nth r (mons m (dg n d k)) []))) /\
      solves q (length (mons m (dg n d k))) (m * length (mons m (dg n d k - (d - 1)))) (mget T) B (mget U)) /\
    zlen B = hs m (d - 1) m (dg n d k).
  Proof using inv Eq Hslv Hn Hprec Pp.
    intros Hk. pose proof o_d as D2. pose proof o_W as W. pose proof (dg_pos k Hk) as T0. pose proof (prime_ge_2 p Pp) as P2.
    unfold sol. cbv zeta. destruct (Nat.leb_spec k n) as [L|L].
    - destruct (level_solve k ltac:(lia)) as (B & U & H1 & H2 & _). exists B, U. split; auto. split.
      + apply o_solve; auto. split; auto. unfold dg. nia.
      + rewrite H2. unfold hilbert_J. rewrite <- hs_hilbert by lia. now rewrite Z2Nat.id by lia.
    - set (t := dg n d k) in *. set (lo := mons m (t - (d - 1))). set (nc := (m * length lo)%nat).
      set (T := tab (length (mons m t)) nc _).
      destruct (solve_padic_ok p prec lu_inst inv_inst Pp Hprec (lu_inst_spec p Pp) (inv_inst_ok p Pp) true [] _ nc T (tab_shape _ _ _) (fun _ => eq_refl)) as (B & U & E & (U' & E') & S & _).
      assert (HT : forall r i j, (r < length (mons m t))%nat -> (i <= n)%nat -> (j < length lo)%nat -> mget T r (i * length lo + j) = coef_dx f i (nth j lo []) (nth r (mons m t) [])).
      { intros r i j Hr Hi Hj. unfold T. rewrite tab_get; auto; [|unfold nc; nia].
        rewrite Nat.div_add_l by lia. rewrite Nat.div_small, Nat.add_0_r by lia.
        rewrite (Nat.add_comm (i * length lo) j), Nat.mod_add, Nat.mod_small by lia. reflexivity. }
      exists B, U. split; [exact E|]. split; [exists T; split; auto; intros; apply cong_of_eq; auto|].
      destruct (solve_zz_p_ok p lu_inst inv_inst true (reduce_mat p T) _ nc Pp (lu_inst_spec p Pp) (inv_inst_ok p Pp) (reduce_mat_shape p T _ _ (tab_shape _ _ _)) (reduce_mat_reduced p T ltac:(lia))) as (B2 & U2 & E2 & S2 & _ & _ & I2).
      rewrite E2 in E'. injection E' as -> ->.
      assert (Q : qbasis m p (ideal m p (Js n f)) t (map (fun b => dmon (nth b (mons m t) [])) B)).
      { pose proof (solver_basis m p (d - 1) ltac:(lia) (Js n f) t (reduce_mat p T) B U' (Js_forms n d f W)) as SB. cbv zeta in SB. rewrite Js_length in SB. fold lo nc in SB.
        apply SB; auto. intros r i j Hr Hi Hj. rewrite reduce_mat_get. eapply cong_trans; [apply cong_mod_any|]. apply cong_of_eq. rewrite HT by lia. rewrite Js_nth by lia. now rewrite coefP_dx. }
      pose proof (qbasis_size m p (d - 1) Pp ltac:(lia) ltac:(lia) (Js n f) (Js_forms n d f W) o_vanish t _ Q) as SZ.
      unfold zlen in *. rewrite map_length in SZ. rewrite SZ. now rewrite Js_length.
  Qed.

  Lemma bsk_basis k : qbasis m p (ideal m p (Js n f)) (dg n d (S k)) (map dmon (bsk (S k))).
  Proof using inv Eq Hslv Hn Hprec Pp.
    pose proof o_d as D2. pose proof o_W as W.
    destruct (sol_ok (S k) ltac:(lia)) as (B & U & E & (T & HT & HS) & SZ). unfold bsk, solB. rewrite E. set (t := dg n d (S k)) in *.
    destruct (qbasis_exists m p (d - 1) Pp ltac:(lia) (Js n f) t (Js_forms n d f W)) as (L & QL).
    pose proof (qbasis_size m p (d - 1) Pp ltac:(lia) ltac:(lia) (Js n f) (Js_forms n d f W) o_vanish t L QL) as SL. rewrite Js_length in SL.
    apply (span_ind m p Pp ltac:(lia) _ _ _ L); auto.
    - apply (ideal_good m p (d - 1)). now apply Js_forms.
    - apply (ideal_S0 m p (d - 1)). now apply Js_forms.
    - intros x Hx. apply in_map_iff in Hx. destruct Hx as (b & <- & Hb). apply (dmon_G n). eapply dec_b_tuple; eauto.
    - eapply dec_qspan; eauto. apply o_pq.
    - unfold zlen in *. rewrite map_length. unfold dec_b. rewrite map_length. lia.
  Qed.

  Theorem functional psi : exists phi, GD q n d f phi /\ basis_val q n d (r_basis D) phi psi.
  Proof using inv Eq Hslv Hn Hprec Pp.
    pose proof o_d as D2. pose proof o_W as W.
    set (ps := fun (k : nat) b => zfact (Z.of_nat k - 1) * psi b).
    set (hA := fun k w => dec_h n d (dg n d k) (solU k) w). set (cc := fun k w => dec_c n d (dg n d k) (solU k) w).
    assert (Ee : p ^ Z.of_nat (Z.to_nat prec) = q) by (rewrite Z2Nat.id by lia; auto).
    assert (HhA : forall k w, is_tuple m (dg n d (S k)) w -> vform n (dg n d (S k) - (d - 1)) (hA (S k) w)) by (intros; apply dec_vform).
    assert (Hspan : forall k w v, is_tuple m (dg n d (S k)) w -> cong (p ^ Z.of_nat (Z.to_nat prec)) (dmon w v) (Fsum n f (hA (S k) w) v + lincomb (cc (S k) w) (map dmon (bsk (S k))) v)).
    { intros k w v Hw. rewrite Ee. destruct (sol_ok (S k) ltac:(lia)) as (B & U & E & (T & HT & HS) & _). unfold bsk, hA, cc, solU, solB. rewrite E. eapply dec_span; eauto. }
    exists (phiZ n d bsk hA cc ps). split.
    - rewrite <- Ee. apply (phi_GD n d p (Z.to_nat prec) f W D2 Pp o_vanish bsk hA cc bsk_basis HhA Hspan ps).
    - intros b Hb. assert (Hs : solver_ok (r_q D) slv) by (now rewrite Eq).
      destruct (basis_elem slv D inv Hs b Hb) as (i & Hi & Ti). pose proof (pole_lev slv D inv i b Hi Ti) as Pi.
      set (k := Z.to_nat i). assert (Ek : pole_of n d b = Z.of_nat (S k)) by (unfold k; lia).
      destruct (level_solve (S k) ltac:(unfold k; lia)) as (B & U & H1 & _ & HB).
      assert (EB : bsk (S k) = dec_b n (dg n d (S k)) B).
      { unfold bsk, solB, sol. cbv zeta. destruct (Nat.leb_spec (S k) n); [|unfold k in *; lia]. now rewrite H1. }
      unfold phiZ. rewrite Ek, Nat2Z.id. change (zfact (Z.of_nat (S k) - 1) * psi b) with (ps (S k) b). rewrite <- Ee.
      apply (phin_basis n d p (Z.to_nat prec) f W D2 Pp o_vanish bsk hA cc bsk_basis HhA Hspan ps).
      + rewrite EB. destruct (sol_ok (S k) ltac:(lia)) as (B' & U' & E & (T & HT & HS) & _). unfold sol in E. cbv zeta in E. destruct (Nat.leb_spec (S k) n); [|unfold k in *; lia].
        rewrite H1 in E. injection E as <- <-. eapply dec_b_NoDup; eauto.
      + rewrite EB. apply HB. auto.
  Qed.

  (** coordinates are determined by the functionals *)
  Theorem coords_unique F F' : length F = length (r_basis D) -> length F' = length (r_basis D) ->
    (forall phi psi, GD q n d f phi -> basis_val q n d (r_basis D) phi psi -> cong q (ev_basis psi (r_basis D) F) (ev_basis psi (r_basis D) F')) ->
    vcong q F F'.
  Proof using inv Eq Hslv Hn Hprec Pp.
    intros L1 L2 H. split; [congruence|]. intros i Hi. rewrite L1 in Hi.
    assert (Hs : solver_ok (r_q D) slv) by (now rewrite Eq). pose proof (basis_NoDup slv D inv Hs) as ND.
    set (psi := dmon (nth i (r_basis D) [])). destruct (functional psi) as (phi & H1 & H2). specialize (H phi psi H1 H2).
    assert (E : forall F, ev_basis psi (r_basis D) F = nth i F 0).
    { intros G. unfold ev_basis. rewrite (sumf_seq_single _ 0 _ i); [|lia|].
      - unfold psi, dmon. destruct (list_eq_dec _ _ _); [lia|congruence].
      - intros j Hj Nj. unfold psi, dmon. destruct (list_eq_dec _ _ _) as [E|]; [|lia]. exfalso. apply Nj. apply (proj1 (NoDup_nth (r_basis D) []) ND); auto. lia. }
    now rewrite !E in H.
  Qed.
End Obj.
