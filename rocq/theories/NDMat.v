(** Proofs: the logarithmic relation matrix. *)
From Coq Require Import ZArith List Lia Bool.
From Verif Require Import Base VecModel VecSpec VecProofs ToolsModel ToolsSpec ToolsProofs PolyProofs
  MatModel MatProofs DRModel DRSpec DRProofs DRRed NDModel NDSpec.
Import ListNotations.
Open Scope Z_scope.

Section MATND.
  Variable D : dR.
  Hypothesis inv : dr_base D.
  Let n := r_n D.
  Let d := r_d D.
  Let q := r_q D.
  Let f := r_f D.
  Notation E l := (enum (S n) (Z.to_nat l)).

  Variable l : Z.
  Hypothesis Hl : d <= l <= (Z.of_nat n + 1) * d.

  Let lo := E (l - d).
  Let rows := E l.
  Let nc := (S n * length lo)%nat.

  Let triples := flat_map (fun i => flat_map (fun j => map (fun t => ((i, j), t)) f)
        (seq 0 (length lo))) (seq 0 (S n)).

  Let up (ijt : (nat * nat) * (vec * Z)) : nat * nat * Z :=
    let i := fst (fst ijt) in let j := snd (fst ijt) in
    let a := fst (snd ijt) in let c := snd (snd ijt) in
    (pos n (Z.to_nat l) (vadd a (nth j lo [])), (i * length lo + j)%nat, (nth i a 0 * c) mod q).

  Lemma ntriples_In i j a c : In ((i, j), (a, c)) triples <->
    (i <= n)%nat /\ (j < length lo)%nat /\ In (a, c) f.
  Proof.
    unfold triples. rewrite in_flat_map. split.
    - intros (i' & Hi & H). apply in_flat_map in H. destruct H as (j' & Hj & H).
      apply in_map_iff in H. destruct H as (t & E & H). injection E as <- <- ->.
      apply in_seq in Hi, Hj. repeat split; auto; lia.
    - intros (Hi & Hj & H1). exists i. split; [apply in_seq; lia|]. apply in_flat_map.
      exists j. split; [apply in_seq; lia|]. apply in_map_iff. exists (a, c). split; auto.
  Qed.

  Lemma nlo_tuple j : (j < length lo)%nat -> is_tuple (S n) (l - d) (nth j lo []).
  Proof. intros Hj. apply enum_tuple; [lia|]. now apply nth_In. Qed.

  Lemma nkey_ok i j a c : In ((i, j), (a, c)) triples ->
    is_tuple (S n) (Z.of_nat (Z.to_nat l)) (vadd a (nth j lo [])) /\
    vadd a (nth j lo []) = eplus (nth j lo []) a.
  Proof.
    intros H. apply ntriples_In in H. destruct H as (H1 & H2 & H3).
    pose proof (base_d _ inv). fold d in H.
    pose proof (base_h _ inv _ _ H3) as T. fold n d in T. pose proof (nlo_tuple _ H2) as TL.
    rewrite Z2Nat.id by lia. split.
    - replace l with (d + (l - d)) by lia. now apply tuple_vadd.
    - rewrite eplus_vadd. apply vadd_comm. destruct T as [-> _], TL as [-> _]. reflexivity.
  Qed.

  Lemma ntriples_NoDup : NoDup triples.
  Proof.
    unfold triples. apply NoDup_flat_map_on; [apply seq_NoDup| |].
    - intros i _. apply NoDup_flat_map_on; [apply seq_NoDup| |].
      + intros j _. apply NoDup_map_on.
        * eapply vsorted_NoDup_list, (base_f _ inv).
        * intros x y _ _ H. congruence.
      + intros j j' b _ _ H1 H2. apply in_map_iff in H1, H2.
        destruct H1 as (t & <- & _), H2 as (t' & H2 & _). congruence.
    - intros i i' b _ _ H1 H2. apply in_flat_map in H1, H2.
      destruct H1 as (j & _ & H1), H2 as (j' & _ & H2). apply in_map_iff in H1, H2.
      destruct H1 as (t & <- & _), H2 as (t' & H2 & _). congruence.
  Qed.

  Lemma nups_positions_NoDup : NoDup (map fst (map up triples)).
  Proof.
    rewrite map_map. apply NoDup_map_on; [apply ntriples_NoDup|].
    intros [[i j] [a c]] [[i' j'] [a' c']] Hx Hy H.
    pose proof (nkey_ok _ _ _ _ Hx) as [K1 K2]. pose proof (nkey_ok _ _ _ _ Hy) as [K1' K2'].
    apply ntriples_In in Hx, Hy. destruct Hx as (X1 & X2 & X3), Hy as (Y1 & Y2 & Y3).
    unfold up in H. cbn [fst snd] in H. injection H as H1 H2.
    destruct (divmod_inj _ _ _ _ _ X2 Y2 H2) as [-> ->].
    apply pos_inj in H1; auto.
    assert (a = a').
    { pose proof (base_h _ inv _ _ X3) as T. pose proof (base_h _ inv _ _ Y3) as T'.
      pose proof (nlo_tuple _ Y2) as TL.
      fold n in T, T'. destruct T as [T _], T' as [T' _], TL as [TL _].
      apply vec_ext; [congruence|]. intros k Hk.
      assert (E : nth k (vadd a (nth j' lo [])) 0 = nth k (vadd a' (nth j' lo [])) 0) by congruence.
      rewrite !vadd_nth in E by lia. lia. }
    subst a'. f_equal. f_equal. eapply vsorted_key_inj; eauto. apply (base_f _ inv).
  Qed.

  Lemma matrix_ND_eq : matrix_ND D l = OK (nc, mset_all (map up triples) (mzero (length rows) nc)) /\
    ups_ok (length rows) nc (map up triples).
  Proof.
    pose proof (base_d _ inv) as Hnd. fold d in Hnd.
    assert (U : ups_ok (length rows) nc (map up triples)).
    { intros i j x Hin. apply in_map_iff in Hin. destruct Hin as ([[i' j'] [a c]] & E & Hin).
      unfold up in E. cbn [fst snd] in E. injection E as <- <- <-.
      destruct (nkey_ok _ _ _ _ Hin) as [K _]. apply pos_ok in K. apply ntriples_In in Hin.
      split; [apply K|]. unfold nc. nia. }
    split; auto. unfold matrix_ND.
    rewrite (base_tl _ inv) by (fold n d; lia). fold n. cbn [bind].
    fold d. destruct (Z.ltb_spec l d); [lia|].
    rewrite (base_tl _ inv) by (fold n d; lia). fold n. cbn [bind].
    rewrite (base_td _ inv) by (fold n d; lia). fold n. cbn [bind]. fold lo. fold rows. fold nc.
    unfold matrix_ND_ups. fold n f. fold triples.
    rewrite (mapM_total _ up).
    - cbn [bind]. rewrite (proj2 (in_range_ok _ _ _) U). reflexivity.
    - intros [[i j] [a c]] Hin. cbn [fst snd].
      pose proof (nkey_ok _ _ _ _ Hin) as [K1 K2]. apply ntriples_In in Hin.
      destruct Hin as (X1 & X2 & X3).
      pose proof (base_h _ inv _ _ X3) as (T1 & _). fold n in T1.
      pose proof (nlo_tuple _ X2) as (TL & _).
      rewrite vec_add_ok by congruence. cbn [bind].
      unfold rows. rewrite (proj1 (pos_ok _ _ _ K1)). reflexivity.
  Qed.

  (** weighted form of the relation matrix *)
  Lemma matrix_ND_weighted : exists T, matrix_ND D l = OK (nc, T) /\ shape T (length rows) nc /\
    forall (X : vec -> Z) i j, (i <= n)%nat -> (j < length lo)%nat ->
      sumf (fun r => mget T r (i * length lo + j) * X (nth r rows [])) (seq 0 (length rows)) =
      sumf (fun t => ((nth i (fst t) 0 * snd t) mod q) * X (eplus (nth j lo []) (fst t))) f.
  Proof.
    destruct matrix_ND_eq as [E U]. eexists. split; [exact E|].
    set (T := mset_all _ _).
    pose proof (fun w => mset_all_wsum (map up triples) (mzero (length rows) nc) (length rows) nc w
      (shape_mzero _ _) U nups_positions_NoDup (fun _ _ _ _ => mget_mzero _ _ _ _)) as W.
    fold T in W. split; [apply (W (fun _ _ => 0))|].
    intros X i j Hi Hj.
    set (col := (i * length lo + j)%nat).
    assert (Hcol : (col < nc)%nat) by (unfold col, nc; nia).
    specialize (W (fun r c => if Nat.eqb c col then X (nth r rows []) else 0)). destruct W as [_ W].
    rewrite wsum_mzero in W. unfold wsum in W.
    erewrite sumf_ext.
    2:{ intros r Hr. transitivity (sumf (fun j0 => (if Nat.eqb j0 col then X (nth r rows []) else 0) * mget T r j0) (seq 0 nc)); [|reflexivity].
        rewrite (sumf_seq_single _ 0 nc col); [|lia|].
        - rewrite Nat.eqb_refl. lia.
        - intros k _ Hk. apply Nat.eqb_neq in Hk. rewrite Hk. lia. }
    rewrite W. rewrite sumf_map. unfold triples. rewrite sumf_flat_map.
    rewrite (sumf_seq_single _ 0 (S n) i); [|lia|].
    - rewrite sumf_flat_map. rewrite (sumf_seq_single _ 0 (length lo) j); [|lia|].
      + rewrite sumf_map, Z.add_0_l. apply sumf_ext. intros [a c] Ht. cbn [fst snd].
        unfold up. cbn [fst snd]. fold col. rewrite Nat.eqb_refl.
        destruct (nkey_ok i j a c) as [K1 K2]. { apply ntriples_In. auto. }
        destruct (pos_ok _ _ _ K1) as (_ & _ & K3). unfold rows. rewrite K3, K2. lia.
      + intros j' Hj' Hne. apply sumf_zero. intros [[i0 j0] t] Hin. apply in_map_iff in Hin.
        destruct Hin as (t' & E' & _). injection E' as <- <- <-. unfold up. cbn [fst snd].
        destruct (Nat.eqb_spec (i * length lo + j') col) as [E'|]; [|lia].
        exfalso. unfold col in E'. lia.
    - intros i' Hi' Hne. rewrite sumf_flat_map. apply sumf_zero. intros j' Hj'. apply in_seq in Hj'.
      apply sumf_zero. intros [[i0 j0] t] Hin. apply in_map_iff in Hin.
      destruct Hin as (t' & E' & _). injection E' as <- <- <-. unfold up. cbn [fst snd].
      destruct (Nat.eqb_spec (i' * length lo + j') col) as [E'|]; [|lia].
      exfalso. unfold col in E'. destruct (divmod_inj (length lo) i' j' i j); auto; lia.
  Qed.

  (** entry form: the column of (i, s) holds the coefficients of x^s x_i df/dx_i *)
  Lemma matrix_ND_entry : exists T, matrix_ND D l = OK (nc, T) /\ shape T (length rows) nc /\
    forall r i j, (r < length rows)%nat -> (i <= n)%nat -> (j < length lo)%nat ->
      cong q (mget T r (i * length lo + j)) (coef_xdx f i (nth j lo []) (nth r rows [])).
  Proof.
    destruct matrix_ND_weighted as (T & H1 & H2 & H3). exists T. split; auto. split; auto.
    intros r i j Hr Hi Hj.
    specialize (H3 (fun m => if list_eq_dec Z.eq_dec m (nth r rows []) then 1 else 0) i j Hi Hj).
    rewrite (sumf_seq_single _ 0 (length rows) r) in H3; [|lia|].
    - destruct (list_eq_dec Z.eq_dec (nth r rows []) (nth r rows [])); [|congruence].
      rewrite Z.mul_1_r in H3. rewrite H3. unfold coef_xdx. apply cong_sumf. intros [a c] _. cbn [fst snd].
      destruct (list_eq_dec _ _ _); [|apply cong_of_eq; ring]. rewrite cong_mod. apply cong_of_eq. ring.
    - intros k Hk Hne. destruct (list_eq_dec Z.eq_dec (nth k rows []) (nth r rows [])) as [E'|]; [|lia].
      exfalso. apply Hne. apply (enum_nth_inj n (Z.to_nat l)); auto. fold rows. lia.
  Qed.
End MATND.

(** * one solve: rewriting a vector of degree l *)
Section SOLVE.
  Variables (slv : solver) (D : dR).
  Hypothesis inv : dr_base D.
  Notation n := (r_n D).
  Notation d := (r_d D).
  Notation q := (r_q D).
  Hypothesis Hslv : solver_ok q slv.
  Variable l : Z.
  Hypothesis Hl : d <= l <= (Z.of_nat n + 1) * d.
  Let lo := enum (S n) (Z.to_nat (l - d)).
  Let hi := enum (S n) (Z.to_nat l).

  Lemma solve_ND_ok B U : get_solve_ND slv D l = OK (B, U) ->
    shape U (S n * length lo + length B) (length hi) /\
    (forall i j, (i < j < length B)%nat -> (nth i B O < nth j B O)%nat) /\
    (forall b, In b B -> (b < length hi)%nat) /\
    (** for every weight on monomials *)
    forall (X : vec -> Z) j, (j < length hi)%nat ->
      cong q (X (nth j hi []))
        (sumf (fun i => sumf (fun c => mget U (i * length lo + c) j *
            sumf (fun t => nth i (fst t) 0 * snd t * X (eplus (nth c lo []) (fst t))) (r_f D))
            (seq 0 (length lo))) (seq 0 (S n))
         + sumf (fun k => mget U (S n * length lo + k) j * X (nth (nth k B O) hi [])) (seq 0 (length B))).
  Proof.
    intros H. destruct (matrix_ND_weighted D inv l Hl) as (T & M1 & M2 & M3).
    unfold get_solve_ND in H. rewrite M1 in H. cbn [bind fst snd] in H.
    fold lo hi in M2, M3.
    destruct (Hslv _ _ _ _ _ M2 H) as [(S1 & S2 & S3) S4].
    split; [exact S4|]. split; [exact S1|]. split; [exact S2|].
    intros X j Hj.
    transitivity (sumf (fun r => X (nth r hi []) * (sumf (fun k => mget T r k * mget U k j) (seq 0 (S n * length lo)) +
            sumf (fun k => if Nat.eqb (nth k B O) r then mget U (S n * length lo + k) j else 0) (seq 0 (length B)))) (seq 0 (length hi))).
    { symmetry. rewrite (cong_sumf q _ (fun r => if Nat.eqb r j then X (nth j hi []) else 0)).
      - rewrite (sumf_seq_single _ 0 (length hi) j); [now rewrite Nat.eqb_refl|lia|].
        intros k _ Hk. apply Nat.eqb_neq in Hk. now rewrite Hk.
      - intros r Hr. apply in_seq in Hr. rewrite (S3 r j) by (auto; lia).
        destruct (Nat.eqb_spec r j) as [->|]; apply cong_of_eq; lia. }
    erewrite sumf_ext. 2:{ intros r _. apply Z.mul_add_distr_l. }
    rewrite sumf_plus. apply cong_add.
    - transitivity (sumf (fun k => mget U k j * sumf (fun r => mget T r k * X (nth r hi [])) (seq 0 (length hi))) (seq 0 (S n * length lo))).
      { apply cong_of_eq. transitivity (sumf (fun r => sumf (fun k => mget U k j * (mget T r k * X (nth r hi []))) (seq 0 (S n * length lo))) (seq 0 (length hi))).
        - apply sumf_ext. intros r _. rewrite <- sumf_scal. apply sumf_ext. intros; ring.
        - rewrite sumf_swap. apply sumf_ext. intros. now rewrite sumf_scal. }
      rewrite sumf_prod_seq.
      assert (LP : forall (F : nat * nat -> Z) (l1 l2 : list nat), sumf F (list_prod l1 l2) = sumf (fun i => sumf (fun c => F (i, c)) l2) l1).
      { intros F l1 l2. induction l1 as [|x l1 IH]; [reflexivity|]. cbn [list_prod]. rewrite sumf_app, sumf_cons, sumf_map, IH. reflexivity. }
      rewrite LP. apply cong_sumf. intros i Hi. apply in_seq in Hi. apply cong_sumf. intros c Hc. apply in_seq in Hc.
      cbn [fst snd]. rewrite M3 by lia. apply cong_mul; [reflexivity|]. apply cong_sumf. intros t _.
      rewrite cong_mod. reflexivity.
    - transitivity (sumf (fun k => sumf (fun r => X (nth r hi []) * (if Nat.eqb (nth k B O) r then mget U (S n * length lo + k) j else 0)) (seq 0 (length hi))) (seq 0 (length B))).
      { apply cong_of_eq. rewrite sumf_swap. apply sumf_ext. intros r _. now rewrite sumf_scal. }
      apply cong_of_eq, sumf_ext. intros k Hk. apply in_seq in Hk.
      assert (Hb : (nth k B O < length hi)%nat) by (apply S2, nth_In; lia).
      rewrite (sumf_seq_single _ 0 (length hi) (nth k B O)); [rewrite Nat.eqb_refl; ring|lia|].
      intros r _ Hr. destruct (Nat.eqb_spec (nth k B O) r); [congruence|ring].
  Qed.
End SOLVE.
