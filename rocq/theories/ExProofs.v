(** Proofs for the program examples/frob.cc. *)
From Coq Require Import ZArith Znumtheory List Bool Ascii Lia QArith.
From Verif Require Import Base VecModel VecSpec VecProofs ToolsModel ToolsSpec ToolsProofs PolyProofs MatModel MatProofs DRModel DRSpec DRProofs FrobModel NDModel FrobNDModel NDSpec SolveModel SolveSpec
  ChangeModel ChangeSpec ChangeProofs ChangeFind ArgsModel ArgsProofs CharModel PicardModel IoModel IoProofs SaveModel RunModel RunProofs CtorModel CtorSpec CtorProofs FrobTop HilbCode HilbProps SmoothProofs ExModel ExSpec ExIdent.
Import ListNotations.
Open Scope Z_scope.

(** * the text *)
Lemma count_app a b : count_nl (a ++ b) = (count_nl a + count_nl b)%nat.
Proof. unfold count_nl. now rewrite filter_app, app_length. Qed.
Lemma count_cons c s : count_nl (c :: s) = ((if Ascii.eqb c_nl c then 1 else 0) + count_nl s)%nat.
Proof. unfold count_nl. cbn [filter]. now destruct (Ascii.eqb c_nl c). Qed.
Lemma digit_nl d : 0 <= d < 10 -> Ascii.eqb c_nl (digit_char d) = false.
Proof. revert d. apply digit_cases; reflexivity. Qed.
Lemma count_pos fuel : forall n acc, 0 <= n -> count_nl (print_pos fuel n acc) = count_nl acc.
Proof.
  induction fuel as [|fuel IH]; intros n acc Hn; cbn [print_pos]; destruct (Z.ltb_spec n 10).
  - now rewrite count_cons, digit_nl by lia.
  - reflexivity.
  - now rewrite count_cons, digit_nl by lia.
  - rewrite IH by (apply Z.div_pos; lia). pose proof (Z.mod_pos_bound n 10 ltac:(lia)). now rewrite count_cons, digit_nl by lia.
Qed.
Lemma count_Z x : count_nl (print_Z x) = 0%nat.
Proof. unfold print_Z. destruct (Z.ltb_spec x 0); [rewrite count_cons|]; rewrite count_pos by lia; reflexivity. Qed.
Lemma count_vec l : count_nl (print_vec print_Z l) = 0%nat.
Proof.
  unfold print_vec. rewrite !count_app. change (count_nl [c_open]) with 0%nat. change (count_nl [c_close]) with 0%nat.
  assert (E : count_nl (print_elems print_Z l) = 0%nat); [|rewrite E; reflexivity].
  induction l as [|x [|y l] IH]; [reflexivity|apply count_Z|].
  change (print_elems print_Z (x :: y :: l)) with (print_Z x ++ [c_sp] ++ print_elems print_Z (y :: l)). rewrite !count_app, count_Z, IH. reflexivity.
Qed.

Lemma parse_Z_nl s : parse_Z (c_nl :: s) = parse_Z s.
Proof. reflexivity. Qed.
Lemma parse_vec_nl {A} (pe : text -> res (A * text)) s : parse_vec pe (c_nl :: s) = parse_vec pe s.
Proof. reflexivity. Qed.
Lemma read_Z x rest : parse_Z (print_Z x ++ c_nl :: rest) = OK (x, c_nl :: rest).
Proof. apply print_Z_read; auto. reflexivity. Qed.
Lemma parse_elems_mod q fuel : forall s, parse_elems (parse_mod q) fuel s = (x <- parse_elems parse_Z fuel s ;; OK (map (fun c => c mod q) (fst x), snd x)).
Proof.
  induction fuel as [|fuel IH]; intros s; cbn [parse_elems]; destruct (skip_ws s) as [|c r]; try reflexivity; destruct (Ascii.eqb c c_close); try reflexivity.
  unfold parse_mod at 1. destruct (parse_Z (c :: r)) as [x|]; cbn [bind]; [|reflexivity]. cbn [fst snd]. rewrite IH.
  destruct (parse_elems parse_Z fuel (snd x)); reflexivity.
Qed.
Lemma parse_vec_mod q s : parse_vec (parse_mod q) s = (x <- parse_vec parse_Z s ;; OK (map (fun c => c mod q) (fst x), snd x)).
Proof. unfold parse_vec. destruct (skip_ws s) as [|c r]; [reflexivity|]. destruct (Ascii.eqb c c_open); [apply parse_elems_mod|reflexivity]. Qed.
Lemma print_vec_any l rest : parse_vec parse_Z (print_vec print_Z l ++ rest) = OK (l, rest).
Proof.
  pose proof (print_vec_read (fun _ => True) print_Z parse_Z print_Z_read l ltac:(apply Forall_forall; auto)) as (_ & H).
  unfold print_vec, parse_vec. cbn [app skip_ws]. change (is_ws c_open) with false. cbv iota. change (Ascii.eqb c_open c_open) with true. cbv iota.
  rewrite <- app_assoc. cbn [app]. apply (print_elems_read (fun _ => True) print_Z parse_Z print_Z_read); [apply Forall_forall; auto|].
  rewrite app_length. pose proof (print_elems_len (fun _ => True) print_Z parse_Z print_Z_read l ltac:(apply Forall_forall; auto)). lia.
Qed.
Lemma read_vec l rest : parse_vec parse_Z (print_vec print_Z l ++ rest) = OK (l, rest).
Proof. apply print_vec_any. Qed.
Lemma read_vec_mod q l rest : parse_vec (parse_mod q) (print_vec print_Z l ++ rest) = OK (map (fun c => c mod q) l, rest).
Proof. rewrite parse_vec_mod, read_vec. reflexivity. Qed.

Lemma count_general p prec n d f N cprec : count_nl (general_file p prec n d f N cprec) = 6%nat.
Proof. unfold general_file, newline. rewrite !count_app, !count_Z, !count_vec. reflexivity. Qed.
Lemma count_short p f : count_nl (short_file p f) = 1%nat.
Proof. unfold short_file, newline. rewrite !count_app, !count_Z, !count_vec. reflexivity. Qed.

(** the general form is recognised when there is one more newline *)
Lemma read_general p prec n d f N cprec rest : 1 < p -> 0 < prec -> (1 <= count_nl rest)%nat ->
  read_input (general_file p prec n d f N cprec ++ rest) = OK (mk_input p prec n d (map (fun c => c mod p) f) N cprec).
Proof.
  intros Hp Hk Hr. unfold read_input. rewrite count_app, count_general. destruct (Nat.ltb_spec (6 + count_nl rest) 7); [lia|].
  unfold general_file, newline. rewrite <- !app_assoc. cbn [app].
  rewrite read_Z. cbn [bind fst snd]. rewrite parse_Z_nl, read_Z. cbn [bind fst snd]. rewrite parse_Z_nl, read_Z. cbn [bind fst snd].
  rewrite parse_Z_nl, read_Z. cbn [bind fst snd]. unfold moduli_ok. destruct (Z.ltb_spec 1 p); [|lia]. destruct (Z.ltb_spec 0 prec); [|lia]. cbn [andb check bind].
  rewrite parse_vec_nl, read_vec_mod. cbn [bind fst snd]. rewrite parse_vec_nl, read_vec. cbn [bind fst snd]. rewrite parse_vec_nl, read_vec. reflexivity.
Qed.

Lemma k3_table p a : k3_args p = OK a -> 3 <= p /\ default_args p 3 4 = OK a \/ 20 <= p <= 22 \/ p = 42.
Proof.
  unfold k3_args, default_args, args_3_4. cbn [Z.eqb andb Pos.eqb].
  destruct (Z.eqb_spec p 3); [intros H; injection H as <-; left; subst; split; [lia|reflexivity]|].
  destruct (Z.eqb_spec p 5); [intros H; injection H as <-; left; subst; split; [lia|reflexivity]|].
  destruct (Z.ltb_spec 6 p); try (exfalso; lia); destruct (Z.ltb_spec p 20); try (exfalso; lia); destruct (Z.ltb_spec 20 p); try (exfalso; lia); destruct (Z.ltb_spec p 42); try (exfalso; lia); destruct (Z.ltb_spec 42 p); try (exfalso; lia); destruct (Z.ltb_spec p 5); try (exfalso; lia); destruct (Z.leb_spec 5 p); try (exfalso; lia); destruct (Z.ltb_spec p 7); try (exfalso; lia); destruct (Z.leb_spec 7 p); try (exfalso; lia); destruct (Z.ltb_spec p 23); try (exfalso; lia); destruct (Z.leb_spec 23 p); try (exfalso; lia); destruct (Z.ltb_spec p 43); try (exfalso; lia); 
    cbn [andb check bind]; intros H'; try lia; try discriminate; injection H' as <-; left; split; try lia; reflexivity.
Qed.
Lemma k3_ok p : prime p -> 3 <= p -> exists a, k3_args p = OK a /\ default_args p 3 4 = OK a.
Proof.
  intros Pp P3. assert (NC : forall k, (k | p) -> 1 < k < p -> False).
  { intros k Hk Hr. destruct (prime_divisors p Pp k Hk) as [X|[X|[X|X]]]; lia. }
  assert (E : p <> 4 /\ p <> 6 /\ ~ (20 <= p <= 22) /\ p <> 42).
  { repeat split; intros X; [subst p; apply (NC 2); [now exists 2|lia]|subst p; apply (NC 2); [now exists 3|lia]| |subst p; apply (NC 2); [now exists 21|lia]].
    assert (C : p = 20 \/ p = 21 \/ p = 22) by lia. destruct C as [ -> |[ -> | -> ]]; [apply (NC 2); [now exists 10|lia]|apply (NC 3); [now exists 7|lia]|apply (NC 2); [now exists 11|lia]]. }
  destruct (k3_args p) as [a|e] eqn:K.
  - exists a. split; auto. destruct (k3_table p a K) as [[_ X]|X]; [exact X|lia].
  - exfalso. revert K. unfold k3_args. destruct (Z.eqb_spec p 3); [discriminate|]. destruct (Z.eqb_spec p 5); [discriminate|].
    destruct (Z.ltb_spec 6 p), (Z.ltb_spec p 20), (Z.ltb_spec 20 p), (Z.ltb_spec p 42), (Z.ltb_spec 42 p); cbn [andb check bind]; intros; try discriminate; lia.
Qed.

Lemma read_short p f rest a : k3_args p = OK a -> (count_nl rest <= 5)%nat ->
  read_input (short_file p f ++ rest) = OK (mk_input p (fst (fst a)) 3 4 (map (fun c => c mod p) f) (snd (fst a)) (snd a)).
Proof.
  intros K Hr. unfold read_input. rewrite count_app, count_short. destruct (Nat.ltb_spec (1 + count_nl rest) 7); [|lia].
  unfold short_file, newline. rewrite <- !app_assoc. cbn [app]. rewrite read_Z. cbn [bind fst snd]. rewrite K. destruct a as [[prec N] cprec]. cbn [bind fst snd].
  assert (E : moduli_ok p prec = true).
  { revert K. unfold k3_args, moduli_ok. destruct (Z.eqb_spec p 3); [intros HH; injection HH as <- _ _; subst; reflexivity|]. destruct (Z.eqb_spec p 5); [intros HH; injection HH as <- _ _; subst; reflexivity|].
    destruct (Z.ltb_spec 6 p), (Z.ltb_spec p 20), (Z.ltb_spec 20 p), (Z.ltb_spec p 42), (Z.ltb_spec 42 p); cbn [andb check bind]; intros K; try discriminate; injection K as <- _ _;
    destruct (Z.ltb_spec 1 p); try reflexivity; lia. }
  rewrite E. cbn [check bind]. rewrite parse_vec_nl, read_vec_mod. reflexivity.
Qed.

(** a number is not a vector, a vector is not a number *)
Lemma digit_open c : is_digit c = true -> Ascii.eqb c c_open = false.
Proof. intros H. apply digit_not_char; auto; lia. Qed.
Lemma vec_of_number {A} (pe : text -> res (A * text)) x rest : parse_vec pe (print_Z x ++ rest) = Err EAbort.
Proof.
  unfold parse_vec, print_Z. destruct (Z.ltb_spec x 0) as [L|L]; [reflexivity|].
  rewrite <- print_pos_app. destruct (print_pos_head _ x rest L (log_fuel x L)) as (c & r & -> & D). cbn [skip_ws]. now rewrite (digit_not_ws c D), (digit_open c D).
Qed.
Lemma number_of_vec l rest : parse_Z (print_vec print_Z l ++ rest) = Err EAbort.
Proof. reflexivity. Qed.

Lemma read_general_short p prec n d f N cprec : exists e, read_input (general_file p prec n d f N cprec) = Err e.
Proof.
  unfold read_input. rewrite count_general. change (Nat.ltb 6 7) with true. cbv iota. unfold general_file, newline. cbn [app]. rewrite read_Z. cbn [bind fst snd].
  destruct (k3_args p) as [[[pr N'] c']|e]; cbn [bind]; [|now exists e]. destruct (check _ EAbort) as [|e]; cbn [bind]; [|now exists e].
  rewrite parse_vec_nl, vec_of_number. now exists EAbort.
Qed.
Lemma read_short_general p f rest : (6 <= count_nl rest)%nat -> exists e, read_input (short_file p f ++ rest) = Err e.
Proof.
  intros H. unfold read_input. rewrite count_app, count_short. destruct (Nat.ltb_spec (1 + count_nl rest) 7); [lia|].
  unfold short_file, newline. rewrite <- !app_assoc. cbn [app]. rewrite read_Z. cbn [bind fst snd]. rewrite parse_Z_nl, number_of_vec. now exists EAbort.
Qed.

(** the output is an input file *)
Lemma read_reduced s i : read_input s = OK i -> map (fun c => c mod in_p i) (in_f i) = in_f i /\ 1 < in_p i /\ 0 < in_prec i.
Proof.
  assert (R : forall p v, map (fun c => c mod p) (map (fun c => c mod p) v) = map (fun c => c mod p) v).
  { intros p v. rewrite map_map. apply map_ext. intros c. destruct (Z.eq_dec p 0) as [->|]; [now rewrite !Zmod_0_r|]. now apply Z.mod_mod. }
  unfold read_input. intros H. apply bind_ok in H. destruct H as (p & _ & H).
  destruct (Nat.ltb _ 7).
  - apply bind_ok in H. destruct H as ([[prec N] cprec] & _ & H). apply bind_ok in H. destruct H as (u & C & H). apply bind_ok in H. destruct H as (f & F & H).
    injection H as <-. cbn [in_p in_f in_prec]. rewrite parse_vec_mod in F. apply bind_ok in F. destruct F as (x & _ & F). injection F as <-. cbn [fst].
    rewrite R. unfold moduli_ok, check in C. destruct (Z.ltb_spec 1 (fst p)), (Z.ltb_spec 0 prec); try discriminate. auto.
  - apply bind_ok in H. destruct H as (prec & _ & H). apply bind_ok in H. destruct H as (n & _ & H). apply bind_ok in H. destruct H as (d & _ & H).
    apply bind_ok in H. destruct H as (u & C & H). apply bind_ok in H. destruct H as (f & F & H). apply bind_ok in H. destruct H as (N & _ & H). apply bind_ok in H. destruct H as (cprec & _ & H).
    injection H as <-. cbn [in_p in_f in_prec]. rewrite parse_vec_mod in F. apply bind_ok in F. destruct F as (x & _ & F). injection F as <-. cbn [fst].
    rewrite R. unfold moduli_ok, check in C. destruct (Z.ltb_spec 1 (fst p)), (Z.ltb_spec 0 (fst prec)); try discriminate. auto.
Qed.
Lemma compute_in L tries i o : frob_compute L tries i = OK o -> o_in o = i.
Proof. unfold frob_compute. intros H. repeat (apply bind_ok in H; destruct H as (? & _ & H)). injection H as <-. reflexivity. Qed.
Lemma output_general o wall user : exists rest, (1 <= count_nl rest)%nat /\
  output_text o wall user = general_file (in_p (o_in o)) (in_prec (o_in o)) (in_n (o_in o)) (in_d (o_in o)) (in_f (o_in o)) (in_N (o_in o)) (in_cprec (o_in o)) ++ rest.
Proof.
  eexists. split; [|unfold output_text, general_file, newline, line; rewrite <- !app_assoc; cbn [app]; reflexivity]. rewrite count_cons. cbn [Nat.add]. change (Ascii.eqb c_nl c_nl) with true. cbv iota. lia.
Qed.
Lemma main_again L tries s o wall user : frob_main L tries s = OK o -> frob_main L tries (output_text o wall user) = OK o.
Proof.
  unfold frob_main. intros H. apply bind_ok in H. destruct H as (i & R & H). destruct (read_reduced s i R) as (R1 & R2 & R3).
  pose proof (compute_in _ _ _ _ H) as E. destruct (output_general o wall user) as (rest & Hr & ->). rewrite E.
  rewrite read_general by auto. cbn [bind in_p]. rewrite R1. destruct i. exact H.
Qed.

(** * coefficients *)
Lemma coef_In m f e c : vsorted m f -> In (e, c) f -> coef f e = c.
Proof.
  intros S. induction S as [|k v r K S IH L]; [intros []|]. intros [E|I]; unfold coef; rewrite sumf_cons; cbn [fst snd].
  - injection E as -> ->. destruct (list_eq_dec Z.eq_dec e e) as [_|]; [|congruence]. rewrite sumf_zero; [lia|]. intros [k' c'] I. cbn [fst snd].
    destruct (list_eq_dec Z.eq_dec k' e) as [->|]; auto. exfalso. specialize (L _ _ I). now rewrite vltb_irrefl in L.
  - destruct (list_eq_dec Z.eq_dec k e) as [->|]; [|now apply IH]. exfalso. specialize (L _ _ I). now rewrite vltb_irrefl in L.
Qed.
Lemma coef_notin f e : (forall c, ~ In (e, c) f) -> coef f e = 0.
Proof. intros H. unfold coef. apply sumf_zero. intros [k c] I. cbn [fst snd]. destruct (list_eq_dec Z.eq_dec k e) as [->|]; auto. now apply H in I. Qed.

Section Vectors.
  Variables (n : nat) (d : Z).
  Hypothesis Hd : 0 <= d.
  Let td := enum (S n) (Z.to_nat d).

  Lemma td_tuple j : (j < length td)%nat -> is_tuple (S n) d (nth j td []).
  Proof. intros Hj. pose proof (enum_nth_tuple n (Z.to_nat d) j Hj) as T. now rewrite Z2Nat.id in T by auto. Qed.
  Lemma td_inj i j : (i < length td)%nat -> (j < length td)%nat -> nth i td [] = nth j td [] -> i = j.
  Proof. apply (enum_nth_inj n (Z.to_nat d)). Qed.

  Lemma vector_poly_ok v : length v = length td ->
    wf_poly n d (vector_poly td v) /\ lists td v (vector_poly td v) /\
    forall e c, In (e, c) (vector_poly td v) <-> exists j, (j < length td)%nat /\ e = nth j td [] /\ c = nth j v 0 /\ c <> 0.
  Proof.
    intros Lv. assert (G : forall k, (k <= length td)%nat ->
      let m := fold_left (fun m i => if nth i v 0 =? 0 then m else vinsert (nth i td []) (nth i v 0) m) (seq 0 k) [] in
      vsorted (S n) m /\ forall e c, In (e, c) m <-> exists j, (j < k)%nat /\ e = nth j td [] /\ c = nth j v 0 /\ c <> 0).
    { induction k as [|k IH]; intros Hk; cbv zeta.
      - cbn. split; [apply vsorted_nil|]. intros e c. split; [intros []|]. intros (j & Hj & _). lia.
      - rewrite seq_S, fold_left_app. cbn [fold_left Nat.add]. destruct (IH ltac:(lia)) as (I1 & I2). clear IH.
        match type of I1 with vsorted _ ?mm => set (m := mm) in * end. destruct (td_tuple k ltac:(lia)) as (T1 & _).
        destruct (Z.eqb_spec (nth k v 0) 0) as [Z0|Z0].
        + split; auto. intros e c. rewrite I2. split; intros (j & Hj & H).
          * exists j. split; [lia|auto].
          * exists j. split; auto. destruct H as (_ & -> & H). destruct (Nat.eq_dec j k) as [->|]; [congruence|lia].
        + split; [now apply vinsert_sorted|]. intros e c. rewrite (vinsert_In (S n)) by auto. rewrite I2. split.
          * intros [[-> ->]|[_ (j & Hj & H)]]; [exists k; auto|exists j; split; [lia|auto]].
          * intros (j & Hj & -> & -> & Hc). destruct (Nat.eq_dec j k) as [->|]; [auto|]. right. split; [|exists j; repeat split; auto; lia].
            intros E. apply td_inj in E; lia. }
    destruct (G (length td) (le_n _)) as (G1 & G2). cbv zeta in G1, G2. unfold vector_poly. rewrite Lv.
    split; [|split; [split; [exact Lv|]|exact G2]].
    - split; auto. intros e c I. apply G2 in I. destruct I as (j & Hj & -> & _). now apply td_tuple.
    - intros j Hj. destruct (Z.eq_dec (nth j v 0) 0) as [Z0|Z0].
      + rewrite Z0. apply coef_notin. intros c I. apply G2 in I. destruct I as (j' & Hj' & E & -> & Hc). apply td_inj in E; auto. congruence.
      + apply (coef_In (S n)); auto. apply G2. exists j. auto.
  Qed.

  Lemma poly_vector_ok g : wf_poly n d g -> exists fv, poly_vector td (length td) g = OK fv /\ lists td fv g.
  Proof.
    intros [W1 W2]. unfold poly_vector. set (step := fun v (kc : vec * Z) => _).
    assert (G : forall pre suf, g = pre ++ suf -> exists v, foldM step pre (repeat 0 (length td)) = OK v /\ length v = length td /\
      forall j, (j < length td)%nat -> (forall c, In (nth j td [], c) pre -> nth j v 0 = c) /\ ((forall c, ~ In (nth j td [], c) pre) -> nth j v 0 = 0)).
    { induction pre as [|[k c] pre IH] using rev_ind; intros suf Hf.
      - exists (repeat 0 (length td)). split; [reflexivity|]. split; [apply repeat_length|]. intros j Hj. split; [intros ? []|]. intros _. apply nth_repeat.
      - rewrite <- app_assoc in Hf. destruct (IH _ Hf) as (v & E & L & N). rewrite foldM_app, E. cbn [bind foldM]. unfold step at 1.
        cbn [fst snd]. assert (Hin : In (k, c) g) by (rewrite Hf; apply in_app_iff; right; now left).
        pose proof (W2 _ _ Hin) as T. rewrite <- (Z2Nat.id d) in T by auto.
        destruct (enum_idx _ _ _ T) as (i & Ei & Li & Ni). fold td in Ei, Li, Ni. unfold dget in Ei.
        destruct (vfind k (tuple_index td)) as [i'|]; [|discriminate]. injection Ei as ->.
        unfold check. rewrite L. destruct (Nat.ltb_spec i (length td)); [|lia]. cbn [bind].
        eexists. split; [reflexivity|]. rewrite upd_length. split; auto. intros j Hj.
        destruct (Nat.eq_dec j i) as [->|Nj].
        + rewrite nth_upd_eq by lia. rewrite Ni. split.
          * intros c' Hc'. assert (H0 : In (k, c') g). { rewrite Hf. rewrite app_assoc. apply in_app_iff. now left. }
            pose proof (coef_In _ _ _ _ W1 Hin). pose proof (coef_In _ _ _ _ W1 H0). congruence.
          * intros H0. exfalso. apply (H0 c). apply in_app_iff. right. now left.
        + rewrite nth_upd_neq by auto. destruct (N j Hj) as [N1 N2]. split.
          * intros c' Hc'. apply in_app_iff in Hc'. destruct Hc' as [Hc'|[Hc'|[]]]; [auto|].
            injection Hc' as E1 _. exfalso. apply Nj. apply td_inj; auto. congruence.
          * intros H0. apply N2. intros c' Hc'. apply (H0 c'). apply in_app_iff. now left. }
    destruct (G g [] (eq_sym (app_nil_r g))) as (v & E & L & N). exists v. split; auto. split; auto.
    intros j Hj. destruct (N j Hj) as [N1 N2]. destruct (vfind (nth j td []) g) as [c|] eqn:F.
    - apply (vfind_In (S n)) in F; auto; [|now apply td_tuple]. rewrite (N1 _ F). now apply (coef_In (S n)).
    - assert (X : forall c, ~ In (nth j td [], c) g). { intros c I. apply (vfind_In (S n)) in I; auto; [congruence|now apply td_tuple]. }
      rewrite N2 by auto. now apply coef_notin.
  Qed.
End Vectors.

(** * the coefficients stay reduced *)
Definition red (q : Z) (f : poly) : Prop := forall k c, In (k, c) f -> 0 <= c < q.
Lemma red_vinsert q k c f : red q f -> 0 <= c < q -> red q (vinsert k c f).
Proof.
  intros H Hc. induction f as [|[k' c'] f IH]; [intros k0 c0 [E|[]]; now injection E as <- <-|]. unfold vinsert in *. cbn [minsert].
  destruct (vltb k k'); [|destruct (vltb k' k)]; intros k0 c0 I.
  - destruct I as [E|I]; [now injection E as <- <-|]. now apply (H k0).
  - destruct I as [E|I]; [apply (H k0); now left|]. apply (IH (fun k c I => H k c (or_intror I)) k0 c0 I).
  - destruct I as [E|I]; [now injection E as <- <-|]. apply (H k0). now right.
Qed.
Lemma red_vaccum q k c f : 0 < q -> red q f -> 0 <= c < q -> red q (vaccum (fun a b => (a + b) mod q) k c f).
Proof. intros Hq H Hc. unfold vaccum. destruct (vfind k f); apply red_vinsert; auto. now apply Z.mod_pos_bound. Qed.
Lemma red_padd q H : 0 < q -> red q H -> forall acc, red q acc -> red q (padd_into q H acc).
Proof.
  intros Hq. induction H as [|[k c] H IH]; intros HH acc Ha; [exact Ha|]. cbn [padd_into fold_left fst snd].
  apply IH; [intros k' c' I; apply (HH k'); now right|]. apply red_vaccum; auto. apply (HH k). now left.
Qed.
Lemma red_pmul q H X : 0 < q -> red q (pmul q H X).
Proof.
  intros Hq. unfold pmul. rewrite pmul_into_padd. apply red_padd; auto; [|intros ? ? []]. intros k c I. apply in_flat_map in I. destruct I as (h & _ & I).
  apply in_map_iff in I. destruct I as (x & E & _). injection E as _ <-. now apply Z.mod_pos_bound.
Qed.
Lemma red_cov q f M g : 0 < q -> red q f -> change_of_variables q f M = OK g -> red q g.
Proof.
  intros Hq Hf. unfold change_of_variables. destruct (negb _); [discriminate|]. destruct (negb _); [discriminate|]. intros E. injection E as <-.
  set (rows := map _ M). assert (T : forall e c, 0 <= c < q -> red q (cov_term q (length M) rows e c)).
  { intros e c Hc. unfold cov_term. assert (R0 : red q [(repeat 0 (length M), c)]) by (intros k0 c0 [E|[]]; now injection E as <- <-).
    revert R0. generalize [(repeat 0 (length M), c)]. induction (seq 0 (length M)) as [|i l IH]; intros H HH; cbn [fold_left]; [exact HH|].
    apply IH. generalize (Z.to_nat (nth i e 0)) as k. intros k. revert H HH. induction k as [|k IHk]; intros H HH; cbn [cov_pow]; auto. apply IHk. now apply red_pmul. }
  assert (R0 : red q []) by (intros ? ? []). revert R0. generalize (@nil (vec * Z)). induction f as [|[e c] f IH]; intros acc Ha; cbn [fold_left fst snd]; [exact Ha|].
  apply IH; [intros k' c' I; apply (Hf k'); now right|]. apply red_padd; auto. apply T. apply (Hf e). now left.
Qed.

(** * the computation *)
Lemma frob_of_len slv q p prec n g nd N c c' : zlen c = zlen c' -> frob_of slv q p prec n g nd N c = frob_of slv q p prec n g nd N c'.
Proof. intros E. unfold frob_of. now rewrite E. Qed.
Lemma lift_red q n d p g : wf_poly n d g -> red p g -> p <= q -> lift_map q g = g.
Proof.
  intros W R Hq. rewrite (lift_map_ok q (S n)) by apply W. rewrite <- (map_id g) at 2. apply map_ext_in. intros [k c] I. cbn [fst snd].
  f_equal. apply Z.mod_small. specialize (R k c I). lia.
Qed.
Lemma ident_sq n : shape (ident n) n n.
Proof. unfold ident. split; [now rewrite map_length, seq_length|]. apply Forall_forall. intros r Hr. apply in_map_iff in Hr. destruct Hr as (i & <- & _). now rewrite map_length, seq_length. Qed.

Section Compute.
  Variables (L : libs) (tries : Z) (i : input) (n : nat).
  Notation p := (in_p i).
  Notation prec := (in_prec i).
  Notation d := (in_d i).
  Notation q := (p ^ prec).
  Notation slv := (padic_solver (l_lu L) (l_inv L) p q prec).
  Notation td := (enum (S n) (Z.to_nat d)).
  Notation f := (vector_poly td (in_f i)).
  Variables (prec0 : Z) (N0 c0 : list Z).
  Hypothesis Pp : prime p.
  Hypothesis p3 : 3 <= p.
  Hypothesis Hprec : 1 <= prec.
  Hypothesis Hn : in_n i = Z.of_nat n.
  Hypothesis HA : default_args p (Z.of_nat n) d = OK (prec0, N0, c0).
  Hypothesis HL : ech_spec p (l_lu L).
  Hypothesis HG : ech_spec p (l_gauss L).
  Hypothesis HI : inv_spec p (l_inv L).
  Hypothesis HD : det_spec p (l_det L).
  Hypothesis Hrnd : forall j, (snd (l_rnd L j) < S n)%nat /\ Forall (fun A => shape A (S n) (S n) /\ mreduced p A) (fst (l_rnd L j)) /\
    Exists (invertible p (S n)) (fst (l_rnd L j)).

  Lemma dims_td : tuple_list_generator d (in_n i + 1) = OK td.
  Proof.
    clear - Hn HA. rewrite Hn. pose proof (default_args_cases _ _ _ _ HA) as C.
    assert (E : exists m, n = m /\ (m = 2 \/ m = 3)%nat) by (exists n; repeat destruct C as [C|C]; destruct C as (E & _); split; auto; lia).
    assert (En : exists k, in_d i = k) by eauto. destruct En as (k & En). rewrite En in *.
    repeat destruct C as [C|C]; destruct C as (E1 & -> & _); (assert (E2 : n = 2%nat \/ n = 3%nat) by lia; destruct E2 as [-> | ->]; try lia; vm_compute; reflexivity).
  Qed.
  Lemma det_id : cong p (detf (S n) (mget (ident (S n)))) 1.
  Proof.
    clear - HA. pose proof (default_dims _ _ _ _ HA) as (D1 & _). assert (E2 : n = 2%nat \/ n = 3%nat) by lia. apply cong_of_eq. destruct E2 as [-> | ->]; vm_compute; reflexivity.
  Qed.

  Lemma compute_length : length (in_f i) <> length td -> frob_compute L tries i = Err EAssert.
  Proof. clear - Hn HA. intros H. unfold frob_compute. cbv zeta. rewrite dims_td. cbn [bind]. destruct (Nat.eqb_spec (length td) (length (in_f i))); [congruence|reflexivity]. Qed.

  Hypothesis LF : length (in_f i) = length td.
  Hypothesis RF : forall x, In x (in_f i) -> 0 <= x < p.

  Lemma compute_zero : (forall x, In x (in_f i) -> x = 0) -> frob_compute L tries i = Err EUB.
  Proof.
    clear - Hn HA LF. intros H. unfold frob_compute. cbv zeta. rewrite dims_td. cbn [bind]. rewrite LF, Nat.eqb_refl. cbn [check bind].
    pose proof (default_dims _ _ _ _ HA) as (_ & _ & D3 & _). destruct (vector_poly_ok n d ltac:(lia) (in_f i) LF) as (_ & _ & X). destruct f as [|[k c] g]; [reflexivity|].
    destruct (proj1 (X k c) (or_introl eq_refl)) as (j & Hj & _ & E & Hc). exfalso. apply Hc. rewrite E. apply H. apply nth_In. now rewrite LF.
  Qed.

  Hypothesis NF : exists x, In x (in_f i) /\ x <> 0.

  Lemma f_facts : wf_poly n d f /\ lists td (in_f i) f /\ f <> [] /\ red p f.
  Proof.
    clear - HA LF RF NF. pose proof (default_dims _ _ _ _ HA) as (_ & _ & D3 & _). destruct (vector_poly_ok n d ltac:(lia) (in_f i) LF) as (W & Li & X).
    split; auto. split; auto. split.
    - destruct NF as (x & Hx & Nx). apply (In_nth _ _ 0) in Hx. destruct Hx as (j & Hj & E). rewrite LF in Hj.
      pose proof (proj2 (X (nth j td []) x) (ex_intro _ j (conj Hj (conj eq_refl (conj (eq_sym E) Nx))))) as I. intros F. now rewrite F in I.
    - intros k c I. apply X in I. destruct I as (j & Hj & _ & -> & _). apply RF. apply nth_In. now rewrite LF.
  Qed.

  (** the matrix, the polynomial that is used, and the choice of the method *)
  Definition carried (M : mat) (g : poly) (nd : bool) : Prop :=
    (nd = true /\ shape M (S n) (S n) /\ cong p (detf (S n) (mget M)) 1 /\ change_of_variables p f M = OK g /\ non_degenerate p n d g /\
      (non_degenerate p n d f -> M = ident (S n) /\ forall e, cong p (coef g e) (coef f e))) \/
    (nd = false /\ M = mzero (S n) (S n) /\ g = f /\ ~ non_degenerate p n d f).

  Lemma compute_ok :
    (~ smooth_mod p n d f /\ frob_compute L tries i = Err EAbort) \/
    (smooth_mod p n d f /\ exists M g nd fv D, carried M g nd /\ wf_poly n d g /\ smooth_mod p n d g /\ lists td fv g /\ init slv q p prec g = OK D /\
       zlen (r_basis D) + 1 = zlen c0 /\
       (length (in_N i) = n -> (forall x, In x (in_N i) -> x <= 28) -> nd = false \/ words_fine slv q p prec n d g (in_N i) ->
        (zlen (in_cprec i) <> zlen c0 -> frob_compute L tries i = Err EAssert) /\
        (zlen (in_cprec i) = zlen c0 -> exists r, matrix_result q p n d g (r_basis D) (in_N i) r /\
          frob_compute L tries i = (Frob <- r ;; cp <- charpoly_frob Frob (in_cprec i) p (n - 1) ;;
            rank <- (if (Z.of_nat n =? 3) && (d =? 4) then geometric_picard (l_fuel L) (l_x L) (l_cyc L) (l_factor L) cp p (Z.of_nat n - 1) else OK 0) ;;
            OK (mk_output i M fv Frob cp rank))))).
  Proof.
    destruct f_facts as (W & Li & Hf & Rf). destruct (default_dims _ _ _ _ HA) as (D1 & D2 & D3 & D4).
    destruct (init_tuples_total n d D4) as (tl & Htl).
    assert (Hpq : (p | q)). { exists (p ^ (prec - 1)). rewrite <- (Z.pow_1_r p) at 3. rewrite <- Z.pow_add_r by lia. f_equal. lia. }
    assert (Hle : p <= q). { apply Z.divide_pos_le; auto. apply Z.pow_pos_nonneg; lia. }
    unfold frob_compute. cbv zeta. rewrite dims_td. cbn [bind]. rewrite LF, Nat.eqb_refl. cbn [check bind].
    destruct (is_smooth_ok p q (l_lu L) f n d tl Pp Hpq HL Hf W ltac:(lia) Htl) as (b & Eb & Hb). rewrite Eb. cbn [bind].
    destruct b. 2:{ left. split; [|reflexivity]. intros X. apply Hb in X. discriminate. }
    right. assert (S0 : smooth_mod p n d f) by exact (proj1 Hb eq_refl). split; auto. cbn [check bind].
    destruct (find_change_ok p (l_gauss L) (l_det L) Pp HG HD (l_lu L) q n d tl f (l_rnd L) HL Hpq ltac:(lia) Htl Hf W Hrnd tries) as (M & EM & CM).
    rewrite EM. cbn [bind].
    assert (C : exists g nd, negb (mat_zero M) = nd /\ (if nd then change_of_variables p f M else OK f) = OK g /\ carried M g nd /\ wf_poly n d g /\ smooth_mod p n d g /\ red p g /\ g <> []).
    { destruct CM as [(ND & ->)|[(ND & j & g & _ & At & NG & _)|(ND & -> & _)]].
      - destruct (cov_wf p n d f (ident (S n)) W (ident_sq (S n))) as (g & Eg & Ng & Wg). exists g, true.
        assert (P : forall F, cong p (phi F g) (phi F f)). { apply (phi_ident p (S n) f g); auto. intros k c I. destruct (proj2 W k c I) as (K1 & K2 & _). auto. }
        assert (NG : non_degenerate p n d g) by (apply (nd_phi p n d f g); auto; intros F; now apply cong_sym).
        split; [rewrite (mat_zero_det p n _ ltac:(lia) (ident_sq (S n)) det_id); reflexivity|]. split; auto. split; [|split; [|split; [|split]]]; auto.
        + left. split; auto. split; [apply ident_sq|]. split; [apply det_id|]. split; auto. split; auto. intros _. split; auto. intros e. rewrite !phi_coef. apply P.
        + intros G. apply (smooth_phi p n d f g); auto. intros F. now apply cong_sym.
        + eapply red_cov; eauto; lia.
      - destruct At as (_ & SM & _ & DM & Eg & Wg). exists g, true. split; [rewrite (mat_zero_det p n _ ltac:(lia) SM DM); reflexivity|]. split; auto.
        split; [|split; [|split; [|split]]]; auto.
        + left. do 5 (split; auto). intros X. now destruct ND.
        + assert (Ng : g <> []). { destruct (cov_wf p n d f M W SM) as (g' & E' & Ng & _). rewrite E' in Eg. injection Eg as <-. auto. }
          exact (proj1 (C53_nd_smooth p n d g tl Pp Ng Wg D2 ltac:(lia) Htl NG)).
        + eapply red_cov; eauto; lia.
        + destruct (cov_wf p n d f M W SM) as (g' & E' & Ng & _). rewrite E' in Eg. injection Eg as <-. auto.
      - exists f, false. split; [now rewrite mat_zero_mzero|]. split; auto. split; auto. right. auto. }
    destruct C as (g & nd & -> & Eg & CA & Wg & SG & Rg & Ng). rewrite Eg. cbn [bind].
    destruct (poly_vector_ok n d ltac:(lia) g Wg) as (fv & Efv & Lfv). rewrite Efv. cbn [bind]. rewrite (lift_red q n d p g Wg Rg Hle).
    destruct (init_succeeds p prec (l_lu L) (l_inv L) n d g tl Pp Hprec HL HI Ng Wg D2 ltac:(lia) Htl ltac:(left; lia) SG) as (D & HDD & _).
    pose proof (C53_table_length p prec (l_lu L) (l_inv L) n d g tl D prec0 N0 c0 Pp p3 Hprec HL HI Ng Wg Htl HA HDD) as LD.
    exists M, g, nd, fv, D. do 6 (split; [assumption|]). intros LN BN WF.
    assert (NDG : nd = true -> non_degenerate p n d g). { intros ->. destruct CA as [(_ & _ & _ & _ & X & _)|(X & _)]; [exact X|discriminate]. }
    rewrite Hn. replace (Z.to_nat (Z.of_nat n - 1)) with (n - 1)%nat by lia. rewrite Nat2Z.id. split; intros HC.
    - unfold frob_of. destruct nd.
      + destruct (init_ND_succeeds p prec (l_lu L) (l_inv L) n d g tl Pp Hprec HL HI Ng Wg D2 ltac:(lia) Htl (NDG eq_refl)) as (o & Ho & _).
        pose proof (init_ND_dr _ _ _ _ _ _ Ho) as HDo. rewrite HDD in HDo. injection HDo as EDo. rewrite Ho. cbn [bind]. rewrite <- EDo.
        destruct (Z.eqb_spec (zlen (r_basis D) + 1) (zlen (in_cprec i))); [lia|]. reflexivity.
      + rewrite HDD. cbn [bind]. destruct (Z.eqb_spec (zlen (r_basis D) + 1) (zlen (in_cprec i))); [lia|]. reflexivity.
    - rewrite (frob_of_len _ _ _ _ _ _ _ _ _ c0 HC).
      destruct (frob_of_ok p prec (l_lu L) (l_inv L) n d g (in_N i) c0 prec0 N0 Pp p3 Hprec HL HI Ng Wg HA LN BN nd SG NDG) as (D' & HD' & _ & MR).
      { intros ->. destruct WF as [WF|WF]; [discriminate|exact WF]. }
      rewrite HDD in HD'. injection HD' as <-. eexists. split; [exact MR|reflexivity].
  Qed.
End Compute.
