(** Printing and parsing are inverse to each other. *)
From Coq Require Import ZArith List Bool Ascii Lia.
From Verif Require Import Base VecModel VecSpec VecProofs MatModel FrobTop IoModel.
Import ListNotations.
Open Scope Z_scope.

(** ** digits *)
Lemma digit_cases (P : Z -> Prop) : P 0 -> P 1 -> P 2 -> P 3 -> P 4 -> P 5 -> P 6 -> P 7 -> P 8 -> P 9 -> forall d, 0 <= d < 10 -> P d.
Proof.
  intros. assert (C : d = 0 \/ d = 1 \/ d = 2 \/ d = 3 \/ d = 4 \/ d = 5 \/ d = 6 \/ d = 7 \/ d = 8 \/ d = 9) by lia.
  repeat destruct C as [C|C]; subst d; auto.
Qed.
Lemma digit_is d : 0 <= d < 10 -> is_digit (digit_char d) = true.
Proof. revert d. apply digit_cases; reflexivity. Qed.
Lemma digit_val_char d : 0 <= d < 10 -> digit_val (digit_char d) = d.
Proof. revert d. apply digit_cases; reflexivity. Qed.
Lemma digit_not_ws c : is_digit c = true -> is_ws c = false.
Proof.
  unfold is_digit, is_ws. rewrite andb_true_iff, !N.leb_le. intros [H1 H2].
  apply orb_false_iff. split; [apply N.eqb_neq; lia|]. apply andb_false_iff. right. apply N.leb_gt. lia.
Qed.
Lemma digit_not_char c n : is_digit c = true -> (n < 48 \/ 57 < n)%N -> (n < 256)%N -> Ascii.eqb c (chr n) = false.
Proof.
  unfold is_digit. rewrite andb_true_iff, !N.leb_le. intros [H1 H2] H3 H4. apply Ascii.eqb_neq. intros ->.
  unfold chr in *. rewrite N_ascii_embedding in H1, H2 by lia. lia.
Qed.

Lemma print_pos_parse fuel : forall n acc, 0 <= n -> n < 2 ^ Z.of_nat (S fuel) ->
  exists k, 0 <= k /\ forall a, parse_digits a (print_pos fuel n acc) = parse_digits (a * 10 ^ k + n) acc.
Proof.
  induction fuel as [|fuel IH]; intros n acc H0 Hn.
  - cbn [print_pos]. assert (n < 2) by exact Hn. destruct (Z.ltb_spec n 10); [|lia].
    exists 1. split; [lia|]. intros a. cbn [parse_digits]. rewrite digit_is, digit_val_char by lia. reflexivity.
  - cbn [print_pos]. destruct (Z.ltb_spec n 10).
    + exists 1. split; [lia|]. intros a. cbn [parse_digits]. rewrite digit_is, digit_val_char by lia. reflexivity.
    + rewrite Nat2Z.inj_succ, Z.pow_succ_r in Hn by lia.
      destruct (IH (n / 10) (digit_char (n mod 10) :: acc)) as (k & K0 & K).
      { apply Z.div_pos; lia. } { apply Z.div_lt_upper_bound; lia. }
      pose proof (Z.mod_pos_bound n 10 ltac:(lia)).
      exists (k + 1). split; [lia|]. intros a. rewrite K. cbn [parse_digits].
      rewrite digit_is, digit_val_char by auto. f_equal. rewrite Z.pow_add_r by lia.
      pose proof (Z.div_mod n 10 ltac:(lia)). lia.
Qed.
Lemma print_pos_head fuel : forall n acc, 0 <= n -> n < 2 ^ Z.of_nat (S fuel) ->
  exists c r, print_pos fuel n acc = c :: r /\ is_digit c = true.
Proof.
  induction fuel as [|fuel IH]; intros n acc H0 Hn; cbn [print_pos].
  - assert (n < 2) by exact Hn. destruct (Z.ltb_spec n 10); [|lia]. eexists _, _. split; [reflexivity|]. apply digit_is; lia.
  - destruct (Z.ltb_spec n 10); [eexists _, _; split; [reflexivity|apply digit_is; lia]|].
    rewrite Nat2Z.inj_succ, Z.pow_succ_r in Hn by lia.
    apply IH; [apply Z.div_pos; lia|apply Z.div_lt_upper_bound; lia].
Qed.
Lemma print_pos_app fuel : forall n acc, print_pos fuel n acc = print_pos fuel n [] ++ acc.
Proof.
  induction fuel as [|fuel IH]; intros n acc; cbn [print_pos]; destruct (n <? 10); auto.
  rewrite (IH _ (_ :: acc)), (IH _ [_]), <- app_assoc. reflexivity.
Qed.

(** rest of the stream does not continue a number *)
Definition stop (s : text) : Prop := match s with [] => True | c :: _ => is_digit c = false end.

Lemma stop_digits a s : stop s -> parse_digits a s = (a, s).
Proof. destruct s as [|c r]; cbn [stop parse_digits]; [auto|]. now intros ->. Qed.

Lemma log_fuel x : 0 <= x -> x < 2 ^ Z.of_nat (S (Z.to_nat (Z.log2 x))).
Proof.
  intros H. rewrite Nat2Z.inj_succ, Z2Nat.id by apply Z.log2_nonneg.
  destruct (Z.eq_dec x 0) as [->|]; [reflexivity|]. apply Z.log2_spec. lia.
Qed.

Lemma parse_print_pos x rest : 0 <= x -> stop rest ->
  parse_nat (print_pos (Z.to_nat (Z.log2 x)) x [] ++ rest) = OK (x, rest).
Proof.
  intros H St. rewrite <- print_pos_app. pose proof (log_fuel x H) as F.
  destruct (print_pos_head _ x rest H F) as (c & r & E & D). unfold parse_nat. rewrite E, D, <- E.
  destruct (print_pos_parse _ x rest H F) as (k & _ & K). rewrite K.
  change (0 * 10 ^ k + x) with (0 + x). rewrite Z.add_0_l, (stop_digits x rest St). reflexivity.
Qed.

(** what a printed value starts with: neither blank nor bracket *)
Definition starts (s : text) : Prop :=
  match s with [] => False | c :: _ => is_ws c = false /\ Ascii.eqb c c_close = false end.

Definition readable {A} (ok : A -> Prop) (pr : A -> text) (pe : text -> res (A * text)) : Prop :=
  forall x, ok x -> starts (pr x) /\ forall rest, stop rest -> pe (pr x ++ rest) = OK (x, rest).

Lemma skip_start s rest : starts s -> skip_ws (s ++ rest) = s ++ rest.
Proof. destruct s as [|c r]; cbn [starts]; [tauto|]. intros [H _]. cbn [app skip_ws]. now rewrite H. Qed.

Lemma print_Z_read : readable (fun _ => True) print_Z parse_Z.
Proof.
  intros x _. unfold print_Z. destruct (Z.ltb_spec x 0) as [L|L].
  - split; [now cbn|]. intros rest St. unfold parse_Z. cbn [app skip_ws]. change (is_ws c_minus) with false. cbv iota.
    change (Ascii.eqb c_minus c_minus) with true. cbv iota. rewrite parse_print_pos by (auto; lia). cbn [bind fst snd].
    now rewrite Z.opp_involutive.
  - pose proof (log_fuel x L) as F. destruct (print_pos_head _ x [] L F) as (c & r & E & D).
    assert (St : starts (print_pos (Z.to_nat (Z.log2 x)) x [])).
    { rewrite E. split; [now apply digit_not_ws|]. apply digit_not_char; auto; lia. }
    split; [exact St|]. intros rest Sr. unfold parse_Z. rewrite skip_start by exact St.
    rewrite <- (parse_print_pos x rest L Sr). rewrite E. cbn [app].
    pose proof (digit_not_char c 45 D ltac:(lia) ltac:(lia)) as M. fold c_minus in M. now rewrite M.
Qed.

Lemma print_mod_read q : readable (fun x => x mod q = x) print_Z (parse_mod q).
Proof.
  intros x Hx. destruct (print_Z_read x I) as [H1 H2]. split; auto. intros rest St. unfold parse_mod.
  rewrite H2 by auto. cbn [bind fst snd]. now rewrite Hx.
Qed.

Lemma print_bool_read : readable (fun _ => True) print_bool parse_bool.
Proof.
  intros b _. unfold print_bool. destruct (print_Z_read (if b then 1 else 0) I) as [H1 H2]. split; auto.
  intros rest St. unfold parse_bool. rewrite H2 by auto. cbn [bind fst snd]. now destruct b.
Qed.

(** ** vectors and matrices *)
Section VEC.
  Context {A : Type}.
  Variables (ok : A -> Prop) (pr : A -> text) (pe : text -> res (A * text)).
  Hypothesis R : readable ok pr pe.

  Lemma starts_len s : starts s -> (1 <= length s)%nat.
  Proof. destruct s; cbn; [tauto|lia]. Qed.
  Lemma skip_sp s : skip_ws (c_sp :: s) = skip_ws s.
  Proof. reflexivity. Qed.
  Lemma skip_nl s : skip_ws (c_nl :: s) = skip_ws s.
  Proof. reflexivity. Qed.
  Lemma skip_close s : skip_ws (c_close :: s) = c_close :: s.
  Proof. reflexivity. Qed.

  (** one element followed by something not continuing a number *)
  Lemma parse_elem_step fuel x rest : ok x -> stop rest ->
    parse_elems pe (S fuel) (pr x ++ rest) = (l <- parse_elems pe fuel rest ;; OK (x :: fst l, snd l)).
  Proof.
    intros O St. destruct (R x O) as [S1 S2]. cbn [parse_elems]. rewrite skip_start by auto.
    destruct (pr x) as [|c r] eqn:E; [destruct S1|]. cbn [app]. destruct S1 as [W C]. rewrite C.
    change (c :: r ++ rest) with ((c :: r) ++ rest). rewrite S2 by auto. cbn [bind fst snd]. reflexivity.
  Qed.
  Lemma parse_elems_ws fuel c s : is_ws c = true -> parse_elems pe fuel (c :: s) = parse_elems pe fuel s.
  Proof. intros H. destruct fuel; cbn [parse_elems skip_ws]; rewrite H; reflexivity. Qed.
  Lemma parse_elems_end fuel s : parse_elems pe fuel (c_close :: s) = OK ([], s).
  Proof. destruct fuel; reflexivity. Qed.

  Lemma print_elems_read l : forall fuel rest, Forall ok l -> (length l <= fuel)%nat ->
    parse_elems pe fuel (print_elems pr l ++ c_close :: rest) = OK (l, rest).
  Proof.
    induction l as [|x l IH]; intros fuel rest F L; [apply parse_elems_end|].
    inversion F as [|? ? O F']; subst. destruct fuel as [|fuel]; [cbn in L; lia|]. cbn [length] in L.
    destruct l as [|y l].
    - cbn [print_elems]. rewrite parse_elem_step by (auto; reflexivity). now rewrite parse_elems_end.
    - change (print_elems pr (x :: y :: l)) with (pr x ++ [c_sp] ++ print_elems pr (y :: l)).
      rewrite <- !app_assoc. rewrite parse_elem_step by (auto; reflexivity).
      cbn [app]. rewrite parse_elems_ws by reflexivity. rewrite IH by (auto; lia). reflexivity.
  Qed.

  Lemma print_elems_len l : Forall ok l -> (length l <= length (print_elems pr l))%nat.
  Proof.
    induction l as [|x l IH]; intros F; [auto|]. inversion F as [|? ? O F']; subst.
    pose proof (starts_len _ (proj1 (R x O))). specialize (IH F'). destruct l as [|y l]; [cbn in *; lia|].
    change (print_elems pr (x :: y :: l)) with (pr x ++ [c_sp] ++ print_elems pr (y :: l)).
    rewrite !app_length. cbn [length] in *. lia.
  Qed.

  Lemma print_vec_read : readable (Forall ok) (print_vec pr) (parse_vec pe).
  Proof.
    intros l F. split; [now cbn|]. intros rest _. unfold print_vec, parse_vec. cbn [app skip_ws].
    change (is_ws c_open) with false. cbv iota. change (Ascii.eqb c_open c_open) with true. cbv iota.
    rewrite <- app_assoc. cbn [app]. apply print_elems_read; auto.
    rewrite app_length. pose proof (print_elems_len l F). lia.
  Qed.
End VEC.

Section MAT.
  Context {A : Type}.
  Variables (ok : A -> Prop) (pr : A -> text) (pe : text -> res (A * text)).
  Hypothesis R : readable ok pr pe.

  Lemma print_rows_read M : forall fuel rest, Forall (Forall ok) M -> (length M <= fuel)%nat ->
    parse_elems (parse_vec pe) fuel (flat_map (fun r => print_vec pr r ++ [c_nl]) M ++ c_close :: rest) = OK (M, rest).
  Proof.
    pose proof (print_vec_read ok pr pe R) as RV.
    induction M as [|r M IH]; intros fuel rest F L; [apply parse_elems_end|].
    inversion F as [|? ? O F']; subst. destruct fuel as [|fuel]; [cbn in L; lia|]. cbn [length] in L.
    cbn [flat_map]. rewrite <- !app_assoc. rewrite (parse_elem_step _ _ _ RV) by (auto; reflexivity).
    cbn [app]. rewrite parse_elems_ws by reflexivity. rewrite IH by (auto; lia). reflexivity.
  Qed.
  Lemma print_rows_len (M : list (list A)) : (length M <= length (flat_map (fun r => print_vec pr r ++ [c_nl]) M))%nat.
  Proof.
    induction M as [|r M IH]; [auto|]. cbn [flat_map length]. rewrite !app_length. cbn [length]. lia.
  Qed.

  Lemma print_mat_rows M rest : Forall (Forall ok) M -> parse_vec (parse_vec pe) (print_mat pr M ++ rest) = OK (M, rest).
  Proof.
    intros F. unfold print_mat, parse_vec at 1. cbn [app skip_ws].
    change (is_ws c_open) with false. cbv iota. change (Ascii.eqb c_open c_open) with true. cbv iota.
    rewrite <- app_assoc. cbn [app]. apply print_rows_read; auto.
    rewrite app_length. pose proof (print_rows_len M). lia.
  Qed.

  Lemma print_mat_read k : readable (fun M => Forall (Forall ok) M /\ Forall (fun r => length r = k) M) (print_mat pr) (parse_mat pe).
  Proof.
    intros M [F L]. split; [now cbn|]. intros rest _. unfold parse_mat. rewrite print_mat_rows by auto. cbn [bind fst].
    unfold check. replace (forallb _ M) with true; [reflexivity|]. symmetry. apply forallb_forall. intros r Hr.
    rewrite Forall_forall in L. rewrite (L r Hr). apply Nat.eqb_eq. destruct M as [|r0 M]; [destruct Hr|].
    cbn [nth]. symmetry. apply L. now left.
  Qed.
End MAT.

(** ** polynomial maps *)
Lemma mput_ok {V} n k (v : V) m : vsorted (S n) m -> length k = S n -> mput k v m = OK (vinsert k v m).
Proof.
  intros Hs Hk. destruct m as [|[k0 v0] m]; [reflexivity|]. unfold mput.
  assert (length k0 = S n) by (eapply vsorted_len; eauto; now left).
  rewrite vec_less_ok; [reflexivity|congruence|]. intros ->. discriminate.
Qed.

(** the last coefficient given for a monomial *)
Fixpoint last_coef (ms : list vec) (cs : list Z) (k : vec) : option Z :=
  match ms, cs with
  | m :: ms, c :: cs =>
      match last_coef ms cs k with
      | Some x => Some x
      | None => if vec_eq_dec m k then Some c else None
      end
  | _, _ => None
  end.

Lemma last_coef_snoc ms cs m c k : length ms = length cs ->
  last_coef (ms ++ [m]) (cs ++ [c]) k = if vec_eq_dec m k then Some c else last_coef ms cs k.
Proof.
  revert cs. induction ms as [|m0 ms IH]; intros [|c0 cs] L; try discriminate; cbn [app last_coef]; [reflexivity|].
  rewrite IH by (injection L; auto). destruct (vec_eq_dec m k); auto.
Qed.

Definition is_filled (n : nat) (ms : list vec) (cs : list Z) (m : vmap Z) : Prop :=
  vsorted n m /\ forall k, length k = n -> vfind k m = last_coef ms cs k.

Lemma fill_prefix n ms cs : length ms = length cs -> Forall (fun k => length k = S n) ms ->
  exists m, foldM (fun m i => mput (nth i ms []) (nth i cs 0) m) (seq 0 (length cs)) [] = OK m /\ is_filled (S n) ms cs m.
Proof.
  revert cs. induction ms as [|x ms IH] using rev_ind; intros cs L F.
  - destruct cs; [|discriminate]. exists []. split; [reflexivity|]. split; [constructor|reflexivity].
  - destruct (exists_last (l := cs)) as (cs' & c & ->). { intros ->. rewrite app_length in L. cbn in L. lia. }
    rewrite !app_length in *. cbn [length] in *. assert (L' : length ms = length cs') by lia.
    apply Forall_app in F. destruct F as [F Fx]. inversion Fx as [|? ? Hx _]; subst.
    destruct (IH cs' L' F) as (m & E & Hs & Hf).
    exists (vinsert x c m). rewrite Nat.add_1_r, seq_S, foldM_app, Nat.add_0_l.
    replace (foldM _ (seq 0 (length cs')) []) with (OK m).
    + cbn [bind foldM]. rewrite !app_nth2, L', !Nat.sub_diag by lia. cbn [nth]. rewrite (mput_ok n) by auto. cbn [bind].
      split; [reflexivity|]. split; [now apply vinsert_sorted|]. intros k Hk. rewrite last_coef_snoc by auto.
      destruct (vec_eq_dec x k) as [->|Ne]; [now apply (vfind_insert_eq (S n))|].
      rewrite (vfind_insert_neq (S n)) by (auto; congruence). now apply Hf.
    + rewrite <- E. clear -L'. assert (H : forall l, (forall i, In i l -> (i < length cs')%nat) -> forall m0 : vmap Z,
        foldM (fun m i => mput (nth i ms []) (nth i cs' 0) m) l m0 = foldM (fun m i => mput (nth i (ms ++ [x]) []) (nth i (cs' ++ [c]) 0) m) l m0).
      { induction l as [|i l IH]; intros Hl m0; [reflexivity|]. cbn [foldM].
        rewrite !app_nth1 by (pose proof (Hl i (or_introl eq_refl)); lia).
        destruct (mput (nth i ms []) (nth i cs' 0) m0); [|reflexivity]. cbn [bind]. apply IH. intros j J. apply Hl. now right. }
      apply H. intros i Hi. apply in_seq in Hi. lia.
Qed.

Lemma last_coef_sorted n (m : vmap Z) k : vsorted n m -> length k = n -> last_coef (map fst m) (map snd m) k = vfind k m.
Proof.
  intros Hs Hk. induction Hs as [|k0 v0 m Hk0 Hs IH Hlt]; [reflexivity|]. cbn [map fst snd last_coef].
  rewrite IH. destruct (vfind k m) as [x|] eqn:E.
  - apply (vfind_In n) in E; auto. symmetry. apply (vfind_In n); [now constructor|auto|now right].
  - destruct (vec_eq_dec k0 k) as [->|Ne].
    + symmetry. apply (vfind_In n); [now constructor|auto|now left].
    + destruct (vfind k ((k0, v0) :: m)) as [y|] eqn:E2; auto.
      apply (vfind_In n) in E2; [|now constructor|auto]. destruct E2 as [E2|E2]; [congruence|].
      apply (vfind_In n) in E2; auto. congruence.
Qed.

Lemma vsorted_find_ext {V} n (m1 m2 : vmap V) : vsorted n m1 -> vsorted n m2 ->
  (forall k, length k = n -> vfind k m1 = vfind k m2) -> m1 = m2.
Proof.
  intros H1 H2 H. apply (vsorted_ext n); auto. intros k v. split; intros J.
  - assert (L := vsorted_len n _ _ _ H1 J). apply (vfind_In n) in J; auto. apply (vfind_In n); auto. now rewrite <- H.
  - assert (L := vsorted_len n _ _ _ H2 J). apply (vfind_In n) in J; auto. apply (vfind_In n); auto. now rewrite H.
Qed.

Lemma sorted_keys {V} n (m : vmap V) : vsorted n m -> Forall (fun k => length k = n) (map fst m).
Proof.
  intros H. apply Forall_forall. intros k Hk. apply in_map_iff in Hk. destruct Hk as ([k' v] & <- & J).
  eapply vsorted_len; eauto.
Qed.

(** parsing any list of monomials and coefficients *)
Lemma parse_map_list q n ms cs rest : length ms = length cs -> Forall (fun k => length k = S n) ms ->
  Forall (fun c => c mod q = c) cs ->
  exists m, parse_map q (print_mat print_Z ms ++ [c_nl] ++ print_vec print_Z cs ++ [c_nl] ++ rest) = OK (m, c_nl :: rest) /\
    is_filled (S n) ms cs m.
Proof.
  intros L F Fc. destruct (fill_prefix n ms cs L F) as (m & E & Hm). exists m. split; auto.
  unfold parse_map. rewrite (print_mat_rows (fun _ => True) print_Z parse_Z print_Z_read).
  2:{ apply Forall_forall. intros r _. apply Forall_forall. auto. }
  cbn [bind fst snd app].
  assert (Sk : forall s, parse_vec (parse_mod q) (c_nl :: s) = parse_vec (parse_mod q) s) by reflexivity.
  rewrite Sk. destruct (print_vec_read _ _ _ (print_mod_read q) cs Fc) as [_ P]. rewrite (P (c_nl :: rest)) by reflexivity.
  cbn [bind fst snd]. unfold check. rewrite L, Nat.eqb_refl. cbn [bind]. unfold fill_map. rewrite E. reflexivity.
Qed.

(** the same with "[[..] [..]]" as monomials (as a user writes them) *)
Lemma parse_map_vec q n ms cs rest : length ms = length cs -> Forall (fun k => length k = S n) ms ->
  Forall (fun c => c mod q = c) cs -> stop rest ->
  exists m, parse_map q (print_vec (print_vec print_Z) ms ++ [c_nl] ++ print_vec print_Z cs ++ rest) = OK (m, rest) /\
    is_filled (S n) ms cs m.
Proof.
  intros L F Fc St. destruct (fill_prefix n ms cs L F) as (m & E & Hm). exists m. split; auto.
  unfold parse_map. destruct (print_vec_read _ _ _ (print_vec_read _ _ _ print_Z_read) ms) as [_ P1].
  { apply Forall_forall. intros r _. apply Forall_forall. auto. }
  rewrite P1 by reflexivity. cbn [bind fst snd app].
  assert (Sk : forall s, parse_vec (parse_mod q) (c_nl :: s) = parse_vec (parse_mod q) s) by reflexivity.
  rewrite Sk. destruct (print_vec_read _ _ _ (print_mod_read q) cs Fc) as [_ P]. rewrite (P rest) by auto.
  cbn [bind fst snd]. unfold check. rewrite L, Nat.eqb_refl. cbn [bind]. unfold fill_map. rewrite E. reflexivity.
Qed.

Theorem map_round_trip q n (m : vmap Z) : m <> [] -> vsorted (S n) m -> Forall (fun kc => snd kc mod q = snd kc) m ->
  exists s, print_map m = OK s /\ forall rest, parse_map q (s ++ rest) = OK (m, c_nl :: rest).
Proof.
  intros Ne Hs Fc. destruct m as [|[k0 c0] m0] eqn:Em; [congruence|]. rewrite <- Em in *.
  assert (Hl : forallb (fun kc => Nat.eqb (length (fst kc)) (length k0)) m = true).
  { apply forallb_forall. intros [k c] J. cbn [fst]. apply Nat.eqb_eq.
    rewrite (vsorted_len (S n) m k c Hs J). symmetry. apply (vsorted_len (S n) m k0 c0 Hs). rewrite Em. now left. }
  exists (print_mat print_Z (map fst m) ++ [c_nl] ++ print_vec print_Z (map snd m) ++ [c_nl]). split.
  { unfold print_map. rewrite Em at 1. unfold check. rewrite Hl. reflexivity. }
  intros rest. rewrite <- !app_assoc.
  destruct (parse_map_list q n (map fst m) (map snd m) rest) as (m' & E & Hs' & Hf).
  - now rewrite !map_length.
  - now apply sorted_keys.
  - apply Forall_forall. intros c Hc. apply in_map_iff in Hc. destruct Hc as (kc & <- & J). rewrite Forall_forall in Fc. now apply Fc.
  - rewrite E. f_equal. f_equal. apply (vsorted_find_ext (S n)); auto. intros k Hk. rewrite Hf by auto.
    now apply (last_coef_sorted (S n)).
Qed.

Lemma zeta_inputs_agree n p ms cs rest : length ms = length cs -> Forall (fun k => length k = S n) ms -> stop rest ->
  exists m, is_filled (S n) ms cs m /\
    zeta_input_vectors ms cs = OK m /\ zeta_input_int64 ms cs = OK m /\
    zeta_input_text (print_Z p ++ [c_nl] ++ print_vec (print_vec print_Z) ms ++ [c_nl] ++ print_vec print_Z cs ++ rest) = OK (p, m).
Proof.
  intros L F St. destruct (fill_prefix n ms cs L F) as (m & E & Hm). exists m. split; auto.
  assert (V : zeta_input_vectors ms cs = OK m).
  { unfold zeta_input_vectors, check. rewrite L, Nat.eqb_refl. exact E. }
  split; [auto|]. split; [unfold zeta_input_int64; now rewrite map_id|].
  unfold zeta_input_text. destruct (print_Z_read p I) as [_ P]. rewrite P by reflexivity. cbn [bind fst snd].
  destruct (parse_map_vec 0 n ms cs rest L F) as (m' & E' & Hs & Hf); auto.
  { apply Forall_forall. intros c _. apply Zmod_0_r. }
  cbn [app]. assert (Sk : forall s, parse_map 0 (c_nl :: s) = parse_map 0 s) by reflexivity. rewrite Sk.
  cbn [app] in E'. rewrite E'. cbn [bind fst snd]. do 2 f_equal.
  destruct Hm as [Hs1 Hf1]. apply (vsorted_find_ext (S n)); auto. intros k Hk. rewrite Hf, Hf1; auto.
Qed.

Lemma last_coef_spec ms : forall cs k c, length ms = length cs ->
  last_coef ms cs k = Some c <->
  exists i, (i < length ms)%nat /\ nth i ms [] = k /\ nth i cs 0 = c /\
    forall j, (i < j < length ms)%nat -> nth j ms [] <> k.
Proof.
  induction ms as [|m ms IH] using rev_ind; intros cs k c L.
  - destruct cs; [|discriminate]. split; [discriminate|]. intros (i & H & _). cbn in H. lia.
  - destruct cs as [|c1 cs _] using rev_ind; [rewrite app_length in L; cbn in L; lia|]. rewrite !app_length in L. cbn in L.
    assert (L' : length ms = length cs) by lia. rewrite last_coef_snoc by auto.
    destruct (vec_eq_dec m k) as [->|Nk].
    + split.
      * intros H. injection H as <-. exists (length ms). rewrite app_length, app_nth2, Nat.sub_diag by lia.
        rewrite L', app_nth2, Nat.sub_diag by lia. cbn [length nth]. repeat split; auto; lia.
      * intros (i & H1 & H2 & H3 & H4). rewrite app_length in *. cbn [length] in *.
        assert (i = length ms).
        { destruct (Nat.eq_dec i (length ms)); auto. exfalso. apply (H4 (length ms)); [lia|].
          now rewrite app_nth2, Nat.sub_diag by lia. }
        subst i. rewrite L', app_nth2, Nat.sub_diag in H3 by lia. cbn in H3. congruence.
    + rewrite IH by auto. rewrite app_length. cbn [length]. split; intros (i & H1 & H2 & H3 & H4); exists i.
      * split; [lia|]. rewrite !app_nth1 by lia. repeat split; auto. intros j Hj.
        destruct (Nat.eq_dec j (length ms)) as [->|]; [now rewrite app_nth2, Nat.sub_diag by lia|].
        rewrite app_nth1 by lia. apply H4. lia.
      * assert (i <> length ms). { intros ->. rewrite app_nth2, Nat.sub_diag in H2 by lia. cbn in H2. congruence. }
        rewrite app_nth1 in H2 by lia. rewrite app_nth1 in H3 by lia. repeat split; auto; [lia|].
        intros j Hj. specialize (H4 j ltac:(lia)). rewrite app_nth1 in H4 by lia. exact H4.
Qed.

Lemma zeta_inputs_lengths n p ms cs rest : length ms <> length cs -> Forall (fun k => length k = S n) ms -> stop rest ->
  zeta_input_vectors ms cs = Err EAssert /\ zeta_input_int64 ms cs = Err EAssert /\
  zeta_input_text (print_Z p ++ [c_nl] ++ print_vec (print_vec print_Z) ms ++ [c_nl] ++ print_vec print_Z cs ++ rest) = Err EAbort.
Proof.
  intros L F St. assert (V : zeta_input_vectors ms cs = Err EAssert).
  { unfold zeta_input_vectors, check. destruct (Nat.eqb_spec (length ms) (length cs)); [contradiction|reflexivity]. }
  split; auto. split; [unfold zeta_input_int64; now rewrite map_id|].
  unfold zeta_input_text. destruct (print_Z_read p I) as [_ P]. rewrite P by reflexivity. cbn [bind fst snd app].
  unfold parse_map.
  assert (SV : forall (pe : text -> res (list Z * text)) s, parse_vec pe (c_nl :: s) = parse_vec pe s) by reflexivity.
  assert (SW : forall (pe : text -> res (Z * text)) s, parse_vec pe (c_nl :: s) = parse_vec pe s) by reflexivity.
  rewrite SV.
  rewrite (proj2 (print_vec_read _ _ _ (print_vec_read _ _ _ print_Z_read) ms
    ltac:(apply Forall_forall; intros; apply Forall_forall; auto))) by reflexivity.
  cbn [bind fst snd]. rewrite SW.
  rewrite (proj2 (print_vec_read _ _ _ (print_mod_read 0) cs ltac:(apply Forall_forall; intros c _; apply Zmod_0_r))) by auto.
  cbn [bind fst snd]. unfold check. destruct (Nat.eqb_spec (length ms) (length cs)); [contradiction|reflexivity].
Qed.
