(** Property C67: routines that write through pointers, and when two of their
    arguments may be the same object. *)
From Coq Require Import ZArith List Bool Lia.
From Verif Require Import Base VecModel VecProofs MatModel MatProofs FdModel DRProofs NDModel MemModel MemSpec MemProofs MemLoop.
Import ListNotations.
Open Scope Z_scope.

(** C67: mul(result, A, v) is the product, whatever the result contained before, if
    the result is neither operand *)
Theorem C67_mul : forall q m result a v r c A V, result <> a -> result <> v ->
  holds m a r c A -> holdsv m v V -> length V = c -> room m result r 1 ->
  exists m', nmod_mul q m result a v = OK m' /\ only result m m' /\
    holdsv m' result (map (fun i => sumf (fun l => nth l (nth i A []) 0 * nth l V 0) (seq 0 c) mod q) (seq 0 r)).
Proof.
  intros q m result a v r c A V Na Nv HA HV L R. destruct (nmod_mul_ok q m result a v r c A V Na Nv HA HV L R) as (m' & W & E & _ & O & EW & LW & HW).
  exists m'. split; [exact E|]. split; [exact O|]. replace (map _ (seq 0 r)) with W; [exact HW|].
  destruct HA as (A1 & A2 & A3 & A4 & A5). unfold mat_vec in EW. destruct (forallb _ A); [|discriminate]. injection EW as <-.
  rewrite map_length in LW. apply vec_ext; [now rewrite !map_length, seq_length|]. intros i Hi. rewrite map_length in Hi. rewrite (nth_map_in _ A i []), nth_map_seq by lia.
  f_equal. assert (Li : length (nth i A []) = c) by (apply A4, nth_In; lia). rewrite vdot_idx by congruence. now rewrite Li.
Qed.
Print Assumptions C67_mul.

(** C67: nmod_mat_sub is the difference even if some or all of the three matrices
    are the same object *)
Theorem C67_sub : forall q m c a b r k A B, holds m a r k A -> holds m b r k B -> room m c r k ->
  exists m', nmod_mat_sub q m c a b = OK m' /\ only c m m' /\
    holds m' c r k (mk r k (fun i j => (nth j (nth i A []) 0 - nth j (nth i B []) 0) mod q)).
Proof.
  intros q m c a b r k A B HA HB HC. destruct (nmod_mat_sub_ok q m c a b r k A B HA HB HC) as (m' & E & O & H). exists m'. split; [exact E|]. split; [exact O|].
  destruct HA as (A1 & A2 & A3 & A4 & A5), HB as (B1 & B2 & B3 & B4 & B5). destruct H as (H1 & H2 & _ & _ & H5). apply holds_mk; auto. intros i j Hi Hj.
  rewrite H5 by auto. unfold nmod_sub. rewrite (nth_map2 _ A B i [] [] []) by (auto; congruence).
  rewrite (nth_map2 _ (nth i A []) (nth i B []) j 0 0 0); [auto| |apply Zmod_0_l]. rewrite (A4 (nth i A [])), (B4 (nth i B [])); auto; apply nth_In; lia.
Qed.
Print Assumptions C67_sub.

(** C67: the products with a transposed matrix, the templates and the
    specialisations for ZZ_p, which agree *)
Theorem C67_products : forall q m result a b rA rB k A B, result <> a -> result <> b -> holds m a rA k A -> holds m b rB k B ->
  let good f r c g := exists m', f q m result a b = OK m' /\ only result m m' /\ holds m' result r c (mk r c g) in
  good mul_transpose rA rB (fun i j => prod_entry k A B i j mod q) /\
  good mul_transpose_ZZ_p rA rB (fun i j => prod_entry k A B i j mod q) /\
  good transpose_mul_transpose rB rA (fun j i => prod_entry k A B i j mod q) /\
  good transpose_mul_transpose_ZZ_p rB rA (fun j i => prod_entry k A B i j mod q).
Proof.
  intros q m result a b rA rB k A B Na Nb HA HB good. split; [|split; [|split]].
  - now apply mul_transpose_ok.
  - now apply mul_transpose_ZZ_p_ok.
  - now apply transpose_mul_transpose_ok.
  - now apply transpose_mul_transpose_ZZ_p_ok.
Qed.
Print Assumptions C67_products.

(** C67: the two calls of solve_system.cc 562-563 (commented out in the source) give
    U X U, as the live code of 551-552 does *)
Theorem C67_UXU : forall q m tmp0 tmp1 x u ut s t X U UT, 1 <= q ->
  holds m x t s X -> holds m u s t U -> holds m ut t s UT ->
  (forall i j, (i < t)%nat -> (j < s)%nat -> nth j (nth i UT []) 0 = nth i (nth j U []) 0) ->
  tmp0 <> x -> tmp0 <> ut -> tmp0 <> u -> tmp1 <> u -> tmp1 <> tmp0 ->
  exists m1 m2, transpose_mul_transpose_ZZ_p q m tmp0 x ut = OK m1 /\ mul_transpose_ZZ_p q m1 tmp1 u tmp0 = OK m2 /\
    holds m2 u s t U /\
    holds m2 tmp1 s t (mk s t (fun i j =>
      sumf (fun k => nth k (nth i U []) 0 * sumf (fun l => nth l (nth k X []) 0 * nth j (nth l U []) 0) (seq 0 s)) (seq 0 t) mod q)).
Proof.
  intros q m tmp0 tmp1 x u ut s t X U UT Hq HX HU HUT T N1 N2 N3 N4 N5.
  destruct (transpose_mul_transpose_ZZ_p_ok q m tmp0 x ut t t s X UT N1 N2 HX HUT) as (m1 & E1 & O1 & H1).
  assert (HU1 : holds m1 u s t U) by (apply (holds_only m m1 tmp0); auto).
  destruct (mul_transpose_ZZ_p_ok q m1 tmp1 u tmp0 s t t U _ N4 N5 HU1 H1) as (m2 & E2 & O2 & H2).
  exists m1, m2. split; [exact E1|]. split; [exact E2|]. split; [apply (holds_only m1 m2 tmp1); auto|].
  destruct H2 as (A1 & A2 & _ & _ & A5). apply holds_mk; auto. intros i j Hi Hj. rewrite A5 by auto. rewrite mk_nth by auto.
  unfold prod_entry at 1. apply cong_iff_mod; [lia|]. apply cong_sumf. intros k K. apply in_seq in K. rewrite mk_nth by lia. apply cong_mul; [apply cong_refl|].
  eapply cong_trans; [apply cong_mod|]. unfold prod_entry. replace (sumf _ (seq 0 s)) with (sumf (fun l => nth l (nth k X []) 0 * nth j (nth l U []) 0) (seq 0 s)); [apply cong_refl|].
  apply sumf_ext. intros l I. apply in_seq in I. rewrite T by lia. reflexivity.
Qed.
Print Assumptions C67_UXU.

(** C67: the loop of the word-size branch of reduce_vector_ND_poly_flint with its
    three buffers, of which two are exchanged in every pass, computes what the
    functional model says; the buffers Gout and Gtmp may contain anything (they are
    not initialised) *)
Theorem C67_word_loop : forall q n dp P Ps gtmp gin gout m G iterations, 1 <= q < 2 ^ 64 -> (1 <= dp)%nat -> iterations <= Z.of_nat n + 1 ->
  gin <> gout -> gin <> gtmp -> gout <> gtmp ->
  (forall i, (i <= S n)%nat -> P i <> gin /\ P i <> gout /\ P i <> gtmp /\ holds m (P i) dp dp (nth i Ps [])) ->
  holdsv m gin G -> length G = dp -> room m gout dp 1 -> room m gtmp dp 1 ->
  match reduce_vector_ND_poly_flint n q Ps iterations G with
  | OK W => exists m' g g', word_loop q n dp P iterations gtmp (m, (gin, gout)) = OK (m', (g, g')) /\ holdsv m' g W
  | Err e => word_loop q n dp P iterations gtmp (m, (gin, gout)) = Err e
  end.
Proof.
  intros q n dp P Ps gtmp gin gout m G iterations Hq Hd Hi N1 N2 N3 HP HG LG R1 R2. unfold reduce_vector_ND_poly_flint, word_loop.
  rewrite (proj2 (Z.leb_gt (2 ^ 64) q)) by lia. rewrite (proj2 (Z.ltb_ge (Z.of_nat n + 1) iterations)) by lia.
  pose proof (word_loop_ok q n dp P Ps gtmp (rev (zseq 0 iterations)) ltac:(lia) Hd (m, (gin, gout)) G) as X.
  destruct (foldM _ _ G) as [W|e].
  - destruct X as ((m' & g & g') & E & I); [unfold word_inv; cbn [fst snd]; auto 10|]. exists m', g, g'. split; [exact E|apply I].
  - apply X. unfold word_inv. cbn [fst snd]. auto 10.
Qed.
Print Assumptions C67_word_loop.

Lemma fd_trim_pos d boxes i : forall len, fd_trim d boxes i = OK len -> (1 <= len)%nat.
Proof.
  induction i as [|i IH]; intros len X; cbn [fd_trim] in X; [discriminate X|].
  destruct (Nat.eqb _ _ && Nat.eqb _ _); [auto|]. injection X as <-. lia.
Qed.
Lemma fd_box_rows d M : (fst (fd_box d M) <= d)%nat.
Proof.
  unfold fd_box. assert (X : forall (l : list (nat * nat)) (b : nat * nat), (forall jl, In jl l -> (fst jl < d)%nat) -> (fst b <= d)%nat ->
    (fst (fold_left (fun (b : nat * nat) (jl : nat * nat) => if (mget M (fst jl) (snd jl) =? 0)%Z then b else (if Nat.leb (fst b) (fst jl) then S (fst jl) else fst b, if Nat.ltb (snd jl) (snd b) then snd jl else snd b)) l b) <= d)%nat).
  { induction l as [|jl l IH]; intros b H Hb; cbn [fold_left]; auto. apply IH; [intros; apply H; now right|]. specialize (H jl (or_introl eq_refl)).
    destruct (mget M (fst jl) (snd jl) =? 0); auto. cbn [fst]. destruct (Nat.leb (fst b) (fst jl)); lia. }
  apply X; cbn; [|lia]. intros (j & l) I. apply in_prod_iff in I. rewrite in_seq in I. cbn. lia.
Qed.

(** C67: the finite differences with their table in place and their two buffers give
    what the functional model says: if that returns R, then the code, started with
    the table of values T in memory, ends with the pointer H at R, and the assertion about Mfd[0] holds *)
Theorem C67_finitediff : forall q (M : list mat) k G R, let d := length (nth 0 M []) in let boxes := map (fd_box d) M in
  finitediff q M k G = OK R -> length G = d ->
  exists len T, fd_trim d boxes (length M) = OK len /\ (1 <= len)%nat /\
    mapM (fun l => fd_value q d len M (k - Z.of_nat len + Z.of_nat l)) (seq 0 len) = OK T /\
    forall A m h ho, (forall i j, (i < len)%nat -> (j < len)%nat -> A i = A j -> i = j) -> h <> ho ->
      (forall j, (j < len)%nat -> h <> A j /\ ho <> A j /\ holds m (A j) d d (nth j T [])) -> holdsv m h G -> room m ho d 1 ->
      exists m' h' ho', fd_run_mem q A len boxes (Z.to_nat (k - Z.of_nat len)) (m, (h, ho)) = OK (m', (h', ho')) /\
        holdsv m' h' R /\ holds m' (A 0%nat) d d (nth 0 M []).
Proof.
  intros q M k G R d boxes E LG. unfold finitediff in E. fold d in E. apply bind_ok in E. destruct E as (? & _ & E). fold boxes in E.
  apply bind_ok in E. destruct E as (len & El & E). cbv zeta in E. apply bind_ok in E. destruct E as (T & ET & E). apply bind_ok in E. destruct E as (H & EH & E).
  apply bind_ok in E. destruct E as ((T' & H') & EL & E). apply bind_ok in E. destruct E as (? & EC & E). injection E as ->. cbn [fst snd] in *.
  assert (Hl : (1 <= len)%nat).
  { eapply fd_trim_pos; exact El. }
  exists len, T. split; [exact El|]. split; [exact Hl|]. split; [exact ET|]. intros A m h ho Ai Nh HA HG HR.
  assert (I : fd_inv d len A (m, (h, ho)) T G).
  { unfold fd_inv, tab. cbn [fst snd]. split; [auto|]. split; [intros j Hj; split; apply (HA j Hj)|]. split; [|auto]. split; [|intros j Hj; apply (HA j Hj)].
    apply mapM_ok in ET. clear - ET. rewrite <- (seq_length len 0). induction ET; cbn; congruence. }
  destruct (fd_run_ok q d len A Ai boxes) with (k := Z.to_nat (k - Z.of_nat len)) (st := (m, (h, ho))) (T := T) (G := G) as ((m' & h' & ho') & H0 & T0 & H1 & E1 & E2 & E3 & I'); auto.
  { intros j. unfold boxes. destruct (Nat.lt_ge_cases j (length M)) as [L|L].
    - rewrite (nth_map_in _ M j []) by auto. apply fd_box_rows.
    - rewrite nth_overflow by (now rewrite map_length). cbn. lia. }
  rewrite E2 in EH. injection EH as ->. change (fd_loop q len boxes (Z.to_nat (k - Z.of_nat len)) (fd_table q len T, H) = OK (T', R)) in EL. rewrite E3 in EL. injection EL as -> ->. exists m', h', ho'. split; [exact E1|].
  destruct I' as (_ & _ & (LT & HT) & HH & _). split; [exact HH|]. specialize (HT 0%nat Hl). cbn [fst snd] in HT.
  unfold mat_eqb in EC. destruct (list_eq_dec (list_eq_dec Z.eq_dec) (nth 0 T' []) (nth 0 M [])) as [X|X]; [|discriminate]. now rewrite X in HT.
Qed.
Print Assumptions C67_finitediff.

(** C67: the products are wrong if the result is an operand: mul(v, A, v),
    mul_transpose(A, A, B) of square matrices, and mul_transpose(A, A, B) with another
    number of columns, where SetDims has already cleared A.  In all three cases the
    call with a separate result gives the product. *)
Definition vec_obj (v : list Z) : obj := Obj (length v) 1 (fun i _ => nth i v 0).
Definition mat_obj (r c : nat) (M : list (list Z)) : obj := Obj r c (fun i j => nth j (nth i M []) 0).
Definition show (m : mem) (h : nat) : list (list Z) := mk (o_r (m h)) (o_c (m h)) (o_cell (m h)).
Theorem C67_aliased_refuted :
  exists m : mem, let see h (r : res mem) := match r with OK m' => Some (show m' h) | Err _ => None end in
  (see 1%nat (nmod_mul 7 m 1 0 1) = Some [[2]; [2]] /\ see 2%nat (nmod_mul 7 m 2 0 1) = Some [[2]; [1]]) /\
  (see 3%nat (mul_transpose_ZZ_p 7 m 3 3 0) = Some [[2; 2]; [4; 4]] /\ see 5%nat (mul_transpose_ZZ_p 7 m 5 3 0) = Some [[2; 1]; [4; 3]]) /\
  (see 0%nat (mul_transpose_ZZ_p 7 m 0 0 4) = Some [[0; 0; 0]; [0; 0; 0]] /\ see 5%nat (mul_transpose_ZZ_p 7 m 5 0 4) = Some [[2; 4; 6]; [1; 3; 5]]).
Proof.
  exists (fun h => nth h [mat_obj 2 2 [[0; 1]; [1; 0]]; vec_obj [1; 2]; vec_obj [0; 0]; mat_obj 2 2 [[1; 2]; [3; 4]]; mat_obj 3 2 [[1; 2]; [3; 4]; [5; 6]]] (mat_obj 0 0 [])).
  vm_compute. repeat split.
Qed.
Print Assumptions C67_aliased_refuted.

(** ** examples: the loops on small data; the buffers not yet written contain 99 *)
Definition ex_Ps : list mat := [[[1; 2]; [3; 4]]; [[0; 5]; [0; 0]]; [[0; 6]; [0; 0]]].
Definition ex_word : mem := fun h => nth h [vec_obj [7; 8]; vec_obj [99; 99]; vec_obj [99; 99]; mat_obj 2 2 (nth 0 ex_Ps []); mat_obj 2 2 (nth 1 ex_Ps []); mat_obj 2 2 (nth 2 ex_Ps [])] (vec_obj []).
Example C67_word_ex :
  reduce_vector_ND_poly_flint 1 101 ex_Ps 2 [7; 8] = OK [15; 40] /\
  match word_loop 101 1 2 (fun i => (3 + i)%nat) 2 2 (ex_word, (0%nat, 1%nat)) with
  | OK (m, (g, _)) => show m g = [[15]; [40]]
  | Err _ => False
  end.
Proof. vm_compute. split; reflexivity. Qed.
Definition ex_T : list mat := match mapM (fun l => fd_value 101 2 3 ex_Ps (5 - 3 + Z.of_nat l)) (seq 0 3) with OK T => T | Err _ => [] end.
Definition ex_fd : mem := fun h => nth h [vec_obj [7; 8]; vec_obj [99; 99]; mat_obj 2 2 (nth 0 ex_T []); mat_obj 2 2 (nth 1 ex_T []); mat_obj 2 2 (nth 2 ex_T [])] (vec_obj []).
Example C67_finitediff_ex : exists R,
  finitediff 101 ex_Ps 5 [7; 8] = OK R /\ length ex_T = 3%nat /\
  match fd_run_mem 101 (fun i => (2 + i)%nat) 3 (map (fd_box 2) ex_Ps) 2 (ex_fd, (0%nat, 1%nat)) with
  | OK (m, (h, _)) => show m h = map (fun x => [x]) R /\ show m 2%nat = nth 0 ex_Ps []
  | Err _ => False
  end.
Proof. eexists. split; [vm_compute; reflexivity|]. vm_compute. repeat split. Qed.
