(** A matrix inverse that can be run: the candidate computed by Gauss-Jordan
    elimination is checked, so that it satisfies [inv_spec] whatever it computes.
    Used to run the model on examples only. *)
From Coq Require Import ZArith List Bool Lia Znumtheory.
From Verif Require Import Base VecModel ToolsModel ToolsProofs MatModel MatProofs LinAlg SolveModel SolveSpec LuInst.
Import ListNotations.
Open Scope Z_scope.

Definition row_sub (p c : Z) (r s : list Z) : list Z := map (fun t => (fst t - c * snd t) mod p) (combine r s).
(** rows of (Y | 1); [done] holds the rows with a pivot, in order *)
Fixpoint gj (p : Z) (k : nat) (col : nat) (done rest : mat) : mat :=
  match k with
  | O => done
  | S k =>
      match find (fun r => negb (nth col r 0 =? 0)) rest with
      | None => done
      | Some r =>
          let e := zinv p (nth col r 0) in
          let r := map (fun x => (e * x) mod p) r in
          let fix drop (l : mat) := match l with [] => [] | x :: l => if nth col x 0 =? 0 then x :: drop l else l end in
          let clear x := if nth col x 0 =? 0 then x else row_sub p (nth col x 0) x r in
          gj p k (S col) (map clear done ++ [r]) (map clear (drop rest))
      end
  end.
Definition inv_cand (p : Z) (m : nat) (Y : mat) : mat :=
  map (skipn m) (gj p m 0 [] (map (fun i => nth i Y [] ++ map (fun j => if Nat.eqb i j then 1 else 0) (seq 0 m)) (seq 0 m))).
Definition inv_check (p : Z) (m : nat) (Y W : mat) : bool :=
  Nat.eqb (length W) m && forallb (fun r => Nat.eqb (length r) m && forallb (fun x => (0 <=? x) && (x <? p)) r) W &&
  let C := transpose m m W in
  forallb (fun i => let r := nth i Y [] in
    forallb (fun j => (sumf (fun t => fst t * snd t) (combine r (nth j C [])) - delta i j) mod p =? 0) (seq 0 m)) (seq 0 m).
Definition inv_fast : inv_fun := fun p m Y => let W := inv_cand p m Y in if inv_check p m Y W then W else inv_inst p m Y.

Lemma sumf_combine m r s : length r = m -> length s = m ->
  sumf (fun t => fst t * snd t) (combine r s) = sumf (fun k => nth k r 0 * nth k s 0) (seq 0 m).
Proof.
  revert r s. induction m as [|m IH]; intros r s Hr Hs; destruct r as [|x r], s as [|y s]; try discriminate; [reflexivity|].
  cbn [combine seq]. rewrite !sumf_cons, sumf_seq_shift. cbn [fst snd nth]. rewrite IH; auto.
Qed.

Lemma inv_check_ok p m Y W : p <> 0 -> shape Y m m -> inv_check p m Y W = true ->
  shape W m m /\ mreduced p W /\ mmeq p m m (mm m (mget Y) (mget W)) delta.
Proof.
  intros Hp (Y1 & Y2) H. unfold inv_check in H. apply andb_prop in H. destruct H as [H H3]. apply andb_prop in H. destruct H as [H1 H2].
  apply Nat.eqb_eq in H1. rewrite forallb_forall in H2. cbv zeta in H3.
  assert (SW : shape W m m).
  { split; auto. apply Forall_forall. intros r Hr. specialize (H2 r Hr). apply andb_prop in H2. now apply Nat.eqb_eq. }
  split; [exact SW|]. split.
  - unfold mreduced. apply Forall_forall. intros r Hr. apply Forall_forall. intros x Hx. specialize (H2 r Hr). apply andb_prop in H2. destruct H2 as [_ H2].
    rewrite forallb_forall in H2. specialize (H2 x Hx). lia.
  - intros i j Hi Hj. rewrite forallb_forall in H3. specialize (H3 i ltac:(apply in_seq; lia)). rewrite forallb_forall in H3. specialize (H3 j ltac:(apply in_seq; lia)).
    rewrite (sumf_combine m) in H3.
    + apply Z.eqb_eq in H3. unfold cong, mm.
      rewrite (sumf_ext _ (fun k => nth k (nth i Y []) 0 * nth k (nth j (transpose m m W) []) 0)).
      * apply Z.mod_divide; auto.
      * intros k Hk. apply in_seq in Hk. f_equal. symmetry. apply (transpose_get m m W k j); lia.
    + rewrite Forall_forall in Y2. apply Y2, nth_In. lia.
    + destruct (transpose_shape m m W) as (T1 & T2). rewrite Forall_forall in T2. apply T2, nth_In. lia.
Qed.

Lemma inv_fast_ok p : prime p -> inv_spec p inv_fast.
Proof.
  intros Pp m Y HS HR HW. unfold inv_fast. destruct (inv_check p m Y (inv_cand p m Y)) eqn:E; [|now apply inv_inst_ok].
  apply inv_check_ok; auto. pose proof (prime_ge_2 p Pp). lia.
Qed.
