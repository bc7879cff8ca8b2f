(** The Frobenius routine as a program using the memo tables: it computes the
    functions of FrobModel.v, and after the preparation done for several threads
    all its requests hit. *)
From Coq Require Import ZArith List Bool Lia.
From Verif Require Import Base VecModel VecSpec VecProofs ToolsModel ToolsSpec ToolsProofs MatModel MatProofs
  DRModel DRSpec DRProofs DRPath DRFinal FrobModel FrobSpec FrobPath FrobProofs FrobSum FrobTop ProgModel ProgProofs CacheModel CacheProofs.
Import ListNotations.
Open Scope Z_scope.

Ltac run1 := first [ rewrite run_bind | rewrite run_lift | rewrite run_ask ].
Ltac runs :=
  repeat (run1; cbn [bind value]);
  match goal with
  | |- bind ?x _ = bind ?x _ => let E := fresh "E" in destruct x eqn:E; cbn [bind]; [|reflexivity]
  | |- _ => idtac
  end.

Section MORPH.
  Variables (slv : solver) (D : dR) (T : list poly).
  Notation h := (value slv D T).

  Lemma get_reduction_matrix_run r u v : run h (get_reduction_matrix_p D r u v) = get_reduction_matrix_J slv D r u v.
  Proof. unfold get_reduction_matrix_p, get_reduction_matrix_J. do 3 runs. reflexivity. Qed.
  Lemma reduce_vector_run r u v G : run h (reduce_vector_p D r u v G) = reduce_vector_J slv D r u v G.
  Proof. unfold reduce_vector_p, reduce_vector_J. do 3 runs. reflexivity. Qed.
  Lemma reduce_vector_poly_run r u v k G : run h (reduce_vector_poly_p D r u v k G) = reduce_vector_J_poly slv D r u v k G.
  Proof. unfold reduce_vector_poly_p, reduce_vector_J_poly. do 3 runs. reflexivity. Qed.

  Lemma frob_single_run r mt hh v st i : run h (frob_single_p D r mt hh v st i) = frob_single slv D r mt hh v st i.
  Proof.
    unfold frob_single_p, frob_single. do 5 runs. destruct mt.
    - rewrite !run_bind, get_reduction_matrix_run. runs.
      destruct (get_reduction_matrix_J slv D r _ _); cbn [bind]; auto. now rewrite run_lift.
    - rewrite ?run_bind, reduce_vector_run. reflexivity.
  Qed.
  Lemma frob_singles_run r mt hh v l st : run h (foldP (frob_single_p D r mt hh v) l st) = foldM (frob_single slv D r mt hh v) l st.
  Proof. apply run_foldP. intros. apply frob_single_run. Qed.

  Lemma frob_entry_run r loop e hh G : run h (frob_entry_p D r loop e hh G) = frob_entry slv D r loop e hh G.
  Proof.
    unfold frob_entry_p, frob_entry. runs.
    destruct loop as [|[|[|loop]]]; try reflexivity.
    - destruct (degG D <? e).
      + do 7 runs. rewrite ?run_bind, reduce_vector_poly_run. runs. rewrite run_bind, frob_singles_run. reflexivity.
      + rewrite ?run_bind, frob_singles_run. reflexivity.
    - rewrite ?run_bind, frob_singles_run. reflexivity.
    - rewrite ?run_bind, frob_singles_run. reflexivity.
  Qed.

  Lemma frob_pass_run r loop e H L : run h (frob_pass_p D r loop e H L) = frob_pass slv D r loop e H L.
  Proof.
    unfold frob_pass_p, frob_pass. apply run_foldP. intros st uG. rewrite ?run_bind, frob_entry_run.
    runs. destruct (_ && all_zero _ _); [reflexivity|].
    destruct (_ <? e).
    - runs. match goal with |- context [vfind ?y (fst st)] => destruct (vfind y (fst st)) end; [|reflexivity]. runs. reflexivity.
    - do 3 runs. reflexivity.
  Qed.

  Lemma frob_loop_run r loop dj dictV ei m fpow k : forall st,
    run h (frob_loop_p D r loop dj dictV ei m fpow k st) = frob_loop slv D r loop dj dictV ei m fpow k st.
  Proof.
    induction k as [|k IH]; intros [[H L] fact]; [reflexivity|]. cbn [frob_loop_p frob_loop].
    runs. rewrite ?run_bind, frob_pass_run. runs. apply IH.
  Qed.

  Lemma frob_low_terms_run c ei P e fact F : run h (frob_low_terms_p D c ei P e fact F) = frob_low_terms slv D c ei P e fact F.
  Proof. unfold frob_low_terms_p, frob_low_terms. do 6 runs. reflexivity. Qed.

  Lemma frob_low_run dj ei m N fpow e : forall st,
    run h (frob_low_prog D dj ei m N fpow e st) = frob_low slv D dj ei m N fpow e st.
  Proof.
    induction e as [|e IH]; intros [F fact]; [reflexivity|]. cbn [frob_low_prog frob_low]. runs.
    rewrite ?run_bind. destruct (m <=? Z.of_nat (S e)).
    - rewrite ?run_bind, ?run_lift. destruct (dj (Z.of_nat (S e) - m)); cbn [bind]; auto.
      rewrite ?run_bind, ?run_lift. destruct (get_at fpow _); cbn [bind]; auto. rewrite frob_low_terms_run.
      runs. apply IH.
    - cbn [run bind]. apply IH.
  Qed.

  Lemma frob_high_run r loop dj ei m N fpow : run h (frob_high_p D r loop dj ei m N fpow) = frob_high slv D r loop dj ei m N fpow.
  Proof.
    unfold frob_high_p, frob_high. do 3 runs. rewrite ?run_bind, frob_loop_run. runs. do 2 runs. reflexivity.
  Qed.

  Lemma frob_J_ZZ_run i N loop : run h (frob_J_ZZ_prog D i N loop) = frob_J_ZZ slv D T i N loop.
  Proof.
    unfold frob_J_ZZ_prog, frob_J_ZZ, frob_sum_ZZ. rewrite run_bind, run_lift.
    destruct (get_at (r_basis D) (Z.of_nat i)) as [ei|]; cbn [bind]; auto. rewrite run_bind, run_lift.
    destruct (check (0 <? N) EAssert); cbn [bind]; auto. rewrite run_bind, run_ask. cbn [value].
    destruct (compute_fpow _ _ _ _); cbn [bind]; auto. rewrite run_bind, frob_high_run.
    destruct (frob_high _ _ _ _ _ _ _ _ _); cbn [bind]; auto. rewrite run_bind, frob_low_run.
    destruct (frob_low _ _ _ _ _ _ _ _ _); cbn [bind]; auto. apply run_lift.
  Qed.

  Lemma frob_row_run N i : run h (frob_row_p D N i) = frob_row slv D T N i.
  Proof.
    unfold frob_row_p, frob_row. runs. destruct (0 <? a); [|reflexivity]. unfold frob_J. apply frob_J_ZZ_run.
  Qed.
End MORPH.
