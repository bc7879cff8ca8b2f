(** Properties C03, C19, C20, C21: statements only. *)
From Coq Require Import ZArith List Lia.
From Verif Require Import Base VecModel VecSpec ToolsModel ToolsSpec MatModel MatProofs DRModel DRSpec DRProofs
  DRRed DRStep DRLemmas.
Import ListNotations.
Open Scope Z_scope.

(** C03: for every degree l up to (n+1)d the dictionary is exactly the inverse of
    the list, which holds exactly the monomials of degree l *)
Theorem C03_dictionary_inverts : forall slv q p prec f D,
  init slv q p prec f = OK D -> wf_poly (r_n D) (r_d D) f ->
  forall l, 0 <= l <= (Z.of_nat (r_n D) + 1) * r_d D ->
  exists ts dict, get_at (r_tl D) l = OK ts /\ get_at (r_td D) l = OK dict /\
    length dict = length ts /\
    (forall t, In t ts <-> is_tuple (S (r_n D)) l t) /\
    forall k j, length k = S (r_n D) -> (dget dict k = OK j <-> nth_error ts j = Some k).
Proof. exact dict_inverts. Qed.
Print Assumptions C03_dictionary_inverts.

Example C03_ex : init ex_slv 9 3 2 ex_f = OK ex_D /\ wf_poly (r_n ex_D) (r_d ex_D) ex_f /\
  (exists dict, get_at (r_td ex_D) 3 = OK dict /\ dget dict [2; 1] = OK 2%nat /\ dget dict [2; 2] = Err EUB).
Proof. split; [exact ex_init|]. split; [exact ex_wf|]. eexists. repeat split. Qed.

(** C19: entry of the relation matrix of degree l *)
Theorem C19_relation_matrix : forall slv q p prec f D,
  init slv q p prec f = OK D -> wf_poly (r_n D) (r_d D) f ->
  forall l, r_d D - 1 <= l <= (Z.of_nat (r_n D) + 1) * r_d D ->
  exists ts ss T, get_at (r_tl D) l = OK ts /\ get_at (r_tl D) (l - (r_d D - 1)) = OK ss /\
    matrix_J D l = OK ((S (r_n D) * length ss)%nat, T) /\ shape T (length ts) (S (r_n D) * length ss) /\
    forall r i j, (r < length ts)%nat -> (i <= r_n D)%nat -> (j < length ss)%nat ->
      cong q (mget T r (i * length ss + j)) (coef_dx f i (nth j ss []) (nth r ts [])).
Proof.
  intros slv q p prec f D H W. destruct (init_inv _ _ _ _ _ _ H W) as (inv & <- & <-).
  exact (matrix_J_entry slv D inv).
Qed.
Print Assumptions C19_relation_matrix.

Theorem C19_low_degree : forall slv q p prec f D,
  init slv q p prec f = OK D -> wf_poly (r_n D) (r_d D) f ->
  forall l, 0 <= l < r_d D - 1 ->
  exists ts T, get_at (r_tl D) l = OK ts /\ matrix_J D l = OK (0%nat, T) /\ shape T (length ts) 0.
Proof.
  intros slv q p prec f D H W. destruct (init_inv _ _ _ _ _ _ H W) as (inv & _ & _).
  exact (matrix_J_low slv D inv).
Qed.
Print Assumptions C19_low_degree.

Example C19_ex : matrix_J ex_D 2 = OK (4%nat, [[0; 0; 2; 0]; [2; 0; 0; 2]; [0; 2; 0; 0]]).
Proof. vm_compute. reflexivity. Qed.

(** C20, vector form *)
Theorem C20_reduce_vector_preserves_class : forall slv q p prec f D,
  init slv q p prec f = OK D -> wf_poly (r_n D) (r_d D) f -> solver_ok q slv ->
  forall r, (q | r) ->                       (* r = q: Z/q;  r = 0: Z *)
  forall u v, length v = S (r_n D) -> zsum v = r_d D ->
  (forall i, (i <= r_n D)%nat -> nth i u 0 = 0 \/ 0 < nth i v 0) ->
  forall phi, GD q (r_n D) (r_d D) f phi ->
  forall m, is_tuple (S (r_n D)) (r_d D * m - degG D) u ->
  forall ms, get_at (r_tl D) (degG D) = OK ms ->
  forall G, length G = length ms ->
  exists R, reduce_vector_J slv D r u v G = OK R /\ length R = length ms /\
    cong q (ev phi m u ms R) (ev phi (m + 1) (eplus u v) ms G).
Proof.
  intros slv q p prec f D H W. destruct (init_inv _ _ _ _ _ _ H W) as (inv & <- & <-).
  intros Hs r Hr u v Hlv Hsv Huv phi Hphi m Hu ms Hms. rewrite (LG_at slv D inv) in Hms. injection Hms as <-.
  exact (reduce_vector_class slv D inv Hs r Hr u v Hlv Hsv Huv phi Hphi m Hu).
Qed.
Print Assumptions C20_reduce_vector_preserves_class.

(** C20, matrix form *)
Theorem C20_reduction_matrix_preserves_class : forall slv q p prec f D,
  init slv q p prec f = OK D -> wf_poly (r_n D) (r_d D) f -> solver_ok q slv ->
  forall r, (q | r) ->
  forall u v, length v = S (r_n D) -> zsum v = r_d D ->
  (forall i, (i <= r_n D)%nat -> nth i u 0 = 0 \/ 0 < nth i v 0) ->
  forall phi, GD q (r_n D) (r_d D) f phi ->
  forall m, is_tuple (S (r_n D)) (r_d D * m - degG D) u ->
  forall ms, get_at (r_tl D) (degG D) = OK ms ->
  exists R, get_reduction_matrix_J slv D r u v = OK R /\ shape R (length ms) (length ms) /\
    forall G, length G = length ms -> exists w, mat_vec r R G = OK w /\ length w = length ms /\
      cong q (ev phi m u ms w) (ev phi (m + 1) (eplus u v) ms G).
Proof.
  intros slv q p prec f D H W. destruct (init_inv _ _ _ _ _ _ H W) as (inv & <- & <-).
  intros Hs r Hr u v Hlv Hsv Huv phi Hphi m Hu ms Hms. rewrite (LG_at slv D inv) in Hms. injection Hms as <-.
  exact (reduction_matrix_class slv D inv Hs r Hr u v Hlv Hsv Huv phi Hphi m Hu).
Qed.
Print Assumptions C20_reduction_matrix_preserves_class.

(** all hypotheses hold for the conic; the functional is not zero *)
Example C20_ex : solver_ok 9 ex_slv /\ GD 9 (r_n ex_D) (r_d ex_D) ex_f ex_phi /\
  is_tuple 2 (r_d ex_D * 2 - degG ex_D) [2; 1] /\
  reduce_vector_J ex_slv ex_D 9 [2; 1] [1; 1] [1; 2] = OK [2; 5] /\
  ev ex_phi 2 [2; 1] [[0; 1]; [1; 0]] [2; 5] mod 9 = 7 /\
  ev ex_phi 3 [3; 2] [[0; 1]; [1; 0]] [1; 2] mod 9 = 7.
Proof.
  split; [exact ex_slv_ok|]. split; [exact ex_GD|]. split; [repeat split; repeat constructor; lia|].
  repeat split; vm_compute; reflexivity.
Qed.

(** C21: k steps at once are k single steps, from u + k v down to u *)
Theorem C21_poly_equals_steps : forall slv q p prec f D,
  init slv q p prec f = OK D -> wf_poly (r_n D) (r_d D) f -> solver_ok q slv ->
  forall r, (q | r) ->
  forall u v, length u = S (r_n D) -> nonneg v -> length v = S (r_n D) -> zsum v = r_d D ->
  (forall i, (i <= r_n D)%nat -> nth i u 0 = 0 \/ 0 < nth i v 0) ->
  forall ms, get_at (r_tl D) (degG D) = OK ms ->
  forall k G, length G = length ms ->
  exists R R', reduce_vector_J_poly slv D r u v (Z.of_nat k) G = OK R /\
    steps_down slv D r u v k G = OK R' /\ length R' = length ms /\ vcong q R R'.
Proof.
  intros slv q p prec f D H W. destruct (init_inv _ _ _ _ _ _ H W) as (inv & <- & _).
  intros Hs r Hr u v Hlu Hnv Hlv Hsv Huv ms Hms. rewrite (LG_at slv D inv) in Hms. injection Hms as <-.
  exact (poly_equals_steps slv D inv Hs r Hr u v Hlu Hnv Hlv Hsv Huv).
Qed.
Print Assumptions C21_poly_equals_steps.

Example C21_ex : reduce_vector_J_poly ex_slv ex_D 9 [1; 2] [1; 1] 3 [1; 2] = OK [0; 2] /\
  reduce_vector_J_poly ex_slv ex_D 0 [1; 2] [1; 1] 3 [1; 2] = OK [0; 2] /\
  steps_down ex_slv ex_D 9 [1; 2] [1; 1] 3 [1; 2] = OK [0; 2].
Proof. repeat split; vm_compute; reflexivity. Qed.
