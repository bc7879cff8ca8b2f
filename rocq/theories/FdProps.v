(** Properties C33 and C34: statements only. *)
From Coq Require Import ZArith List Bool Lia.
From Verif Require Import Base VecModel MatModel MatProofs FdModel FdSpec FdProofs.
Import ListNotations.
Open Scope Z_scope.

(** C33: for nested coefficients, not all zero, and n+1 < k <= modulus the
    finite differences give M(0) M(1) ... M(k-1) G; in particular the final
    assertion holds and nothing is read outside the arrays *)
Theorem C33_finite_differences : forall q d M k G, 2 <= q -> mp_ok q d M -> nested M ->
  (exists e i j, nth j (nth i (nth e M []) []) 0 <> 0) ->
  zlen M - 1 < k <= q -> length G = d -> (forall x, In x G -> 0 <= x < q) ->
  finitediff q M k G = OK (map (fun x => x mod q) (mp_product d M (Z.to_nat k) G)).
Proof. exact finitediff_ok. Qed.
Print Assumptions C33_finite_differences.

(** M(x) = (1 x+2 ; 0 3) + x^2 (0 5 ; 0 0), modulus 11, k = 7 *)
Definition fd_ex : list mat := [[[1; 2]; [0; 3]]; [[0; 1]; [0; 0]]; [[0; 5]; [0; 0]]].
Example C33_ex : mp_ok 11 2 fd_ex /\ nested fd_ex /\ (exists e i j, nth j (nth i (nth e fd_ex []) []) 0 <> 0) /\
  zlen fd_ex - 1 < 7 <= 11 /\
  finitediff 11 fd_ex 7 [4; 6] = OK (map (fun x => x mod 11) (mp_product 2 fd_ex 7 [4; 6])) /\
  map (fun x => x mod 11) (mp_product 2 fd_ex 7 [4; 6]) = [5; 10].
Proof.
  split; [|split; [|split; [|split; [vm_compute; intuition congruence|split; vm_compute; reflexivity]]]].
  - intros A HA. cbn in HA. repeat destruct HA as [<-|HA]; [..|destruct HA]; (split; [reflexivity|]);
      intros r Hr; cbn in Hr; repeat destruct Hr as [<-|Hr]; [..|destruct Hr]; try (now destruct Hr);
      (split; [reflexivity|]); intros x Hx; cbn in Hx; intuition lia.
  - intros e e' mr mc He Hl. cbn in Hl. assert (e = 1 /\ e' = 1 \/ e = 1 /\ e' = 2 \/ e = 2 /\ e' = 2)%nat as C by lia.
    destruct C as [[-> ->]|[[-> ->]|[-> ->]]]; auto. intros Hs i j N.
    destruct i as [|[|[|i]]]; destruct j as [|[|[|j]]]; cbn in N; try congruence.
    apply (Hs 0%nat 1%nat). cbn. lia.
  - exists 0%nat, 0%nat, 0%nat. cbn. lia.
Qed.

(** C34: the claim for every matrix polynomial is false.
    M(x) = 4 + x^2 (the coefficient of x is 0) modulo 9: a wrong product is
    returned, and the final assertion does not notice. *)
Theorem C34_wrong_product_refuted : exists q M k G,
  2 <= q /\ mp_ok q 1 M /\ zlen M - 1 < k <= q /\ length G = 1%nat /\ (forall x, In x G -> 0 <= x < q) /\
  exists H, finitediff q M k G = OK H /\ H <> map (fun x => x mod q) (mp_product 1 M (Z.to_nat k) G).
Proof.
  exists 9, [[[4]]; [[0]]; [[1]]], 6, [1]. split; [lia|]. split.
  { intros A HA. cbn in HA. repeat destruct HA as [<-|HA]; [..|destruct HA]; (split; [reflexivity|]);
      intros r Hr; destruct Hr as [<-|[]]; (split; [reflexivity|]); intros x [<-|[]]; lia. }
  split; [vm_compute; intuition congruence|]. split; [reflexivity|]. split; [intros x [<-|[]]; lia|].
  exists [7]. split; [vm_compute; reflexivity|]. vm_compute. discriminate.
Qed.
Print Assumptions C34_wrong_product_refuted.

(** or the final assertion fails *)
Theorem C34_assertion_refuted : finitediff 11 [[[4]]; [[0]]; [[1]]] 6 [1] = Err EAssert.
Proof. vm_compute. reflexivity. Qed.
Print Assumptions C34_assertion_refuted.

(** if all coefficients vanish, the arrays are read at index -1 *)
Theorem C34_zero_polynomial_refuted : forall q d len k G, Z.of_nat len - 1 < k ->
  finitediff q (repeat (mzero d d) len) k G = Err EUB.
Proof.
  intros q d len k G Hk. unfold finitediff, zlen. rewrite repeat_length.
  replace (Z.of_nat len - 1 <? k) with true by (symmetry; apply Z.ltb_lt; lia). cbn [check bind].
  set (d' := length (nth 0 (repeat (mzero d d) len) [])).
  assert (B : forall i, (i <= len)%nat -> fd_trim d' (map (fd_box d') (repeat (mzero d d) len)) i = Err EUB).
  { induction i as [|i IH]; intros Hi; [reflexivity|]. cbn [fd_trim]. cbv zeta.
    rewrite (nth_map_lt (fd_box d') _ i _ (mzero d d)) by (rewrite repeat_length; lia).
    rewrite nth_repeat_any. replace (Nat.ltb i len) with true by (symmetry; apply Nat.ltb_lt; lia).
    assert (E : fd_box d' (mzero d d) = (0%nat, d')).
    { unfold fd_box. generalize (list_prod (seq 0 d') (seq 0 d')) as l. induction l as [|x l IHl]; [reflexivity|].
      cbn [fold_left]. rewrite mget_mzero. exact IHl. }
    rewrite E. cbn [fst snd]. rewrite !Nat.eqb_refl. cbn [andb]. apply IH. lia. }
  rewrite B by lia. reflexivity.
Qed.
Print Assumptions C34_zero_polynomial_refuted.
Example C34_ex : finitediff 11 [[[0]]; [[0]]; [[0]]] 6 [1] = Err EUB.
Proof. vm_compute. reflexivity. Qed.
