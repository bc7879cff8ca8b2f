(** C62: what test_JND_and_invariance compares.  For plane curves the second
    comparison is that of the characteristic polynomials of the two matrices modulo
    p^2, coefficient by coefficient, modulo p^4, p^3, p^2, p^2, ... *)
From Coq Require Import ZArith List Bool Lia.
From Verif Require Import Base VecModel MatModel MatProofs CharModel CharProps FrobNDModel FdModel InvModel InvProps.
Import ListNotations.
Open Scope Z_scope.

(** the two loops of test_JND_and_invariance.cc 81-111 for n = 2 *)
Definition mat_mod (m : Z) (M : mat) : mat := map (map (fun x => x mod m)) M.
Lemma jnd_reduce_2 p M : shape M 6 6 -> jnd_reduce p 2 6 6 M = OK (mat_mod (p ^ 2) M).
Proof.
  intros (L & F). do 6 (destruct M as [|? M]; [discriminate L|]). destruct M; [|discriminate L]. clear L.
  repeat match goal with H : Forall _ (_ :: _) |- _ => inversion_clear H end.
  repeat match goal with H : length ?l = 6%nat |- _ => do 6 (destruct l as [|? l]; [discriminate H|]); destruct l; [|discriminate H]; clear H end.
  unfold jnd_reduce. cbn [Nat.eqb andb]. generalize (p ^ 2). intros m. reflexivity.
Qed.
Lemma mat_mod_shape m M : shape M 6 6 -> shape (mat_mod m M) 6 6.
Proof.
  intros (L & F). split; [unfold mat_mod; now rewrite map_length|]. unfold mat_mod. rewrite Forall_forall in *. intros r I.
  apply in_map_iff in I. destruct I as (r0 & <- & I). rewrite map_length. now apply F.
Qed.
Lemma char_coefs_len M : length (char_coefs 6 M) = 7%nat.
Proof. unfold char_coefs. now rewrite map_length, seq_length. Qed.

Theorem C62_JND_compares : forall Obj (frobJ frobND : Obj -> res (mat * Obj)) fbar transform make p hs FJ h1 FN h2 g hs2 F2 h3,
  0 < p -> frobJ hs = OK (FJ, h1) -> frobND h1 = OK (FN, h2) -> transform (fbar hs) = OK g -> make g = OK hs2 -> frobND hs2 = OK (F2, h3) ->
  shape FJ 6 6 -> shape FN 6 6 -> shape F2 6 6 ->
  let M1 := map (map (fun x => x mod p ^ 2)) FN in let M2 := map (map (fun x => x mod p ^ 2)) F2 in
  exists b c, jnd_body frobJ frobND fbar transform make p 2 hs = OK (b, c) /\ (b = true <-> FJ = FN) /\
    (c = true <-> forall i, (i <= 6)%nat -> (p ^ nth i [4; 3; 2; 2; 2; 2; 2] 0 | nth i (char_coefs 6 M1) 0 - nth i (char_coefs 6 M2) 0)).
Proof.
  intros Obj frobJ frobND fbar transform make p hs FJ h1 FN h2 g hs2 F2 h3 Hp E1 E2 E3 E4 E5 S1 S2 S3 M1 M2.
  unfold jnd_body. rewrite E1. cbn [bind fst snd]. rewrite E2. cbn [bind fst snd].
  assert (L6 : (1 <= 6)%nat) by lia. rewrite (C13_charpoly L6 S1). cbn [bind]. rewrite E3. cbn [bind]. rewrite E4. cbn [bind]. rewrite E5. cbn [bind fst snd].
  assert (NC : ncols FN = 6%nat). { destruct S2 as (L & F). destruct FN as [|r FN]; [discriminate L|]. inversion_clear F. assumption. }
  cbv zeta. rewrite NC, (proj1 S2). rewrite (jnd_reduce_2 p FN S2), (jnd_reduce_2 p F2 S3). cbn [bind].
  rewrite (C13_charpoly L6 (mat_mod_shape (p ^ 2) FN S2)). cbn [bind]. rewrite (C13_charpoly L6 (mat_mod_shape (p ^ 2) F2 S3)). cbn [bind].
  change (mat_mod (p ^ 2) FN) with M1. change (mat_mod (p ^ 2) F2) with M2.
  pose proof (char_coefs_len M1) as A1. pose proof (char_coefs_len M2) as A2. revert A1 A2. generalize (char_coefs 6 M1) (char_coefs 6 M2). intros c1 c2 A1 A2.
  unfold jnd_mod. cbn [Nat.eqb]. rewrite A1, A2. cbn [Nat.leb check bind]. eexists. eexists. split; [reflexivity|]. split.
  { unfold mat_eqb. destruct (list_eq_dec _ _ _); split; intros H; auto; discriminate. }
  assert (PP : forall k, 0 <= k -> p ^ k <> 0) by (intros k Hk; apply Z.pow_nonzero; lia).
  assert (D : forall k a b, 0 <= k -> (a mod p ^ k = b mod p ^ k <-> (p ^ k | a - b))).
  { intros k a b Hk. pose proof (PP k Hk) as Q. split; intros H.
    - apply Z.mod_divide; [exact Q|]. rewrite Zminus_mod, H, Z.sub_diag. now apply Z.mod_0_l.
    - destruct H as (t & H). replace a with (b + t * p ^ k) by lia. now apply Z.mod_add. }
  unfold veqb. destruct (list_eq_dec _ _ _) as [E|E].
  - split; [intros _|reflexivity]. intros i Hi. cbn [seq map Nat.ltb Nat.leb] in E.
    injection E as K0 K1 K2 K3 K4 K5 K6.
    do 7 (destruct i as [|i]; [cbn [nth]; apply D; [lia|assumption]|]). lia.
  - split; [discriminate|]. intros H. exfalso. apply E. apply map_ext_in. intros i Hi. apply in_seq in Hi.
    specialize (H i ltac:(lia)). do 7 (destruct i as [|i]; [cbn [nth Nat.ltb Nat.leb] in *; apply D in H; [exact H|lia]|]). lia.
Qed.
Print Assumptions C62_JND_compares.
(** 5 and 54 agree modulo 49, 0 and 7 do not *)
Example C62_JND_compares_ex :
  jnd_body (fun _ : bool => OK (diag6 5, true)) (fun b => OK (if b then diag6 5 else diag6 54, b)) (fun _ => []) (fun f => OK f) (fun _ => OK false) 7 2 true = OK (true, true) /\
  jnd_body (fun _ : bool => OK (diag6 0, true)) (fun b => OK (if b then diag6 0 else diag6 7, b)) (fun _ => []) (fun f => OK f) (fun _ => OK false) 7 2 true = OK (true, false).
Proof. split; vm_compute; reflexivity. Qed.
