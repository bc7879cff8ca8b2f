(** Instances for the theorems of PicardProps. *)
From Coq Require Import ZArith QArith List Lia Bool.
From mathcomp Require Import all_ssreflect all_algebra all_field.
From mathcomp Require Import zify ssrZ.
From Verif Require Import Base VecModel ToolsModel MatModel MatProofs PicardModel PicardSpec PicardProofs PicardNum PicardMC PicardRoots PicardTop PicardDouble PicardProps.
Set Implicit Arguments.
Unset Strict Implicit.
Unset Printing Implicit Defensive.
Import Order.TTheory GRing.Theory Num.Theory.
Import ListNotations.

Local Open Scope ring_scope.

(** the cyclotomic polynomials as lists *)
Definition cycZ (k : Z) : list Z := List.map Z_of_int 'Phi_(Z.to_nat k).

Lemma pz_of (q : {poly int}) : pz (List.map Z_of_int q) = q.
Proof.
apply/polyP => i; rewrite pz_coef nthE.
case: (ltnP i (size q)) => I.
  rewrite (_ : List.map Z_of_int q = map Z_of_int q) // (nth_map 0) // Z_of_intK //.
by rewrite !nth_default // size_map.
Qed.

Lemma cyc_spec_cycZ : cyc_spec cycZ.
Proof.
move=> k K; rewrite /cycZ Nat2Z.id; split; last exact: pz_of.
rewrite /normal.
have M : last 0 'Phi_k = 1 by have := monicP (Cyclotomic_monic k); rewrite lead_coefE nth_last.
have L : forall s : list int, last 0 s = 1 -> List.last (List.map Z_of_int s) (Zpos xH) = Zpos xH.
  by case=> [|a s] //; elim: s a => [|b s IH] a /= H; [rewrite H | exact: (IH b H)].
by rewrite (L _ M).
Qed.

Lemma pz_cons a f : pz (a :: f) = pz f * 'X + (int_of_Z a)%:P.
Proof. by rewrite /pz /= cons_poly_def. Qed.

Lemma pz_nil : pz nil = 0. Proof. by []. Qed.

Lemma pz_add f g : pz (padd f g) = pz f + pz g.
Proof.
elim: f g => [|a f IH] [|b g]; rewrite ?pz_nil ?add0r ?addr0 //.
rewrite [padd _ _]/= !pz_cons IH rmorphD /= polyCD mulrDl addrACA //.
Qed.

Lemma pz_scale a f : pz (List.map (Z.mul a) f) = int_of_Z a *: pz f.
Proof.
apply/polyP => i; rewrite coefZ !pz_coef.
have -> : List.nth i (List.map (Z.mul a) f) Z0 = Z.mul a (List.nth i f Z0).
  by elim: f i => [|b f IH] [|i] /=; rewrite ?Z.mul_0_r.
by lia.
Qed.

Lemma pz_mul f g : pz (pmul f g) = pz f * pz g.
Proof.
elim: f => [|a f IH]; first by rewrite pz_nil mul0r.
by rewrite [pmul _ _]/= pz_add pz_scale !pz_cons IH addr0 mulrDl mul_polyC addrC mulrAC.
Qed.

Lemma irreducible2 (F : fieldType) (q : {poly F}) : size q = 2%N -> irreducible_poly q.
Proof.
move=> S; split; first by rewrite S.
move=> r R1 D; rewrite -dvdp_size_eqp // S.
have q0 : q != 0 by rewrite -size_poly_eq0 S.
have r0 : r != 0 by apply: contra_neq q0 => E; move: D; rewrite E dvd0p => /eqP.
have := dvdp_leq q0 D; rewrite S; move: r0 R1; rewrite -size_poly_eq0.
by case: (size r) => [|[|[|]]].
Qed.

Lemma contents1 f : normal f -> f <> nil -> absz ((pz f)`_0) = 1%N -> 0 < lead_coef (pz f) -> zcontents (pz f) = 1.
Proof.
move=> N F C0 L.
have D : (zcontents (pz f) %| (pz f)`_0)%Z.
  have := dvdz_contents (zcontents (pz f)) (pz f); rewrite dvdzz => /esym /polyOverP; exact.
have S := sgz_contents (pz f); rewrite (gtr0_sgz L) in S.
have P0 : 0 < zcontents (pz f) by rewrite -sgz_gt0 S.
move: D; rewrite dvdzE C0 dvdn1 => /eqP A.
by rewrite -[LHS]gez0_abs ?ltW // A.
Qed.

Lemma pz_lead f : normal f -> f <> nil -> lead_coef (pz f) = int_of_Z (List.last f Z0).
Proof.
move=> N F; rewrite lead_coefE pz_size // pz_coef; congr int_of_Z.
by elim: f F {N} => // a [|b f] IH _ //; exact: (IH _).
Qed.

Lemma pz_normal_size f : normal f -> size (pZtoQ (pz f)) = List.length f.
Proof. by move=> N; rewrite size_map_inj_poly ?rmorph0 ?pz_size //; exact: intr_inj. Qed.

Lemma no_root1 (R : numFieldType) (c d x : R) : x \is Num.real -> 1 <= c -> 1 <= d -> c * x ^+ 2 + d != x.
Proof.
move=> Rx C D; apply/negP => /eqP E.
have Q : 0 <= x ^+ 2 by rewrite real_exprn_even_ge0.
have A : x ^+ 2 + 1 <= x by rewrite -[X in _ <= X]E ler_add // ler_pemull.
have B : 0 <= (x - 1) ^+ 2 by rewrite real_exprn_even_ge0 // realB ?real1.
have C2 : 0 <= x by apply: le_trans A; rewrite addr_ge0 ?ler01.
move: B; rewrite sqrrB1 addrAC subr_ge0 => B.
have : x *+ 2 <= x by apply: le_trans B A.
rewrite mulr2n ger_addl => X0.
have X00 : x = 0 by apply/eqP; rewrite eq_le X0.
by move: A; rewrite X00 expr0n /= add0r ler10.
Qed.

Lemma horner_pz (R : ringType) f (x : R) : (map_poly intr (pz f)).[x] = List.fold_right (fun a r => r * x + (int_of_Z a)%:~R) 0 f.
Proof.
elim: f => [|a f IH]; first by rewrite pz_nil rmorph0 horner0.
by rewrite pz_cons rmorphD rmorphM /= map_polyX map_polyC /= hornerMXaddC IH.
Qed.

Lemma horner3 (R : ringType) (a b c : Z) (x : R) :
  (map_poly intr (pz [:: c; b; a])).[x] = (int_of_Z a)%:~R * x ^+ 2 + (int_of_Z b)%:~R * x + (int_of_Z c)%:~R.
Proof. by rewrite horner_pz [List.fold_right _ _ _]/= mul0r add0r mulrDl -mulrA expr2. Qed.

Lemma ex_factor_ok : factor_spec (fnorm (List.rev ex_cs)) (ex_factor (fnorm (List.rev ex_cs))).
Proof.
split.
  exists 1 => //; rewrite ex_rev !pz_mul scale1r /ex_factor !big_cons big_nil /=.
  by rewrite !expr1 mulr1.
move=> ge I.
have [K G] : Z.le Z0 ge.2 /\ List.In ge.1 [:: rlin3; rquad0; rquad1].
  by move: I; rewrite /ex_factor /= => -[<-|[<-|[<-|[]]]] /=; split; try lia; auto.
have H : normal ge.1 /\ ge.1 <> nil /\ absz (pz ge.1)`_0 = 1%N /\ 0 < lead_coef (pz ge.1).
  have A : forall f, normal f -> f <> nil -> absz (pz f)`_0 = 1%N -> 0 < int_of_Z (List.last f Z0) -> normal f /\ f <> nil /\ absz (pz f)`_0 = 1%N /\ 0 < lead_coef (pz f).
    by move=> f N F C L; rewrite pz_lead.
  by move: G => /= -[<-|[<-|[<-|[]]]]; apply: A => //; rewrite ?pz_coef.
case: H => N [F [C L]]; split => //; split => //; split; first exact: contents1.
move: G {I K} N F C L => /= -[<-|[<-|[<-|[]]]] N _ _ _.
- by apply: irreducible2; rewrite pz_normal_size.
- apply: cubic_irreducible => [|x]; first by rewrite pz_normal_size.
  rewrite rootE horner3 mul0r addr0 gt_eqF //.
  by rewrite ltr_paddl // mulr_ge0 ?sqr_ge0.
- apply: cubic_irreducible => [|x]; first by rewrite pz_normal_size.
  rewrite rootE horner3 mulN1r addrAC subr_eq0.
  by apply: no_root1; rewrite ?num_real.
Qed.

Lemma ex_weil z : root (pZtoC (pz ex_cs)) z -> `|z| = (int_of_Z (Zpos 3))%:~R.
Proof.
have three : forall z : algC, `|z| ^+ 2 = 9 -> `|z| = (int_of_Z (Zpos 3))%:~R.
  move=> y H; have P3 : 0 <= (int_of_Z (Zpos 3))%:~R :> algC by rewrite ler0z.
  have E : `|y| ^+ 2 = (int_of_Z (Zpos 3))%:~R ^+ 2 by rewrite H -rmorphX.
  by apply/eqP; rewrite -(eqr_expn2 (n := 2)) // E.
have L3 : root (pZtoC (pz lin3)) z -> `|z| = (int_of_Z (Zpos 3))%:~R.
  rewrite rootE horner_pz [List.fold_right _ _ _]/= mul0r add0r mul1r addr_eq0 => /eqP ->.
  by rewrite opprK normr_nat.
rewrite !pz_mul !rmorphM /= !rootM => /orP [/orP [|] //|/orP [|]].
  rewrite rootE horner3 mul0r addr0 mul1r addr_eq0 => /eqP E; apply: three.
  by rewrite -normrX E normrN normr_nat.
rewrite rootE horner3 mul1r mulN1r addrAC subr_eq0 => /eqP E; apply: three.
have Ec : z^* ^+ 2 + 9 = z^* by rewrite -[RHS](congr1 conjC E) rmorphD rmorphX /= rmorph_int.
have [R|N] := boolP (z \is Num.real).
  by have := @no_root1 _ 1 9 z R; rewrite lexx mul1r E eqxx ler1n => /(_ isT isT).
have N2 : z^* != z by rewrite -CrealE.
rewrite normCK.
have S : z + z^* = 1.
  have : (z^* - z) * (z + z^*) = (z^* - z) * 1.
    rewrite mulr1 [z + _]addrC -subr_sqr -[X in _ = X - _]Ec -[X in _ = _ - X]E.
    by rewrite opprD addrACA subrr addr0.
  by apply: mulfI; rewrite subr_eq0.
have -> : z^* = 1 - z by rewrite -S addrAC subrr add0r.
by rewrite mulrBr mulr1 -expr2 -{1}E addrAC subrr add0r.
Qed.

(** all hypotheses of C49_assertion hold for the example *)
Example C49_ex : exists (us vs : seq algC) F,
  (forall z, z \in us -> unity (z / (int_of_Z (Zpos 3))%:~R)) /\ (forall z, z \in vs -> ~ unity (z / (int_of_Z (Zpos 3))%:~R)) /\
  (size us + size vs)%N = 6%N /\
  forall fuel, (F <= fuel)%N -> geometric_picard fuel x_up cycZ ex_factor ex_cs (Zpos 3) (Zpos 2) = OK (picard_count (Zpos 2) (size us)).
Proof.
have [s Es] := closed_field_poly_normal (pZtoC (pz ex_cs)).
have Nx : normal ex_cs by [].
have L0 : lead_coef (pZtoC (pz ex_cs)) != 0.
  rewrite lead_coef_eq0 -size_poly_eq0 size_map_inj_poly ?rmorph0 //; last exact: intr_inj.
  by rewrite pz_size.
have A : forall z, z \in s -> `|z| = (int_of_Z (Zpos 3))%:~R.
  by move=> z I; apply: ex_weil; rewrite Es rootZ // root_prod_XsubC.
have P3 : Z.le (Zpos xH) (Zpos 3) by [].
have [us [vs [F [P [U [V G]]]]]] := C49_assertion (Zpos 2) double_ok_x_up cyc_spec_cycZ ex_factor_ok P3 Nx ltac:(by []) Es A.
exists us, vs, F; split; [exact: U | split; [exact: V | split; [| exact: G]]].
clear G; rewrite -size_cat -(perm_size P).
have := congr1 (fun q : {poly algC} => size q) Es; rewrite size_map_inj_poly ?rmorph0 //; last exact: intr_inj.
by rewrite pz_size // size_scale // size_prod_XsubC => -[].
Qed.
