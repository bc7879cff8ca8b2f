(** Cyclotomic factors (MathComp). *)
From mathcomp Require Import all_ssreflect all_algebra all_field.
Set Implicit Arguments.
Unset Strict Implicit.
Unset Printing Implicit Defensive.
Import Order.TTheory GRing.Theory Num.Theory.
Local Open Scope ring_scope.

Notation pZtoC := (map_poly (intr : int -> algC)).
Notation pZtoQ := (map_poly (intr : int -> rat)).
Notation pQtoC := (map_poly (ratr : rat -> algC)).

(** z is a root of unity *)
Definition unity (z : algC) : Prop := exists2 n, (0 < n)%N & z ^+ n = 1.

(** q(cT) *)
Definition scaleX (R : ringType) (c : R) (q : {poly R}) : {poly R} := \poly_(i < size q) (q`_i * c ^+ i).

Lemma coef_scaleX (R : ringType) (c : R) (q : {poly R}) i : (scaleX c q)`_i = q`_i * c ^+ i.
Proof. by rewrite coef_poly; case: ltnP => // H; rewrite nth_default // mul0r. Qed.

Lemma horner_scaleX (R : comRingType) (c : R) (q : {poly R}) z : (scaleX c q).[z] = q.[c * z].
Proof.
rewrite horner_poly horner_coef; apply: eq_bigr => i _.
by rewrite exprMn mulrA.
Qed.

Lemma scaleX_comp (R : comRingType) (c : R) (q : {poly R}) : scaleX c q = q \Po (c *: 'X).
Proof.
rewrite comp_polyE /scaleX poly_def; apply: eq_bigr => i _.
by rewrite exprZn scalerA.
Qed.

Lemma map_scaleX (aR rR : ringType) (f : {rmorphism aR -> rR}) c (q : {poly aR}) : map_poly f (scaleX c q) = scaleX (f c) (map_poly f q).
Proof. by apply/polyP => i; rewrite coef_map /= !coef_scaleX coef_map /= rmorphM rmorphX. Qed.

Lemma size_scaleX (R : idomainType) (c : R) (q : {poly R}) : c != 0 -> size (scaleX c q) = size q.
Proof.
move=> C; rewrite /scaleX; case: (eqVneq q 0) => [->|Nq]; first by rewrite size_poly0 poly_def big_ord0 size_poly0.
apply: size_poly_eq; rewrite -lead_coefE mulf_neq0 ?lead_coef_eq0 // expf_neq0 //.
Qed.

Lemma lead_scaleX (R : idomainType) (c : R) (q : {poly R}) : c != 0 -> lead_coef (scaleX c q) = lead_coef q * c ^+ (size q).-1.
Proof. by move=> C; rewrite lead_coefE size_scaleX // coef_scaleX. Qed.

Lemma Cyclotomic_coef0 k : (0 < k)%N -> ('Phi_k)`_0 \is a GRing.unit.
Proof.
move=> K; have E := prod_Cyclotomic K.
have Dk : k \in divisors k by rewrite divisors_id.
have : (\prod_(d <- divisors k) 'Phi_d)`_0 = -1.
  by rewrite E coefB coefXn coef1 /= (ltn_eqF K) sub0r.
rewrite (big_rem _ Dk) /= -horner_coef0 hornerM => H; have := unitrN1 [unitRingType of int]; rewrite -H unitrM horner_coef0 => /andP[U _]; exact: U.
Qed.

Lemma zcontents_scaled k (p : int) : (0 < k)%N -> p > 0 -> zcontents (scaleX p 'Phi_k) = 1.
Proof.
move=> K P; have P0 : p != 0 by rewrite gt_eqF.
have S : sgz (zcontents (scaleX p 'Phi_k)) = 1.
  rewrite sgz_contents lead_scaleX // (monicP (Cyclotomic_monic k)) mul1r.
  by rewrite gtr0_sgz // exprn_gt0.
have D : (zcontents (scaleX p 'Phi_k) %| ('Phi_k)`_0)%Z.
  have := dvdz_contents (zcontents (scaleX p 'Phi_k)) (scaleX p 'Phi_k).
  rewrite dvdzz => /esym/polyOverP/(_ 0%N); by rewrite coef_scaleX expr0 mulr1.
have : (zcontents (scaleX p 'Phi_k) %| 1)%Z.
  by apply: (dvdz_trans D); have /unitrP[y [H _]] := Cyclotomic_coef0 K; apply/dvdzP; exists y.
rewrite dvdz1; case: (zcontents _) S => [n|n] //= S.
by move/eqP => ->.
Qed.

Section Factor.
Variables (g : {poly int}) (p : int).
Hypothesis p0 : p > 0.

Lemma root_scaled k r : root (pZtoC (scaleX p 'Phi_k)) r -> (0 < k)%N -> unity (p%:~R * r).
Proof.
move=> R K; exists k => //.
have [z Pz] := C_prim_root_exists K.
move: R; rewrite map_scaleX /root horner_scaleX -/(root _ _) (Cintr_Cyclotomic Pz) root_cyclotomic //.
exact: prim_expr_order.
Qed.

Hypothesis gi : irreducible_poly (pZtoQ g).
Hypothesis gc : zcontents g = 1.

Lemma unity_factor r : root (pZtoC g) r -> unity (p%:~R * r) -> exists2 k, (0 < k)%N & g = scaleX p 'Phi_k.
Proof.
move=> R [n N0 Hn]; have [k Pk _] := prim_order_exists N0 Hn.
have K := prim_order_gt0 Pk; exists k => //.
have P0 : (p%:~R : rat) != 0 by rewrite intr_eq0 gt_eqF.
have PC : (p%:~R : algC) != 0 by rewrite intr_eq0 gt_eqF.
have [m [Em _] Dm] := minCpolyP (p%:~R * r).
have E : m = pZtoQ 'Phi_k.
  apply: (@map_inj_poly _ _ (ratr : rat -> algC) (fmorph_inj _) (rmorph0 _)); rewrite /= -Em (minCpoly_cyclotomic Pk) -(Cintr_Cyclotomic Pk).
  rewrite -map_poly_comp; apply: eq_map_poly => x /=; by rewrite ratr_int.
pose G := scaleX (p%:~R)^-1 (pZtoQ g).
have RG : root (pQtoC G) (p%:~R * r).
  rewrite /G map_scaleX /= fmorphV rmorph_int /root horner_scaleX mulrA mulVf // mul1r.
  rewrite -map_poly_comp; rewrite (_ : map_poly _ g = pZtoC g) //.
  by apply: eq_map_poly => x /=; rewrite ratr_int.
rewrite Dm E in RG.
have D : pZtoQ (scaleX p 'Phi_k) %| pZtoQ g.
  have := dvdp_comp_poly (p%:~R *: 'X) RG; rewrite -!scaleX_comp.
  rewrite -(map_scaleX [rmorphism of intr]) /=.
  rewrite (_ : scaleX p%:~R G = pZtoQ g) //.
  by apply/polyP => i; rewrite /G !coef_scaleX -mulrA -exprMn mulVf // expr1n mulr1.
have Sz : size (pZtoQ (scaleX p 'Phi_k)) != 1%N.
  rewrite size_map_inj_poly ?rmorph0 //; last exact: intr_inj.
  have Pz : p != 0 by rewrite gt_eqF.
  by rewrite (size_scaleX _ Pz) size_Cyclotomic -[1%N]/(0.+1)%N eqSS -lt0n totient_gt0.
have : scaleX p 'Phi_k %= g.
  by have := (gi.2 _ Sz D); rewrite /eqp !dvdp_rat_int.
case/eqpP => [[c1 c2] /= /andP[C1 C2] H].
have := congr1 zcontents H; rewrite !zcontentsZ zcontents_scaled // gc !mulr1 => Ec.
move: H; rewrite Ec -!mul_polyC => H; apply: (mulfI _ (esym H)); by rewrite polyC_eq0.
Qed.
End Factor.
