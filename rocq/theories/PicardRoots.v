(** Multisets of roots (MathComp). *)
From mathcomp Require Import all_ssreflect all_algebra all_field.
From Verif Require Import PicardMC.
Set Implicit Arguments.
Unset Strict Implicit.
Unset Printing Implicit Defensive.
Import Order.TTheory GRing.Theory Num.Theory.
Local Open Scope ring_scope.

Notation prodX s := (\prod_(z <- s) ('X - z%:P)).

Lemma prodX_perm (F : fieldType) (s t : seq F) : prodX s = prodX t -> perm_eq s t.
Proof.
elim: s t => [|a s IH] t E.
  have : size t = 0%N by have := congr1 (fun q : {poly F} => size q) E; rewrite !size_prod_XsubC => -[].
  by case: t {E}.
have : a \in t by rewrite -root_prod_XsubC -E root_prod_XsubC mem_head.
move=> /perm_to_rem H; rewrite perm_sym; apply: (perm_trans H); rewrite perm_cons perm_sym.
apply: IH; move: E; rewrite big_cons (perm_big _ H) big_cons /=; by apply: mulfI; rewrite polyXsubC_eq0.
Qed.

Lemma scaled_perm (F : fieldType) (c d : F) s t : c != 0 -> c *: prodX s = d *: prodX t -> perm_eq s t.
Proof.
move=> C E; apply: prodX_perm.
have L : c = d.
  have := congr1 lead_coef E; rewrite !lead_coefZ !(monicP (monic_prod_XsubC _ _ _)) !mulr1 //.
by move: E; rewrite -L => /(scalerI C).
Qed.

(** the reversal of a polynomial of size <= n+1 *)
Definition rv (R : ringType) n (q : {poly R}) : {poly R} := \poly_(i < n.+1) q`_(n - i).

Lemma rv_prodX (F : fieldType) (c : F) (s : seq F) : rv (size s) (c *: prodX s) = c *: \prod_(z <- s) (1 - z *: 'X).
Proof.
elim: s => [|a s IH].
  rewrite !big_nil; apply/polyP => i; rewrite coef_poly !coefZ !coef1; case: i => [|i] //=; by rewrite mulr0.
have Sz : (size (c *: prodX s) <= (size s).+1)%N by rewrite (leq_trans (size_scale_leq _ _)) // size_prod_XsubC.
rewrite !big_cons.
have -> : c *: (('X - a%:P) * prodX s) = (c *: prodX s) * ('X - a%:P) by rewrite -scalerAl mulrC.
have -> : c *: ((1 - a *: 'X) * \prod_(z <- s) (1 - z *: 'X)) = (c *: \prod_(z <- s) (1 - z *: 'X)) * (1 - a *: 'X)
  by rewrite -scalerAl mulrC.
rewrite -IH /=; move: (c *: prodX s) Sz => Q Sz.
apply/polyP => i; rewrite !mulrBr mulr1 -scalerAr coef_poly !coefB coefZ !coefMX coefMC !coef_poly /=.
case: i => [|j] /=; first by rewrite !subn0 (nth_default _ Sz) mul0r mulr0.
rewrite !ltnS !subSS; case: (leqP j (size s)) => J; last by rewrite ltnNge (ltnW J) mulr0 subr0.
rewrite mulrC; congr (_ - _); rewrite subn_eq0.
by rewrite leqNgt; case: (ltnP j (size s)) => //= _; rewrite subnS.
Qed.

(** * the roots that are 1/c times a root of unity *)
Section Split.
Variable c : algC.

(** Q = const * prod (X - r); those in us are roots of unity after scaling, those in vs are not *)
Definition splits (Q : {poly algC}) (us vs : seq algC) : Prop :=
  exists2 k, k != 0 & Q = k *: (prodX us * prodX vs) /\ (forall r, r \in us -> unity (c * r)) /\ (forall r, r \in vs -> ~ unity (c * r)).

Lemma splits_const k : k != 0 -> splits k%:P [::] [::].
Proof. by move=> K; exists k => //; rewrite !big_nil mulr1 alg_polyC. Qed.

Lemma splits_mul Q1 Q2 us1 us2 vs1 vs2 : splits Q1 us1 vs1 -> splits Q2 us2 vs2 -> splits (Q1 * Q2) (us1 ++ us2) (vs1 ++ vs2).
Proof.
case=> k1 K1 [-> [U1 V1]] [k2 K2 [-> [U2 V2]]]; exists (k1 * k2); first by rewrite mulf_neq0.
split; first by rewrite !big_cat -scalerAl -scalerAr scalerA mulrACA.
by split=> r; rewrite mem_cat => /orP[]; auto.
Qed.

Lemma splits_exp Q us vs e : splits Q us vs -> exists us' vs', splits (Q ^+ e) us' vs' /\ size us' = (e * size us)%N.
Proof.
move=> H; elim: e => [|e [us' [vs' [IH S]]]]; first by exists [::], [::]; split => //; rewrite expr0; apply: splits_const; exact: oner_neq0.
by exists (us ++ us'), (vs ++ vs'); split; [rewrite exprS; exact: splits_mul | rewrite size_cat S mulSn].
Qed.

Lemma splits_all Q : Q != 0 -> (forall r, root Q r -> unity (c * r)) -> exists2 us, splits Q us [::] & size us = (size Q).-1.
Proof.
move=> Q0 A; have [rs E] := closed_field_poly_normal Q; exists rs; last first.
  by rewrite E size_scale ?lead_coef_eq0 // size_prod_XsubC.
exists (lead_coef Q); first by rewrite lead_coef_eq0.
rewrite big_nil mulr1; split => //; split => // r R; apply: A.
by rewrite E rootZ ?lead_coef_eq0 // root_prod_XsubC.
Qed.

Lemma splits_none Q : Q != 0 -> (forall r, root Q r -> ~ unity (c * r)) -> exists vs, splits Q [::] vs.
Proof.
move=> Q0 A; have [rs E] := closed_field_poly_normal Q; exists rs.
exists (lead_coef Q); first by rewrite lead_coef_eq0.
rewrite big_nil mul1r; split => //; split => // r R; apply: A.
by rewrite E rootZ ?lead_coef_eq0 // root_prod_XsubC.
Qed.

End Split.

Lemma unityV z : unity z -> unity z^-1.
Proof. by case=> n N E; exists n => //; rewrite exprVn E invr1. Qed.

Lemma unity_conj z : unity z -> unity z^*.
Proof. by case=> n N E; exists n => //; rewrite -rmorphX E rmorph1. Qed.

Lemma unity_neq0 z : unity z -> z != 0.
Proof. by case=> n N E; apply/eqP => Z; move: E; rewrite Z expr0n gtn_eqF // => /eqP; rewrite eq_sym oner_eq0. Qed.

(** the roots of the reversed polynomial *)
Lemma rev_split (p : algC) (c : algC) (s us vs : seq algC) : p != 0 -> c != 0 ->
  splits p (rv (size s) (c *: prodX s)) us vs ->
  exists us' vs', perm_eq s (us' ++ vs') /\ size us' = size us /\
    (forall z, z \in us' -> unity (z / p)) /\ (forall z, z \in vs' -> ~ unity (z / p)).
Proof.
move=> P0 C0 [k K [E [U V]]]; rewrite rv_prodX in E.
pose nz := [seq z <- s | z != 0].
have E1 : exists2 k', k' != 0 & \prod_(z <- s) (1 - z *: 'X) = k' *: prodX [seq z^-1 | z <- nz].
  rewrite {}/nz; elim: s {E} => [|a s [k' K' IH]]; first by exists 1; rewrite ?oner_neq0 // !big_nil scale1r.
  rewrite big_cons IH /=; case: eqP => [->|/eqP A] /=.
    by exists k' => //; rewrite scale0r subr0 mul1r.
  exists (- a * k'); first by rewrite mulf_neq0 ?oppr_eq0.
  rewrite big_cons; have -> : 1 - a *: 'X = - a *: ('X - (a^-1)%:P) :> {poly algC}.
    by rewrite scalerBr !scaleNr opprK [RHS]addrC; congr (_ - _); rewrite -mul_polyC -polyCM mulfV // polyC1.
  by rewrite -scalerAl -scalerAr scalerA.
case: E1 => k' K' E1.
have Pm : perm_eq [seq z^-1 | z <- nz] (us ++ vs).
  apply: (@scaled_perm _ (c * k') k); first by rewrite mulf_neq0.
  by rewrite -scalerA -E1 E big_cat.
have Pm2 : perm_eq nz ([seq z^-1 | z <- us] ++ [seq z^-1 | z <- vs]).
  have Hid : [seq z^-1 | z <- [seq z^-1 | z <- nz]] = nz.
    by rewrite -map_comp -[RHS]map_id; apply: eq_map => z /=; exact: invrK.
  by have := perm_map (fun z => z^-1) Pm; rewrite Hid map_cat.
exists [seq z^-1 | z <- us], ([seq z^-1 | z <- vs] ++ [seq z <- s | z == 0]); split.
  rewrite catA; apply: (@perm_trans _ (nz ++ [seq z <- s | z == 0])).
    rewrite perm_sym (_ : [seq z <- s | z == 0] = [seq z <- s | predC (fun z => z != 0) z]); first exact/permPl/perm_filterC.
    by apply: eq_filter => z /=; rewrite negbK.
  by rewrite perm_cat2r.
split; first by rewrite size_map.
split=> z.
  case/mapP => r R ->; have := unityV (U r R); by rewrite invfM mulrC.
rewrite mem_cat => /orP[].
  case/mapP => r R ->; move/unityV => H; apply: (V r R); move: H; by rewrite invfM !invrK mulrC.
by rewrite mem_filter => /andP[/eqP -> _] /unity_neq0; rewrite mul0r eqxx.
Qed.

(** * parity *)
Lemma even_paired (vs : seq algC) : perm_eq [seq z^* | z <- vs] vs -> (forall z, z \in vs -> z \isn't Num.real) -> ~~ odd (size vs).
Proof.
move=> Pv Nr; pose up := fun z : algC => 0 < 'Im z; pose dn := fun z : algC => 'Im z < 0.
have E : count up vs = count dn vs.
  have /permP/(_ up) <- := Pv; rewrite count_map; apply: eq_count => z /=.
  by rewrite /up /dn Im_conj oppr_gt0.
have E2 : count (predC up) vs = count dn vs.
  apply: eq_in_count => z Z; rewrite /= /up /dn -real_leNgt ?real0 ?Creal_Im // le_eqVlt; case: eqP => // I.
  by case/negP: (Nr z Z); apply/Creal_ImP.
by rewrite -(count_predC up) E2 E addnn odd_double.
Qed.

Lemma weil_parity (p : algC) (c : algC) (q : {poly int}) s us vs : p > 0 -> c != 0 ->
  pZtoC q = c *: prodX s -> perm_eq s (us ++ vs) ->
  (forall z, z \in us -> unity (z / p)) -> (forall z, z \in vs -> ~ unity (z / p)) ->
  (forall z, z \in s -> `|z| = p) -> ~~ odd (size vs).
Proof.
move=> P0 C E Ps U V A.
have Pr : p \is Num.real by rewrite realE ltW.
have Pc : p^* = p by apply: CrealP.
have cs : perm_eq [seq z^* | z <- s] s.
  apply: (@scaled_perm _ c^* c); first by rewrite conjC_eq0.
  have := congr1 (map_poly conjC) E; rewrite map_polyZ /= rmorph_prod /= big_map => H.
  rewrite -E (_ : pZtoC q = map_poly conjC (pZtoC q)); first last.
    by rewrite -map_poly_comp; apply: eq_map_poly => x /=; rewrite rmorph_int.
  rewrite H; congr (_ *: _); apply: eq_bigr => z _; by rewrite rmorphB /= map_polyX map_polyC.
have csv : perm_eq ([seq z^* | z <- us] ++ [seq z^* | z <- vs]) (us ++ vs).
  by rewrite -map_cat; apply: perm_trans (perm_trans cs Ps); apply: perm_map; rewrite perm_sym.
have Uc z : unity (z / p) -> unity (z^* / p).
  by move=> H; have := unity_conj H; rewrite rmorphM /= fmorphV Pc.
have Du z : z \in us -> z \in vs -> False by move=> /U H /V.
have pu : perm_eq [seq z^* | z <- us] us.
  have := perm_filter (mem us) csv; rewrite !filter_cat.
  rewrite (_ : filter _ [seq z^* | z <- us] = [seq z^* | z <- us]); last first.
    apply/all_filterP/allP => z /mapP[y Y ->] /=.
    have : y^* \in us ++ vs by rewrite -(perm_mem csv) mem_cat map_f.
    by rewrite mem_cat => /orP[] // /V []; apply: Uc; apply: U.
  rewrite (_ : filter _ [seq z^* | z <- vs] = [::]); last first.
    apply/eqP; rewrite -(negbK (_ == _)) -has_filter; apply/hasPn => z /mapP[y Y ->] /=; apply/negP => H.
    by apply: (V y Y); rewrite -[y]conjCK; apply: Uc; apply: U.
  rewrite (_ : filter _ us = us); last by apply/all_filterP/allP.
  rewrite (_ : filter _ vs = [::]) ?cats0 //.
  by apply/eqP; rewrite -(negbK (_ == _)) -has_filter; apply/hasPn => z Z /=; apply/negP => H; apply: Du H Z.
apply: even_paired.
  rewrite -(perm_cat2l us); apply: perm_trans csv; by rewrite perm_cat2r perm_sym.
move=> z Z; apply/negP => R; apply: (V z Z); exists 2%N => //.
have Zs : z \in s by rewrite (perm_mem Ps) mem_cat Z orbT.
by rewrite exprMn exprVn -(A z Zs) real_normK // mulfV // expf_neq0 // -normr_eq0 (A z Zs) gt_eqF.
Qed.
