(** geometric_picard counts the roots p*zeta (MathComp). *)
From Coq Require Import ZArith QArith List Lia.
From mathcomp Require Import all_ssreflect all_algebra all_field.
From mathcomp Require Import zify ssrZ.
From Verif Require Import Base VecModel ToolsModel MatModel MatProofs PicardModel PicardSpec PicardProofs PicardNum PicardMC PicardRoots.
Set Implicit Arguments.
Unset Strict Implicit.
Unset Printing Implicit Defensive.
Import Order.TTheory GRing.Theory Num.Theory.
Local Open Scope ring_scope.

(** the polynomial of a list of coefficients *)
Definition pz (f : list Z) : {poly int} := Poly (List.map int_of_Z f).

(** no trailing zeros *)
Definition normal (f : list Z) : Prop := List.last f (Zpos xH) <> Z0.

(** fmpz_poly_cyclotomic *)
Definition cyc_spec (cyc : Z -> list Z) : Prop :=
  forall k, (0 < k)%N -> normal (cyc (Z.of_nat k)) /\ pz (cyc (Z.of_nat k)) = 'Phi_k.

(** fmpz_poly_factor_zassenhaus: irreducible primitive factors with positive
    leading coefficient *)
Definition factor_spec (P : list Z) (fac : list (list Z * Z)) : Prop :=
  (exists2 c, c != 0 & pz P = c *: \prod_(ge <- fac) pz ge.1 ^+ Z.to_nat ge.2) /\
  (forall ge, List.In ge fac ->
     Z.le Z0 ge.2 /\ normal ge.1 /\ zcontents (pz ge.1) = 1 /\ irreducible_poly (pZtoQ (pz ge.1))).

Lemma nthE (T : Type) (d : T) (s : list T) i : List.nth i s d = nth d s i.
Proof. by elim: s i => [|a s IH] [|i] /=. Qed.

Lemma lengthE (T : Type) (s : list T) : List.length s = size s.
Proof. by elim: s => //= a s ->. Qed.

Lemma pz_coef f i : (pz f)`_i = int_of_Z (List.nth i f Z0).
Proof. by rewrite coef_Poly; elim: f i => [|a f IH] [|i] //=; rewrite IH. Qed.

Lemma last_nth_Z f : normal f -> f <> nil -> List.nth (List.length f).-1 f Z0 <> Z0.
Proof.
rewrite /normal; elim: f => // a [|b f] IH H _ //=; apply: IH => //.
Qed.

Lemma pz_size f : normal f -> size (pz f) = List.length f.
Proof.
move=> N; case: (List.length f =P 0%N) => [|L].
  by case: f {N} => // _; rewrite /pz /= size_poly0.
have F : f <> nil by move=> E; apply: L; rewrite E.
apply/eqP; rewrite eqn_leq; apply/andP; split.
  by rewrite (leq_trans (size_Poly _)) // -lengthE List.map_length.
rewrite leqNgt; apply/negP => S; apply: (last_nth_Z N F).
have H : (pz f)`_(List.length f).-1 = 0 by rewrite nth_default // -ltnS prednK // lt0n; apply/eqP.
by rewrite pz_coef in H; rewrite -[LHS]int_of_ZK H.
Qed.

Lemma pz_inj f g : normal f -> normal g -> pz f = pz g -> f = g.
Proof.
move=> Nf Ng E; have L : List.length f = List.length g by rewrite -!pz_size // E.
apply: (List.nth_ext f g Z0 Z0) => // n _.
by apply: (can_inj int_of_ZK); rewrite -!pz_coef E.
Qed.

Lemma int_pow (p : Z) i : int_of_Z (Z.pow p (Z.of_nat i)) = int_of_Z p ^+ i.
Proof.
elim: i => [|i IH]; first by rewrite expr0.
by rewrite Nat2Z.inj_succ Z.pow_succ_r; [rewrite exprS -IH -rmorphM | lia].
Qed.

Lemma unscale_pz p f g : Z.le (Zpos xH) p -> normal f ->
  unscale p f = Some g -> normal g /\ pz f = scaleX (int_of_Z p) (pz g) /\ List.length g = List.length f.
Proof.
move=> P N /(unscale_ok p f g P) [L H]; split; last first.
  split=> //; apply/polyP => i; by rewrite coef_scaleX !pz_coef H rmorphM /= int_pow.
rewrite /normal => E; case: f N L H => [|a f] N L H; first by case: g L E {H}.
have := last_nth_Z N (fun F => @List.nil_cons _ a f (esym F)).
rewrite H -L; apply; suff -> : List.nth (List.length g).-1 g Z0 = Z0 by [].
case: g L E {H} => // b g _; elim: g b => //= c g IH b E; exact: IH.
Qed.

Lemma unscale_scaled p f g : Z.le (Zpos xH) p -> normal f -> normal g -> pz f = scaleX (int_of_Z p) (pz g) -> unscale p f = Some g.
Proof.
move=> P Nf Ng E; have P0 : int_of_Z p != 0 by lia.
apply/(unscale_ok p f g P); split; first by rewrite -!pz_size // E size_scaleX.
by move=> i; apply: (can_inj int_of_ZK); rewrite rmorphM /= int_pow -!pz_coef E coef_scaleX.
Qed.

Lemma pow_nat (a b : nat) : Z.of_nat (expn a b) = Z.pow (Z.of_nat a) (Z.of_nat b).
Proof. by lia. Qed.

Lemma phi_margin k : (2 < k)%N -> Z.le (Z.pow 2 (8 * Z.of_nat k)) (Z.pow (2 * Z.of_nat k) (7 * Z.of_nat (totient k))).
Proof.
move=> K; have H := totient_margin K.
have A : Z.of_nat (expn 2 (muln 8 k)) = Z.pow 2 (8 * Z.of_nat k) by rewrite pow_nat; congr Z.pow; lia.
have B : Z.of_nat (expn (muln 2 k) (muln 7 (totient k))) = Z.pow (2 * Z.of_nat k) (7 * Z.of_nat (totient k)) by rewrite pow_nat; congr Z.pow; lia.
rewrite -A -B; apply/Nat2Z.inj_le; exact: (elimT ssrnat.leP H).
Qed.

Section Count.
Variables (x : Z -> Q) (cyc : Z -> list Z) (p : Z).
Hypothesis X : double_ok x.
Hypothesis HC : cyc_spec cyc.
Hypothesis P1 : Z.le (Zpos xH) p.

Lemma pzint : int_of_Z p > 0. Proof. by lia. Qed.

Lemma nru_ok g N md : normal g -> zcontents (pz g) = 1 -> irreducible_poly (pZtoQ (pz g)) ->
  Z.le 1 N -> loop_cond x N md = false -> Z.le (fdeg g) md ->
  exists r, number_of_roots_of_unity x (List.map cyc (zseq 0 N)) g p = OK r /\
    ((r = fdeg g /\ forall z, root (pZtoC (pz g)) z -> unity ((int_of_Z p)%:~R * z)) \/
     (r = Z0 /\ forall z, root (pZtoC (pz g)) z -> ~ unity ((int_of_Z p)%:~R * z))).
Proof.
move=> Ng Cg Ig N1 CN D; rewrite /number_of_roots_of_unity.
case U : (unscale p g) => [g'|]; last first.
  exists Z0; split => //; right; split => // z R Uz.
  have [k K E] := unity_factor pzint Ig Cg R Uz.
  have [Nc Ec] := HC K; rewrite -Ec in E.
  by rewrite (unscale_scaled P1 Ng Nc E) in U.
have [Ng' [Eg Lg]] := unscale_pz P1 Ng U.
have CN' : loop_cond x N (fdeg g) = false.
  by case E : (loop_cond _ _ _) => //; rewrite (cond_mono x N _ _ D E) in CN.
have [|||r [R1 R2]] := @cyc_loop_ok x cyc g' (fdeg g) N (S (List.length (List.map cyc (zseq 0 N)))) 1.
- by [].
- by rewrite List.map_length zseq_length; lia.
- by [].
exists r; split => //; case: R2 => [[-> [k [K E]]]|[-> H]]; [left | right]; split => // z R.
  have K0 : (0 < Z.to_nat k)%N by lia.
  have [_ Ek] := HC K0; move: Ek; rewrite Z2Nat.id; last by lia.
  by rewrite E => Ek; rewrite Eg Ek in R; apply: (root_scaled R K0).
move=> Uz; have [k K E] := unity_factor pzint Ig Cg R Uz.
have [Nc Ec] := HC K.
have Eg' : cyc (Z.of_nat k) = g'.
  apply: pz_inj => //; apply/polyP => i.
  have : (scaleX (int_of_Z p) (pz (cyc (Z.of_nat k))))`_i = (scaleX (int_of_Z p) (pz g'))`_i by rewrite -Eg E Ec.
  by rewrite !coef_scaleX; apply: mulIf; rewrite expf_neq0 // gt_eqF // pzint.
apply: (H (Z.of_nat k)) Eg'; first by lia.
have Fd : fdeg g = Z.of_nat (totient k).
  by rewrite /fdeg -pz_size // E size_scaleX ?gt_eqF ?pzint // size_Cyclotomic; lia.
have T0 : (0 < totient k)%N by rewrite totient_gt0.
move=> j J; rewrite Fd; apply: (@cond_prefix x X (Z.of_nat k)) => //; first by lia.
by move=> K3; apply: phi_margin; lia.
Qed.

Definition one_factor (N : Z) (count : Z) (ge : list Z * Z) : res Z :=
  bind (number_of_roots_of_unity x (List.map cyc (zseq 0 N)) ge.1 p) (fun r => OK (count + ge.2 * r)%Z).

Lemma fold_ok N md l : Z.le 1 N -> loop_cond x N md = false ->
  (forall ge, List.In ge l -> Z.le Z0 ge.2 /\ normal ge.1 /\ zcontents (pz ge.1) = 1 /\ irreducible_poly (pZtoQ (pz ge.1)) /\ Z.le (fdeg ge.1) md) ->
  forall acc, exists us vs, splits (int_of_Z p)%:~R (pZtoC (\prod_(ge <- l) pz ge.1 ^+ Z.to_nat ge.2)) us vs /\
    foldM (one_factor N) l acc = OK (acc + Z.of_nat (size us))%Z.
Proof.
move=> N1 CN; elim: l => [|[g e] l IH] H acc.
  exists [::], [::]; split; last by (rewrite /=; congr OK; lia).
  by rewrite big_nil rmorph1; apply: splits_const; exact: oner_neq0.
have [E0 [Ng [Cg [Ig Dg]]]] := H (g, e) (or_introl erefl).
rewrite /= in E0 Ng Cg Ig Dg.
have [r [R1 R2]] := nru_ok Ng Cg Ig N1 CN Dg.
have G0 : pZtoC (pz g) != 0.
  rewrite map_poly_eq0_id0; last by rewrite intr_eq0 lead_coef_eq0; apply/eqP => Z0; move: Cg; rewrite Z0 zcontents0.
  by apply/eqP => Z0; move: Cg; rewrite Z0 zcontents0.
have [us1 [vs1 [S1 L1]]] : exists us vs, splits (int_of_Z p)%:~R (pZtoC (pz g)) us vs /\ Z.of_nat (size us) = r.
  case: R2 => [[-> A]|[-> A]].
    have [us S L] := splits_all G0 A; exists us, [::]; split => //.
    rewrite L size_map_inj_poly ?rmorph0 //; last exact: intr_inj.
    have : g <> nil by move=> Z0; move: G0; rewrite Z0 /pz /= rmorph0 eqxx.
    by rewrite pz_size // /fdeg; case: (g) => [|a g'] NG; [case: NG | cbn [List.length]; lia].
  by have [vs S] := splits_none G0 A; exists [::], vs.
have [us2 [vs2 [S2 L2]]] := splits_exp (Z.to_nat e) S1.
have [|us3 [vs3 [S3 E3]]] := IH _ (acc + e * r)%Z; first by move=> ge I; apply: H; right.
exists (us2 ++ us3), (vs2 ++ vs3); split.
  by rewrite big_cons rmorphM rmorphX /=; exact: splits_mul.
rewrite /= {1}/one_factor /= R1 /= E3; congr OK; rewrite size_cat L2 -L1; lia.
Qed.
End Count.

Lemma max_ge (l : list (list Z * Z)) m : Z.le m (List.fold_left (fun m ge => Z.max m (fdeg ge.1)) l m) /\
  forall ge, List.In ge l -> Z.le (fdeg ge.1) (List.fold_left (fun m ge => Z.max m (fdeg ge.1)) l m).
Proof.
elim: l m => [|a l IH] m /=; first by split => //; lia.
have [I1 I2] := IH (Z.max m (fdeg a.1)); split; first exact: (Z.le_trans _ _ _ (Z.le_max_l _ _) I1).
by move=> ge [<-|I]; [exact: (Z.le_trans _ _ _ (Z.le_max_r _ _) I1) | exact: I2].
Qed.

Lemma pz_rev cs n : List.length cs = n.+1 -> pz (fnorm (List.rev cs)) = rv n (pz cs).
Proof.
move=> L; apply/polyP => i; rewrite pz_coef fnorm_nth coef_poly pz_coef.
case: ltnP => I; last by rewrite List.nth_overflow //; rewrite List.rev_length L; apply/ssrnat.leP.
rewrite List.rev_nth; last by rewrite L; apply/ssrnat.ltP.
by rewrite L.
Qed.

Theorem picard_ok x cyc factor cs p dim s :
  double_ok x -> cyc_spec cyc -> factor_spec (fnorm (List.rev cs)) (factor (fnorm (List.rev cs))) -> Z.le (Zpos xH) p -> normal cs -> cs <> nil ->
  pZtoC (pz cs) = lead_coef (pZtoC (pz cs)) *: prodX s ->
  exists us vs F, perm_eq s (us ++ vs) /\
    (forall z, z \in us -> unity (z / (int_of_Z p)%:~R)) /\ (forall z, z \in vs -> ~ unity (z / (int_of_Z p)%:~R)) /\
    forall fuel, (F <= fuel)%N -> geometric_picard fuel x cyc factor cs p dim =
      (if negb (Z.eqb dim (Zpos (xO xH))) || Bool.eqb (Z.even (Z.of_nat (List.length cs))) (Z.even (picard_count dim (size us)))
       then OK (picard_count dim (size us)) else Err EAssert).
Proof.
move=> X HC HF P1 Nc C0 Es.
set P := fnorm (List.rev cs).
have Lc : List.length cs = (List.length cs).-1.+1 by case: (cs) C0.
have L0 : lead_coef (pZtoC (pz cs)) != 0.
  rewrite lead_coef_eq0 -size_poly_eq0 size_map_inj_poly ?rmorph0 //; last exact: intr_inj.
  by rewrite pz_size // Lc.
have Sz : size s = (List.length cs).-1.
  have := congr1 (fun q : {poly algC} => size q) Es; rewrite size_map_inj_poly ?rmorph0 //; last exact: intr_inj.
  by rewrite pz_size // size_scale // size_prod_XsubC => ->.
have [[c c0 Ec] Hfac] := HF; rewrite -/P in Ec Hfac.
pose md := List.fold_left (fun m ge => Z.max m (fdeg ge.1)) (factor P) Z0.
have [M0 M1] := max_ge (factor P) Z0; rewrite -/md in M0 M1.
have HE := cond_ends x X md M0.
set B := Z.mul _ _ in HE.
have B1 : Z.le (Zpos xH) B by rewrite /B; nia.
have [N1 [T1 [T2 [T3 T4]]]] := @table_size_from x md (S (Z.to_nat B)) (Zpos xH) B B1 ltac:(lia) HE.
have [|us [vs [S1 F1]]] := @fold_ok x cyc p X HC P1 N1 md (factor P) (proj1 T2) T3 _ Z0.
  by move=> ge I; have [A1 [A2 [A3 A4]]] := Hfac ge I; split => //; split => //; split => //; split => //; exact: M1.
have S2 : splits (int_of_Z p)%:~R (rv (size s) (lead_coef (pZtoC (pz cs)) *: prodX s)) us vs.
  rewrite -Es Sz; have -> : rv (List.length cs).-1 (pZtoC (pz cs)) = pZtoC (pz P).
    rewrite (pz_rev Lc); apply/polyP => i; rewrite [RHS]coef_map /rv /= !coef_poly.
    case: ltnP => _ //; case: ltnP => I //; by rewrite nth_default.
  rewrite Ec -mul_polyC rmorphM /= map_polyC -[us]cat0s -[vs]cat0s; apply: splits_mul => //.
  by apply: splits_const; rewrite intr_eq0.
have PC : (int_of_Z p)%:~R != 0 :> algC by rewrite intr_eq0; lia.
have [us' [vs' [A1 [A2 [A3 A4]]]]] := rev_split PC L0 S2.
exists us', vs', (S (Z.to_nat B)); split => //; split => //; split => // fuel Hf.
have [N2 [T1' [T2' [T3' T4']]]] := @table_size_from x md fuel (Zpos xH) B B1 ltac:(lia) HE.
have EN : N2 = N1.
  case: (Z.lt_trichotomy N1 N2) => [L|[//|L]]; [rewrite (T4' N1) in T3 | rewrite (T4 N2) in T3'] => //; lia.
rewrite A2; apply: (@geometric_picard_eq fuel x cyc factor cs p dim N1); first by rewrite -EN.
exact: F1.
Qed.

(** with the absolute values of the Weil conjectures the assertion holds *)
Theorem picard_weil x cyc factor cs p dim s :
  double_ok x -> cyc_spec cyc -> factor_spec (fnorm (List.rev cs)) (factor (fnorm (List.rev cs))) -> Z.le (Zpos xH) p -> normal cs -> cs <> nil ->
  pZtoC (pz cs) = lead_coef (pZtoC (pz cs)) *: prodX s ->
  (forall z, z \in s -> `|z| = (int_of_Z p)%:~R) ->
  exists us vs F, perm_eq s (us ++ vs) /\
    (forall z, z \in us -> unity (z / (int_of_Z p)%:~R)) /\ (forall z, z \in vs -> ~ unity (z / (int_of_Z p)%:~R)) /\
    forall fuel, (F <= fuel)%N -> geometric_picard fuel x cyc factor cs p dim = OK (picard_count dim (size us)).
Proof.
move=> X HC HF P1 Nc C0 Es A; have [us [vs [F [A1 [A2 [A3 A4]]]]]] := picard_ok dim X HC HF P1 Nc C0 Es.
exists us, vs, F; split => //; split => //; split => // fuel Hf; rewrite A4 //.
case: (Z.eqb_spec dim _) => //= D.
have Lc : List.length cs = (List.length cs).-1.+1 by case: (cs) C0.
have L0 : lead_coef (pZtoC (pz cs)) != 0.
  rewrite lead_coef_eq0 -size_poly_eq0 size_map_inj_poly ?rmorph0 //; last exact: intr_inj.
  by rewrite pz_size // Lc.
have Sz : List.length cs = (size us + size vs).+1.
  have := congr1 (fun q : {poly algC} => size q) Es; rewrite size_map_inj_poly ?rmorph0 //; last exact: intr_inj.
  by rewrite pz_size // size_scale // size_prod_XsubC (perm_size A1) size_cat.
have Ev : ~~ odd (size vs).
  by apply: (weil_parity _ L0 Es A1 A2 A3 A); rewrite ltr0z; lia.
have -> : Z.even (Z.of_nat (List.length cs)) = Z.even (picard_count dim (size us)); last by case: (Z.even _).
rewrite D Sz /picard_count (_ : Z.even (Zpos (xO xH)) = true) //.
apply: Bool.eq_true_iff_eq; rewrite !Z.even_spec; split => -[k Hk].
  exists (Z.sub k (Z.of_nat (size vs)./2)); lia.
exists (Z.add k (Z.of_nat (size vs)./2)); lia.
Qed.
