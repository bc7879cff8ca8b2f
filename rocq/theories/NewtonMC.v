(** Newton's identities for the characteristic polynomial of a matrix over a
    commutative ring (MathComp), through the trace of the adjugate. *)
From mathcomp Require Import all_ssreflect all_fingroup all_algebra.
From mathcomp Require Import zify.
Set Implicit Arguments.
Unset Strict Implicit.
Unset Printing Implicit Defensive.
Import GRing.Theory.
Local Open Scope ring_scope.

Section Newton.
Variable R : comRingType.

Lemma deriv_prod_seq (I : eqType) (r : seq I) (f : I -> {poly R}) : uniq r ->
  (\prod_(i <- r) f i)^`() = \sum_(i <- r) \prod_(j <- r) (if j == i then (f j)^`() else f j).
Proof.
elim: r => [|x r IH] /=; first by rewrite !big_nil derivC.
case/andP=> xr ur; rewrite !big_cons derivM IH // eqxx; congr (_ + _).
  congr (_ * _); apply: eq_big_seq => j jr.
  by case: eqP => // jx; rewrite -jx jr in xr.
rewrite mulr_sumr; apply: eq_big_seq => i ir; rewrite big_cons.
by case: eqP => // xi; rewrite -xi (negPf xr) in ir.
Qed.

Lemma deriv_prod (n : nat) (f : 'I_n -> {poly R}) :
  (\prod_i f i)^`() = \sum_i \prod_j (if j == i then (f j)^`() else f j).
Proof. by rewrite deriv_prod_seq // index_enum_uniq. Qed.

Definition drow n (N : 'M[{poly R}]_n) (i : 'I_n) : 'M[{poly R}]_n :=
  \matrix_(k, j) (if k == i then (N k j)^`() else N k j).

Lemma det_deriv n (N : 'M[{poly R}]_n) : (\det N)^`() = \sum_i \det (drow N i).
Proof.
rewrite /determinant exchange_big /= raddf_sum; apply: eq_bigr => s _ /=.
rewrite -mulr_sumr mulr_sign [RHS]mulr_sign.
have H : (\prod_i N i (s i))^`() = \sum_i \prod_j drow N i j (s j).
  by rewrite deriv_prod; apply: eq_bigr => i _; apply: eq_bigr => j _; rewrite mxE.
by case: (odd_perm s); rewrite ?derivN H.
Qed.

Lemma tr_adj n (A : 'M[R]_n) : \tr (\adj (char_poly_mx A)) = (char_poly A)^`().
Proof.
rewrite /char_poly det_deriv; apply: eq_bigr => i _.
rewrite (expand_det_row _ i) (bigD1 i) //= big1 ?addr0 => [|j ji].
  rewrite !mxE eqxx mulr1n derivB derivX derivC subr0 mul1r /cofactor; congr (_ * \det _).
  apply/matrixP => k l; rewrite !mxE.
  by have -> : (lift i k == i) = false by apply/negbTE; rewrite eq_sym neq_lift.
by rewrite !mxE eqxx eq_sym (negPf ji) mulr0n sub0r derivN derivC oppr0 mul0r.
Qed.

Variables (m : nat).
Let n := m.+1.
Variable A : 'M[R]_n.
Let chi := char_poly A.

(** coefficients of the adjugate of X - A *)
Definition adjc (k : nat) : 'M[R]_n := map_mx (fun p : {poly R} => p`_k) (\adj (char_poly_mx A)).

Lemma adjc_coef t i j :
  (chi *+ (i == j))`_t = (if t is t'.+1 then adjc t' i j else 0) - (A *m adjc t) i j.
Proof.
have := mul_mx_adj (char_poly_mx A); rewrite -/(char_poly A) -/chi => /matrixP/(_ i j).
rewrite mxE [in RHS]mxE => <-; rewrite coef_sum.
rewrite (eq_bigr (fun l => (if l == i then ('X * (\adj (char_poly_mx A)) l j)`_t else 0)
    - A i l * (adjc t) l j)); last first.
  move=> l _; rewrite !mxE [i == l]eq_sym mulrBl coefB coefCM.
  by case: eqP => _; rewrite ?mulr1n // mulr0n mul0r coef0.
rewrite sumrB -big_mkcond big_pred1_eq coefXM [in RHS]mxE; congr (_ - _).
by case: t => [|t] //; rewrite [in RHS]mxE.
Qed.

Lemma adjc_step k : adjc k = (chi`_k.+1)%:M + A *m adjc k.+1.
Proof.
by apply/matrixP => i j; rewrite [in RHS]mxE [(_%:M) _ _]mxE -coefMn adjc_coef subrK.
Qed.

Lemma adjc_0 : 0 = (chi`_0)%:M + A *m adjc 0.
Proof.
by apply/matrixP => i j; rewrite [in RHS]mxE [(_%:M) _ _]mxE -coefMn adjc_coef subrK mxE.
Qed.

Lemma adjc_big k : (n <= k)%N -> adjc k = 0.
Proof.
move=> nk.
have [K HK] : exists K, forall j, (K <= j)%N -> adjc j = 0.
  exists (\max_i \max_l size ((\adj (char_poly_mx A)) i l)) => j Hj.
  apply/matrixP => i l; rewrite [RHS]mxE [LHS]mxE; apply: nth_default; apply: leq_trans Hj.
  have := @leq_bigmax _ (fun i => \max_l size ((\adj (char_poly_mx A)) i l)) i.
  by apply: leq_trans; have := @leq_bigmax _ (fun l => size ((\adj (char_poly_mx A)) i l)) l.
have H : forall d, (K - d >= n)%N -> adjc (K - d) = 0.
  elim=> [|d IH]; first by rewrite subn0 => _; apply: HK.
  move=> Hd; have E : (K - d = (K - d.+1).+1)%N. by rewrite /n in Hd *; lia.
  have Hk : adjc (K - d.+1).+1 = 0 by rewrite -E; apply: IH; rewrite E; apply: leqW.
  rewrite adjc_step Hk mulmx0 addr0 nth_default ?raddf0 //.
  by rewrite size_char_poly.
case: (leqP K k) => [/HK //|kK].
by have := H (K - k)%N; rewrite subKn ?(ltnW kK) //; apply.
Qed.

Lemma adjc_powers k : (k <= m)%N -> adjc (m - k) = \sum_(j < k.+1) chi`_(n - k + j) *: A ^+ j.
Proof.
elim: k => [|k IH] km.
  rewrite big_ord_recl big_ord0 addr0 subn0 adjc_step adjc_big // mulmx0 addr0 expr0 subn0 addn0.
  by rewrite scalemx1.
rewrite adjc_step big_ord_recl /= expr0 scalemx1 addn0.
have -> : ((m - k.+1).+1 = m - k)%N by rewrite subnSK.
have -> : (n - k.+1 = m - k)%N by rewrite /n subSS.
congr (_ + _); rewrite IH ?(ltnW km) // mulmx_sumr.
apply: eq_bigr => j _; rewrite -scalemxAr exprS; congr (_`_ _ *: _).
by rewrite /n subSn ?(ltnW km) // addSnnS.
Qed.

Lemma chi_powers : \sum_(j < n.+1) chi`_j *: A ^+ j = 0.
Proof.
rewrite big_ord_recl /= expr0 scalemx1 {2}adjc_0; congr (_ + _).
have := adjc_powers (leqnn m); rewrite subnn => ->; rewrite mulmx_sumr.
apply: eq_bigr => j _; rewrite -scalemxAr exprS; congr (_`_ _ *: _).
by rewrite /n subSnn.
Qed.

Lemma newton_tr k : (k <= n)%N ->
  chi`_(n - k) *+ (n - k) = \sum_(j < k.+1) chi`_(n - k + j) * \tr (A ^+ j).
Proof.
move=> kn; have Hs l (B : nat -> 'M[R]_n) (c : nat -> R) :
    \tr (\sum_(j < l) c j *: B j) = \sum_(j < l) c j * \tr (B j).
  by rewrite raddf_sum; apply: eq_bigr => j _; rewrite /= linearZ.
case: (ltngtP k n) kn => // [kn _|-> _].
  have km : (k <= m)%N by [].
  rewrite -(Hs k.+1 (fun j => A ^+ j) (fun j => chi`_(n - k + j))) -adjc_powers //.
  have -> : \tr (adjc (m - k)) = (\tr (\adj (char_poly_mx A)))`_(m - k).
    by rewrite /mxtrace coef_sum; apply: eq_bigr => i _; rewrite mxE.
  by rewrite tr_adj coef_deriv -/chi /n subSn.
rewrite subnn mulr0n -(Hs n.+1 (fun j => A ^+ j) (fun j => chi`_(0 + j))) chi_powers.
by rewrite linear0.
Qed.

Theorem newton k : (k <= n)%N ->
  chi`_(n - k) *+ k + \sum_(j < k) chi`_(n - k + j.+1) * \tr (A ^+ j.+1) = 0.
Proof.
move=> kn; have := newton_tr kn; rewrite big_ord_recl /= addn0 expr0 mxtrace1 => H.
have {H} : chi`_(n - k) *+ (n - k) + chi`_(n - k) *+ k =
   chi`_(n - k) * n%:R + \sum_(j < k) chi`_(n - k + j.+1) * \tr (A ^+ j.+1) + chi`_(n - k) *+ k by rewrite H.
rewrite -mulrnDr subnK // mulr_natr -[LHS]addr0 -addrA => /addrI; rewrite addrC => <- //.
Qed.
End Newton.
