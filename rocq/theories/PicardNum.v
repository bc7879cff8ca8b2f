(** Lower bound of Euler's function (MathComp). *)
From mathcomp Require Import all_ssreflect.
From mathcomp Require Import zify.
Set Implicit Arguments.
Unset Strict Implicit.
Unset Printing Implicit Defensive.

(** a strictly increasing sequence of numbers >= a + 2 *)
Lemma prod_ratio (s : seq nat) a : path ltn a.+1 s ->
  \prod_(x <- s) x * a.+1 <= (a.+1 + size s) * \prod_(x <- s) x.-1.
Proof.
elim: s a => [|x s IH] a /=; first by rewrite !big_nil; lia.
case/andP => Hx Hp; rewrite !big_cons.
have Hp' : path ltn a.+2 s.
  case: s Hp {IH} => //= y s /andP[Hy ->]; rewrite andbT; lia.
move: (IH a.+1 Hp'); move: (\prod_(_ <- _) _) (\prod_(_ <- _) _) => P P' H.
rewrite -(leq_pmul2r (_ : 0 < a.+2)) //.
case: x Hx {Hp} => // y Hy /=.
have E1 : y.+1 * a.+1 <= a.+2 * y by lia.
have := leq_mul E1 H; lia.
Qed.

Lemma primes_prod n : 0 < n -> n * \prod_(p <- primes n) p.-1 = totient n * \prod_(p <- primes n) p.
Proof.
move=> Hn; rewrite totientE // [X in X * _]prod_prime_decomp // prime_decompE big_map.
rewrite -!big_split /=; apply: eq_big_seq => p Hp.
have Pp : 0 < p by move: Hp; rewrite mem_primes => /and3P[/prime_gt0].
have Lp : 0 < logn p n by rewrite logn_gt0.
by rewrite -{1}(prednK Lp) expnS; lia.
Qed.

(** n / phi(n) <= (number of prime divisors) + 1 *)
Lemma totient_bound n : 0 < n -> n <= totient n * (size (primes n)).+1.
Proof.
move=> Hn; have S : path ltn 1 (primes n).
  have := sorted_primes n; have : all prime (primes n) by apply/allP => p; rewrite mem_primes => /and3P[].
  by case: (primes n) => [|p s] //= /andP[/prime_gt1 -> _] ->.
have := @prod_ratio (primes n) 0 S; rewrite muln1 add1n => H.
have Q : 0 < \prod_(p <- primes n) p.-1.
  rewrite big_seq; elim/big_ind: _ => // [a b A B|p]; first by rewrite muln_gt0 A.
  by rewrite mem_primes => /and3P[/prime_gt1]; lia.
have E := primes_prod Hn.
have T : 0 < totient n by rewrite totient_gt0.
rewrite -(leq_pmul2r Q) E; have := leq_mul (leqnn (totient n)) H; lia.
Qed.

Lemma primes_large n : 0 < n -> 0 < size (primes n) -> 2 * 3 ^ (size (primes n)).-1 <= n.
Proof.
move=> Hn Hs; apply: (@leq_trans (\prod_(p <- primes n) p)); last first.
  rewrite [X in _ <= X]prod_prime_decomp // prime_decompE big_map big_seq [X in _ <= X]big_seq.
  apply: leq_prod => p Hp /=.
  have Lp : 0 < logn p n by rewrite logn_gt0.
  have Pp : 0 < p by move: Hp; rewrite mem_primes => /and3P[/prime_gt0].
  by rewrite -{1}(expn1 p) leq_pexp2l.
have := sorted_primes n; have : all prime (primes n) by apply/allP => p; rewrite mem_primes => /and3P[].
case: (primes n) Hs => // p s _ /= /andP[/prime_gt1 P2 _] Hp; rewrite big_cons; apply: leq_mul => //.
elim: s p P2 Hp => [|q s IH] p P2 /=; first by rewrite big_nil.
case/andP => Hq Hs; rewrite big_cons expnS; apply: leq_mul; first by lia.
by apply: (IH q) => //; lia.
Qed.

(** the margin of the loop condition *)
Lemma totient_margin k : 2 < k -> 2 ^ (8 * k) <= (2 * k) ^ (7 * totient k).
Proof.
move=> Hk; have K0 : 0 < k by lia.
have B := totient_bound K0; have L := @primes_large k K0; move: B L.
set w := size _ => B L.
have Hw : 0 < w.
  rewrite /w lt0n size_eq0; apply/eqP => E.
  have : pdiv k \in primes k by rewrite mem_primes pdiv_prime ?pdiv_dvd ?K0 //; lia.
  by rewrite E.
have W : 2 ^ (8 * w.+1) <= (2 * k) ^ 7.
  case: (ltnP 1 w) => H1; last first.
    have -> : w = 1 by lia.
    apply: (@leq_trans (6 ^ 7)); first by vm_compute.
    by rewrite leq_exp2r //; lia.
  apply: (@leq_trans ((2 * (2 * 3 ^ w.-1)) ^ 7)); last by rewrite leq_exp2r // leq_mul2l L.
  case: w H1 {B L Hw} => [|[|w]] // _; rewrite /=.
  elim: w => [|w IH].
    have A : 2 ^ 14 <= 4 ^ 7 by vm_compute.
    have B : 2 ^ 10 <= 3 ^ 7 by vm_compute.
    move: (leq_mul A B); rewrite -expnD -expnMn => C; exact C.
  have -> : 8 * w.+4 = 8 + 8 * w.+3 by lia.
  rewrite expnD [3 ^ w.+2]expnS.
  have -> : 2 * (2 * (3 * 3 ^ w.+1)) = 3 * (2 * (2 * 3 ^ w.+1)) by lia.
  by rewrite (expnMn 3); apply: leq_mul.
apply: (@leq_trans (2 ^ (8 * (totient k * w.+1)))); first by rewrite leq_exp2l // leq_mul2l.
have -> : 8 * (totient k * w.+1) = (8 * w.+1) * totient k by lia.
by rewrite !expnM leq_exp2r ?totient_gt0 // -!expnM.
Qed.
