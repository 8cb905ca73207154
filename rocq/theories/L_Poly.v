(** Integrals of polynomials over [0,1] and orthonormal polynomials. *)
From mathcomp Require Import all_ssreflect all_algebra polyrcf.
From Verif Require Import S_Tpp.
Set Implicit Arguments. Unset Strict Implicit. Unset Printing Implicit Defensive.
Import Order.TTheory GRing.Theory Num.Theory.
Local Open Scope ring_scope.

Section Integ.
Variable F : numFieldType.
Implicit Types (p q : {poly F}).

Lemma integE p n : (size p <= n)%N -> integ p = \sum_(i < n) p`_i / i.+1%:R.
Proof.
move=> h; rewrite /integ (big_ord_widen n (fun i => p`_i / i.+1%:R)) // big_mkcond /=.
apply: eq_bigr => i _; case: ltnP => // hi; by rewrite nth_default // mul0r.
Qed.

Lemma integ_is_scalar : scalar (@integ F).
Proof.
move=> a p q; pose n := maxn (size p) (size q).
have hp : (size p <= n)%N by rewrite leq_maxl.
have hq : (size q <= n)%N by rewrite leq_maxr.
have hs : (size (a *: p + q)%R <= n)%N.
  by rewrite (leq_trans (size_add _ _)) // geq_max hq andbT (leq_trans (size_scale_leq _ _)).
rewrite !(integE (n:=n)) // mulr_sumr -big_split /=; apply: eq_bigr => i _.
by rewrite coefD coefZ mulrDl mulrA.
Qed.
Canonical integ_additive := Additive integ_is_scalar.
Canonical integ_linear := AddLinear integ_is_scalar.

Lemma leq_size_deriv p : (size p^`() <= size p)%N.
Proof. by rewrite /deriv (leq_trans (size_poly _ _)) // leq_pred. Qed.

(** Fundamental theorem of calculus. *)
Lemma integ_deriv p : integ p^`() = p.[1] - p.[0].
Proof.
have hs := leq_size_deriv p.
rewrite (integE hs) horner_coef0 horner_coef.
case e: (size p) => [|m].
  by rewrite !big_ord0 nth_default ?e ?subrr.
rewrite big_ord_recr big_ord_recl /= coef_deriv nth_default ?e // mul0rn mul0r addr0.
rewrite expr1n mulr1 [p`_0 + _]addrC addrK; apply: eq_bigr => i _.
by rewrite coef_deriv expr1n mulr1 -mulr_natr mulfK // pnatr_eq0.
Qed.

(** Integration by parts. *)
Lemma integ_parts p q : integ (p^`() * q) + integ (p * q^`()) = p.[1] * q.[1] - p.[0] * q.[0].
Proof. by rewrite -raddfD /= -derivM integ_deriv !hornerM. Qed.

Lemma integ1 : integ (1 : {poly F}) = 1.
Proof. by rewrite /integ size_poly1 big_ord1 coef1 divr1. Qed.

Variables (n : nat) (b : nat -> {poly F}).

Lemma basis_span p m : (forall i, (i < n)%N -> size (b i) = i.+1) -> (m <= n)%N -> (size p <= m)%N ->
  exists c : nat -> F, p = \sum_(k < m) c k *: b k.
Proof.
move=> hb; elim: m p => [|m IH] p hm hp.
  by exists (fun=> 0); rewrite big_ord0; apply/eqP; rewrite -size_poly_eq0 -leqn0.
have sb := hb m hm.
have lb : (b m)`_m != 0.
  by have := lead_coef_eq0 (b m); rewrite lead_coefE sb /= => ->; rewrite -size_poly_eq0 sb.
pose a := p`_m / (b m)`_m.
have hs : (size (p - a *: b m)%R <= m)%N.
  apply/leq_sizeP => j; rewrite leq_eqVlt => /orP[/eqP <-|hj].
    by rewrite coefB coefZ /a divfK // subrr.
  rewrite coefB coefZ (nth_default _ (leq_trans hp hj)) nth_default ?sb //.
  by rewrite mulr0 subr0.
have [c hc] := IH _ (ltnW hm) hs.
exists (fun k => if k == m then a else c k).
rewrite big_ord_recr /= eqxx -(subrK (a *: b m) p) {1}hc; congr (_ + _).
by apply: eq_bigr => k _; rewrite (ltn_eqF (ltn_ord k)).
Qed.

Hypothesis hb : orthonormal_basis n b.

Lemma basis_expand p : (size p <= n)%N -> p = \sum_(k < n) integ (p * b k) *: b k.
Proof.
case: hb => _ hs ho hp; have [c hc] := basis_span hs (leqnn n) hp.
rewrite [LHS]hc; apply: eq_bigr => k _; congr (_ *: _); rewrite hc mulr_suml raddf_sum /=.
rewrite (bigD1 k) //= -scalerAl linearZ /= ho // eqxx mulr1 big1 ?addr0 // => j hj.
by rewrite -scalerAl linearZ /= ho // (_ : (j == k :> nat) = false) ?mulr0 //; apply/negbTE.
Qed.

Lemma basis_zero p : (size p <= n)%N -> (forall k, (k < n)%N -> integ (p * b k) = 0) -> p = 0.
Proof.
move=> hp h; rewrite (basis_expand hp) big1 // => k _; by rewrite h // scale0r.
Qed.

(** The polynomial with given coefficients. *)
Definition lin (c : nat -> F) : {poly F} := \sum_(k < n) c k *: b k.
Lemma size_lin c : (size (lin c) <= n)%N.
Proof.
case: hb => _ hs _; apply: (leq_trans (size_sum _ _ _)); apply/bigmax_leqP => k _.
by rewrite (leq_trans (size_scale_leq _ _)) // hs.
Qed.
Lemma integ_lin c k : (k < n)%N -> integ (lin c * b k) = c k.
Proof.
case: hb => _ _ ho hk; rewrite /lin mulr_suml raddf_sum (bigD1 (Ordinal hk)) //=.
rewrite -scalerAl linearZ /= ho // eqxx mulr1 big1 ?addr0 // => j hj.
rewrite -scalerAl linearZ /= ho // (_ : (j == k :> nat) = false) ?mulr0 //.
by apply/negbTE; move: hj; rewrite -val_eqE.
Qed.
Lemma lin_inj0 c k : lin c = 0 -> (k < n)%N -> c k = 0.
Proof. by move=> h hk; rewrite -(integ_lin c hk) h mul0r raddf0. Qed.

(** A function whose derivative tests to zero is constant. *)
Lemma lin_deriv0 c : (0 < n)%N -> (forall k, (k < n)%N -> integ ((lin c)^`() * b k) = 0) -> lin c = (c 0%N)%:P.
Proof.
move=> n0 h; have hd : (lin c)^`() = 0.
  apply: basis_zero h; exact: leq_trans (leq_size_deriv _) (size_lin c).
have hs : (size (lin c) <= 1)%N.
  apply/leq_sizeP => j; case: j => [//|j] _.
  have := coef_deriv (lin c) j; rewrite hd coef0 => /esym/eqP.
  by rewrite -mulr_natr mulf_eq0 pnatr_eq0 orbF => /eqP.
rewrite [LHS](size1_polyC hs); congr _%:P.
rewrite -(integ_lin c n0) {2}(size1_polyC hs); case: hb => -> _ _.
by rewrite mulr1 -alg_polyC linearZ /= integ1 mulr1.
Qed.
End Integ.

(** Orthonormal polynomials exist for every degree (Gram-Schmidt). *)
Section Exists.
Variable R : rcfType.
Implicit Types (p q : {poly R}).

Definition antider p : {poly R} := \poly_(i < (size p).+1) (if i is j.+1 then p`_j / j.+1%:R else 0).
Lemma antiderK p : (antider p)^`() = p.
Proof.
apply/polyP => i; rewrite coef_deriv coef_poly ltnS /=; case: ltnP => h.
  by rewrite -mulr_natr divfK // pnatr_eq0.
by rewrite nth_default // mul0rn.
Qed.

Lemma integ_square_gt0 p : p != 0 -> 0 < integ (p * p).
Proof.
move=> p0; pose P := antider (p * p); have hP : P^`() = p * p := antiderK _.
have hm x y : 0 <= x -> x <= y -> y <= 1 -> P.[x] <= P.[y].
  move=> hx hxy hy; apply: (@ler_hornerW _ 0 1 P) => //.
  - by move=> z _; rewrite hP hornerM -expr2 sqr_ge0.
  - by rewrite in_itv /= hx (le_trans hxy).
  - by rewrite in_itv /= hy (le_trans hx).
rewrite -hP integ_deriv lt_neqAle subr_ge0 hm // ?ler01 // andbT eq_sym subr_eq0.
apply/eqP => heq; case/eqP: p0; apply/eqP.
have hc x : 0 <= x -> x <= 1 -> P.[x] = P.[0].
  by move=> h0 h1; apply/le_anti; rewrite (hm 0) // -heq hm.
have : P - P.[0]%:P = 0.
  apply/eqP; apply: contraT => hn.
  pose m := size (P - P.[0]%:P)%R.
  pose rs := [seq i%:R / m%:R : R | i <- iota 0 m].
  have m0 : (0 < m)%N by rewrite lt0n size_poly_eq0.
  have := @max_poly_roots _ (P - P.[0]%:P) rs hn; rewrite size_map size_iota ltnn; apply.
    apply/allP => x /mapP[i]; rewrite mem_iota add0n => /andP[_ hi] ->.
    rewrite rootE hornerD hornerN hornerC hc ?subrr // ?divr_ge0 ?ler0n //.
    by rewrite ler_pdivr_mulr ?ltr0n // mul1r ler_nat ltnW.
  rewrite map_inj_in_uniq ?iota_uniq // => i j _ _ /(mulIf _) h.
  by apply/eqP; rewrite -(eqr_nat R); apply/eqP/h; rewrite invr_eq0 pnatr_eq0 -lt0n.
move=> /(congr1 (fun q => q^`())); rewrite derivB derivC subr0 deriv0 hP => /eqP.
by rewrite mulf_eq0 orbb.
Qed.

Lemma orthonormal_exists n : exists b : nat -> {poly R}, orthonormal_basis n.+1 b.
Proof.
elim: n => [|n [b [b0 hs ho]]].
  exists (fun=> 1); split=> [//|i|i j]; first by rewrite ltnS leqn0 => /eqP ->; rewrite size_poly1.
  by rewrite !ltnS !leqn0 => /eqP -> /eqP ->; rewrite mulr1 integ1.
pose q : {poly R} := 'X^n.+1 - \sum_(k < n.+1) integ ('X^n.+1 * b k) *: b k.
have hq : size q = n.+2.
  rewrite /q size_addl ?size_polyXn // size_opp ltnS.
  apply: (leq_trans (size_sum _ _ _)); apply/bigmax_leqP => k _.
  by rewrite (leq_trans (size_scale_leq _ _)) // hs.
have q0 : q != 0 by rewrite -size_poly_eq0 hq.
have hI := integ_square_gt0 q0; pose s := Num.sqrt (integ (q * q)).
have hs2 : s * s = integ (q * q) by rewrite -expr2 sqr_sqrtr // ltW.
have s0 : s != 0 by rewrite gt_eqF // sqrtr_gt0.
have hqb k : (k < n.+1)%N -> integ (q * b k) = 0.
  move=> hk; rewrite mulrBl raddfB /= mulr_suml [X in _ - X]raddf_sum (bigD1 (Ordinal hk)) //=.
  rewrite -scalerAl linearZ /= ho // eqxx mulr1 big1 ?addr0 ?subrr // => j hj.
  rewrite -scalerAl linearZ /= ho // (_ : (j == k :> nat) = false) ?mulr0 //.
  by apply/negbTE; move: hj; rewrite -val_eqE.
have hn j : (j < n.+2)%N -> (j < n.+1)%N || (j == n.+1) by rewrite ltnS leq_eqVlt orbC.
exists (fun i => if i == n.+1 then s^-1 *: q else b i); split=> [//|i hi|i j hi hj].
  by case: eqP => [->|/eqP hne]; [rewrite size_scale ?invr_eq0|rewrite hs //; move: (hn i hi); rewrite (negbTE hne) orbF].
move: (hn i hi) (hn j hj); case: (i =P n.+1) => [->|_]; case: (j =P n.+1) => [->|_].
- by rewrite eqxx -scalerAl -scalerAr !linearZ /= -hs2 => _ _; rewrite mulKf // mulVf.
- rewrite orbF => _ hjn; rewrite -scalerAl linearZ /= hqb // mulr0.
  by rewrite (_ : (n.+1 == j) = false) //; apply/negbTE; rewrite neq_ltn hjn orbT.
- rewrite orbF => hin _; rewrite mulrC -scalerAl linearZ /= hqb // mulr0.
  by rewrite (_ : (i == n.+1) = false) //; apply/negbTE; rewrite neq_ltn hin.
by rewrite !orbF; exact: ho.
Qed.
End Exists.
