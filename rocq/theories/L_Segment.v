(** The integrals over a segment satisfy the requirements of the beam equations. *)
From mathcomp Require Import all_ssreflect all_algebra zify ring.
From Verif Require Import S_Tpp L_Poly S_Beam L_Beam S_LocalSolver M_Timoshenko S_Timoshenko.
Set Implicit Arguments. Unset Strict Implicit. Unset Printing Implicit Defensive.
Import Order.TTheory GRing.Theory Num.Theory.
Local Open Scope ring_scope.

Section Segment.
Variables (F : realFieldType) (b : nat -> {poly F}) (p : nat) (r : F) (D : tb_data F).
Hypothesis hD : segment_data b p r D.
Notation n := (p + 1)%N.
Notation B := (tb_beam p D).
Let n0 : (0 < n)%N. Proof. by rewrite addn1. Qed.
Definition seg0 : 'I_(p + 1) := Ordinal n0.
Definition seg_one : 'cV[F]_(p + 1) := delta_mx seg0 0.
Definition seg_coord : 'cV[F]_(p + 1) := \col_k integ ((r *: 'X) * b k).

Let hb : orthonormal_basis n b. Proof. by case: hD. Qed.
Let r0 : r != 0. Proof. by case: hD. Qed.
Let a0 : 0 < `|r|. Proof. by rewrite normr_gt0. Qed.
Let sg2 : Num.sg r * Num.sg r = 1. Proof. by rewrite -expr2 sqr_sg r0. Qed.
Let sgr : Num.sg r * r = `|r|. Proof. by rewrite normrEsg. Qed.

Lemma seg_M : bM B = (`|r|)%:M.
Proof.
apply/matrixP => i j; rewrite !mxE; case: hD => _ _ h _ _; have [-> _] := h i j (ltn_ord i) (ltn_ord j).
by case: hb => _ _ -> //; rewrite val_eqE mulr_natr.
Qed.
Lemma seg_D i j : bD B i j = Num.sg r * integ ((b i)^`() * b j).
Proof. by rewrite mxE; case: hD => _ _ h _ _; have [_ ->] := h i j (ltn_ord i) (ltn_ord j). Qed.
Lemma seg_E i f : bE B i f = (b i).[(f : nat)%:R].
Proof. by rewrite mxE; case: hD => _ _ _ h _; have [-> _] := h i f (ltn_ord i). Qed.
Lemma seg_N : bN B 0 = - Num.sg r /\ bN B 1 = Num.sg r.
Proof. by case: hD. Qed.
Lemma seg_DT (c : 'cV[F]_(p + 1)) (i : 'I_(p + 1)) :
  ((bD B)^T *m c) i 0 = Num.sg r * integ ((\sum_(k < n) c k 0 *: b k)^`() * b i).
Proof.
rewrite mxE raddf_sum /= mulr_suml raddf_sum /= mulr_sumr; apply: eq_bigr => j _.
by rewrite mxE seg_D derivZ -scalerAl linearZ /= -mulrA; congr (_ * _); exact: mulrC.
Qed.
Lemma seg_ET (c : 'cV[F]_(p + 1)) (f : 'I_2) : ((bE B)^T *m c) f 0 = (\sum_(k < n) c k 0 *: b k).[(f : nat)%:R].
Proof.
rewrite mxE horner_sum; apply: eq_bigr => j _.
by rewrite mxE seg_E hornerZ mulrC.
Qed.
Lemma sum_one : \sum_(k < n) seg_one k 0 *: b k = 1.
Proof.
rewrite (bigD1 seg0) //= big1 => [|k hk]; rewrite !mxE ?eqxx ?(negbTE hk) /= ?scale0r //.
by rewrite scale1r addr0; case: hb.
Qed.
Lemma segment_ok : beam_ok B seg_one r.
Proof.
have [N0 N1] := seg_N; have [b0 bs bo] := hb.
split.
- split; first by rewrite seg_M tr_scalar_mx.
  move=> q q0; rewrite seg_M mul_scalar_mx mdotZr mulr_gt0 // lt_neqAle mdot_ge0 andbT eq_sym.
  by apply: contra q0 => /eqP/mdot_eq0 ->.
- apply/matrixP => i j; rewrite mxE [X in _ + X]mxE !seg_D -mulrDr [_ * b i]mulrC integ_parts.
  have NE f g : bNu B f g = (if f == 0 then - Num.sg r else Num.sg r) *+ (f == g).
    rewrite mxE; congr (_ *+ _).
    by case: f => [[|[|f]] hf] //=; rewrite -?N0 -?N1; congr (bN B _); apply: val_inj.
  rewrite mxE (big_ord_recl 1) (big_ord_recl 0) big_ord0 ![(bE B)^T _ _]mxE.
  rewrite ![(bE B *m bNu B) _ _]mxE !(big_ord_recl 1) !(big_ord_recl 0) !big_ord0.
  have -> : lift ord0 (ord0 : 'I_1) = 1 :> 'I_2 by apply: val_inj.
  rewrite !NE !seg_E /= !mulr1n !mulr0n.
  by move: (b i).[0] (b i).[1] (b j).[0] (b j).[1] (Num.sg r) => *; ring.
- split; apply/colP => i.
    by rewrite seg_DT sum_one derivE mul0r linear0 mulr0 mxE.
  by rewrite seg_ET sum_one hornerE mxE.
- move=> u hu; exists (u seg0 0).
  pose c k := if insub k is Some i then u i 0 else 0.
  have cE (k : 'I_n) : c k = u k 0 by rewrite /c valK.
  have cL : \sum_(k < n) u k 0 *: b k = lin n b c by apply: eq_bigr => k _; rewrite cE.
  have h0 : lin n b c = (c 0%N)%:P.
    apply: (lin_deriv0 hb n0) => k hk; have /colP/(_ (Ordinal hk)) := hu.
    rewrite seg_DT cL mxE /= => /eqP; rewrite mulf_eq0 sgr_eq0 (negbTE r0) /=; by move/eqP.
  apply/colP => k; rewrite -cE -(integ_lin hb c (ltn_ord k)) h0 -alg_polyC -scalerAl mul1r linearZ /=.
  rewrite !mxE andbT -[in LHS](mul1r (b k)) -b0 bo // (cE seg0); congr (_ * _%:R).
  by rewrite eq_sym.
split; rewrite ?N0 ?N1 //.
by rewrite seg_M mul_scalar_mx mdotZr mdot_col (bigD1 seg0) //= big1 => [|k hk];
  rewrite !mxE ?eqxx ?(negbTE hk) /= ?mul0r // mulr1 addr0 mulr1 sgr.
Qed.
Lemma segment_linear : (0 < p)%N -> beam_linear B seg_one seg_coord r.
Proof.
move=> p0; have [b0 bs bo] := hb.
have hx : \sum_(k < n) seg_coord k 0 *: b k = r *: 'X.
  rewrite [RHS](basis_expand hb) ?(leq_trans (size_scale_leq _ _)) ?size_polyX //; last by lia.
  by apply: eq_bigr => k _; rewrite mxE.
split; apply/colP => i.
  rewrite seg_DT hx derivZ derivX -scalerAl mul1r seg_M mul_scalar_mx 2!mxE linearZ /= mulrA sgr.
  by rewrite -[b i]mul1r -b0 bo //; congr (_ * _%:R); rewrite andbT eq_sym.
rewrite seg_ET hx !hornerE mxE.
by case: i => [[|[|i]] hi] //=; rewrite ?mulr0 ?mulr1.
Qed.
End Segment.
