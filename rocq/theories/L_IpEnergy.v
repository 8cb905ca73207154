(** Energy, regularity and conservation of DiffusionIP. *)
From mathcomp Require Import all_ssreflect all_algebra zify ring.
From Verif Require Import S_Hdg L_Hdg S_LocalSolver L_LocalLink L_DiffusionUniform2 M_DiffusionIP S_DiffusionIP L_IpGeo.
Set Implicit Arguments. Unset Strict Implicit. Unset Printing Implicit Defensive.
Import Order.TTheory GRing.Theory Num.Theory.
Local Open Scope ring_scope.

Section Bound.
Variable F : realFieldType.
Variables (n m : nat) (S : 'M[F]_n) (G : 'M[F]_(m, n)).
Hypotheses (hs : S^T = S) (hp : forall u : 'cV[F]_n, 0 <= dotv u (S *m u)).
Lemma form_sym u v : dotv u (S *m v) = dotv v (S *m u).
Proof. by rewrite dotvC dotv_mxl hs. Qed.
Lemma form_lin c u v : dotv (u + c *: v) (S *m (u + c *: v)) = dotv u (S *m u) + 2%:R * c * dotv v (S *m u) + c ^+ 2 * dotv v (S *m v).
Proof. rewrite mulmxDr -scalemxAr !(dotvDl, dotvDr, dotvZl, dotvZr) [dotv u (S *m v)]form_sym.
by move: (dotv u (S *m u)) (dotv v (S *m u)) (dotv v (S *m v)) => *; ring. Qed.
Lemma form_cs u v : dotv u (S *m v) ^+ 2 <= dotv u (S *m u) * dotv v (S *m v).
Proof.
have [v0|v0] := eqVneq (dotv v (S *m v)) 0; last first.
  have {}v0 : 0 < dotv v (S *m v) by rewrite lt_def v0 hp.
  have := hp (u + (- (dotv u (S *m v) / dotv v (S *m v))) *: v); rewrite form_lin [dotv v (S *m u)]form_sym.
  move: v0; set A := dotv u _; set B := dotv v _; set C := dotv u _ => v0.
  have -> : A + 2%:R * - (C / B) * C + (- (C / B)) ^+ 2 * B = (A * B - C ^+ 2) / B by field; rewrite gt_eqF.
  by rewrite pmulr_lge0 ?invr_gt0 // subr_ge0.
rewrite v0 mulr0; set C := dotv u _; have [->|c0] := eqVneq C 0; first by rewrite expr0n.
have := hp (u + (- ((dotv u (S *m u) + 1) / (2%:R * C))) *: v); rewrite form_lin v0 mulr0 addr0 [dotv v (S *m u)]form_sym -/C.
set A := dotv u _; have -> : A + 2%:R * - ((A + 1) / (2%:R * C)) * C = - 1 by field.
by rewrite oppr_ge0 ler10.
Qed.
Hypothesis hk : forall u, dotv u (S *m u) = 0 -> G *m u = 0.
Lemma flux_bound : exists2 C, 0 <= C & forall u, dotv (G *m u) (G *m u) <= C * dotv u (S *m u).
Proof.
have /submxP[D hD] : (G <= S)%MS.
  rewrite submxE; apply/eqP/matrixP => i j; have := hk (u := col j (cokermx S)).
  move: (mulmx_coker S) => e; move: (cokermx S) e j => K e j; rewrite colE !mulmxA e mul0mx dotv0r => /(_ erefl); rewrite -colE => /colP/(_ i).
  by rewrite [LHS]mxE [RHS]mxE => ->; rewrite mxE.
pose h j : 'cV[F]_n := (row j D)^T.
exists (\sum_j dotv (h j) (S *m h j)) => [|u]; first by apply: sumr_ge0.
rewrite mulr_suml; apply: ler_sum => j _; rewrite -expr2.
have -> : (G *m u) j 0 = dotv (h j) (S *m u).
  by rewrite hD -mulmxA mxE /dotv; apply: eq_bigr => k _; rewrite !mxE.
exact: form_cs.
Qed.
End Bound.

Section Energy.
Variable F : realFieldType.
Variables (dim p : nat) (tau : F) (P : ip_data F) (t : F).
Hypotheses (dim0 : (0 < dim)%N) (hF : ip_facts dim p P t).
Notation nf := ((p + 1) ^ dim)%N.
Notation nb := ((p + 1) ^ (dim - 1))%N.
Notation one := (cube_one F dim p).
Notation e := (unit_vec F nb).
Notation S := (ip_S dim p P t).
Notation B := (ip_B dim p P).
Notation E := (ip_E dim p P).
Notation N := (ip_N dim p P).
Notation G := (ip_G dim p P).
Notation a := (ip_area P).
Implicit Types (u v : 'cV[F]_nf) (x : 'I_(2 * dim) -> 'cV[F]_nb) (f : 'I_(2 * dim)).
Notation num := (ip_num_flux dim p tau P).
Notation T := (ip_trace dim p P).

Lemma ipa_neq0 f : a f != 0. Proof. by rewrite gt_eqF ?(fa0 hF). Qed.
Lemma ip_NE f : N f = (a f)^-1 *: (E f *m G f).
Proof. by rewrite -(faN hF) scalerA mulVf ?scale1r // ipa_neq0. Qed.
Lemma ip_BE f : B f = (a f)^-1 *: (E f *m (E f)^T).
Proof. by rewrite -(faB hF) scalerA mulVf ?scale1r // ipa_neq0. Qed.
Lemma ip_ET u f : (E f)^T *m u = a f *: T u f.
Proof. by rewrite /ip_trace scalerA divff ?scale1r // ipa_neq0. Qed.
Lemma ip_traceD c u v f : T (c *: u + v) f = c *: T u f + T v f.
Proof. by rewrite /ip_trace mulmxDr -scalemxAr scalerDr !scalerA [_ * c]mulrC. Qed.
Lemma ip_dN v u f : dotv v (N f *m u) = dotv (T v f) (G f *m u).
Proof.
rewrite ip_NE -scalemxAl dotvZr -mulmxA dotvC dotv_mxl.
by rewrite dotvC -dotvZl. Qed.
Lemma ip_dB v u f : dotv v (B f *m u) = a f * dotv (T v f) (T u f).
Proof. by rewrite ip_BE -scalemxAl dotvZr -mulmxA dotvC dotv_mxl dotvC !ip_ET dotvZl dotvZr mulKf // ipa_neq0. Qed.
Lemma ip_dE v y f : dotv v (E f *m y) = a f * dotv (T v f) y.
Proof. by rewrite dotvC dotv_mxl dotvC ip_ET dotvZl. Qed.
(** The local problem tested with v. *)
Lemma ip_test v u x r : ip_loc dim p tau P t u x r ->
  dotv v (S *m u) - \sum_(f < 2 * dim) dotv (T v f) (G f *m u) + tau * (\sum_(f < 2 * dim) a f * dotv (T v f) (T u f)) =
  tau * (\sum_(f < 2 * dim) a f * dotv (T v f) (x f)) + dotv v r.
Proof.
move=> /(congr1 (dotv v)); rewrite !(dotvDr, dotvNr, dotvZr, dotv_sumr).
by under eq_bigr do [rewrite ip_dN]; under [\sum_(f < 2 * dim) dotv v (B f *m u)]eq_bigr do [rewrite ip_dB]; under [\sum_(f < 2 * dim) dotv v (E f *m _)]eq_bigr do [rewrite ip_dE].
Qed.
Lemma ip_numE u x f : num u x f = - (G f *m u) + (tau * a f) *: (T u f - x f).
Proof. by rewrite /ip_num_flux ip_ET -scalerBr scalerA. Qed.
Lemma ip_trace_one c f : T (c *: one) f = c *: e.
Proof. by rewrite /ip_trace -scalemxAr (fEone hF) !scalerA mulrAC mulVf ?mul1r // ipa_neq0. Qed.
Lemma e_dot : dotv e e = 1.
Proof.
have nb0 : (0 < nb)%N by rewrite expn_gt0 addn1.
rewrite /dotv (bigD1 (Ordinal nb0)) //= !mxE eqxx mulr1 big1 ?addr0 // => j hj.
by rewrite !mxE -val_eqE /= in hj *; rewrite (negbTE hj) mul0r.
Qed.

(** Energy: the traces tested with the numerical fluxes. *)
Lemma ip_energy u x : ip_loc dim p tau P t u x 0 ->
  \sum_(f < 2 * dim) dotv (x f) (num u x f) = - dotv u (S *m u)
    + \sum_(f < 2 * dim) (dotv (T u f - x f) (G f *m u) - tau * a f * dotv (T u f - x f) (T u f - x f)).
Proof.
move=> /(ip_test u); rewrite dotv0r addr0 => h.
have -> : dotv u (S *m u) = \sum_(f < 2 * dim) (dotv (T u f) (G f *m u) - tau * (a f * dotv (T u f) (T u f)) + tau * (a f * dotv (T u f) (x f))).
  rewrite big_split sumrB -!mulr_sumr /= -h; move: (dotv u _) (\sum_(f < 2 * dim) dotv (T u f) (G f *m u)).
  by move: (\sum_(f < 2 * dim) a f * dotv (T u f) (T u f)) => *; ring.
rewrite -sumrN -big_split; apply: eq_bigr => f _ /=; rewrite ip_numE; move: (T u f) (G f *m u) (x f) => A B X.
rewrite !(dotvDr, dotvBr, dotvNr, dotvZr, dotvBl) [dotv X A]dotvC.
by move: (dotv A A) (dotv A X) (dotv X X) (dotv X B) (dotv A B) => *; ring.
Qed.
Lemma young (s : F) n (v w : 'cV[F]_n) : 0 < s -> dotv v w - s * dotv v v <= (4%:R * s)^-1 * dotv w w.
Proof.
move=> s0; rewrite -subr_ge0.
have -> : (4%:R * s)^-1 * dotv w w - (dotv v w - s * dotv v v) = (4%:R * s)^-1 * dotv (w - (2%:R * s) *: v) (w - (2%:R * s) *: v).
  by rewrite !(dotvBr, dotvBl, dotvZr, dotvZl) [dotv w v]dotvC; move: (dotv w w) (dotv v w) (dotv v v) => *; field; rewrite gt_eqF.
by rewrite mulr_ge0 ?dotv_ge0 ?invr_ge0 ?mulr_ge0 ?ler0n ?ltW.
Qed.
Lemma ip_bound_exists : exists2 C, 0 <= C & ip_bound dim p C P t.
Proof.
have hk f u : dotv u (S *m u) = 0 -> G f *m u = 0.
  by move=> /(fSeq0 hF)[c ->]; rewrite -scalemxAr (fGone hF) scaler0.
have /fin_all_exists2[C C0 hC] f := flux_bound (fSsym hF) (fSge0 hF) (hk f).
exists (\sum_(f < 2 * dim) (a f)^-1 * C f) => [|u]; first by apply: sumr_ge0 => f _; rewrite mulr_ge0 // invr_ge0 ltW ?(fa0 hF).
by rewrite mulr_suml; apply: ler_sum => f _; rewrite -mulrA ler_pmul2l ?invr_gt0 ?(fa0 hF).
Qed.

Section Coercive.
Variable C : F.
Hypotheses (tau0 : 0 < tau) (hC : ip_bound dim p C P t) (hCt : C < 4%:R * tau).
Let ta0 f : 0 < tau * a f. Proof. by rewrite mulr_gt0 ?(fa0 hF). Qed.
Lemma ip_coercive u x : ip_loc dim p tau P t u x 0 ->
  \sum_(f < 2 * dim) dotv (x f) (num u x f) <= - (1 - C / (4%:R * tau)) * dotv u (S *m u).
Proof.
move=> /ip_energy ->; rewrite mulNr mulrBl mul1r opprB addrC ler_add2r.
apply: (@le_trans _ _ (\sum_(f < 2 * dim) (4%:R * tau)^-1 * ((a f)^-1 * dotv (G f *m u) (G f *m u)))).
  apply: ler_sum => f _; apply: le_trans (young _ _ (ta0 f)) _.
  by rewrite !invfM !mulrA.
by rewrite -mulr_sumr [C / _]mulrC -mulrA ler_pmul2l ?invr_gt0 ?mulr_gt0 ?ltr0n //; exact: hC.
Qed.
Let c0 : 0 < 1 - C / (4%:R * tau). Proof. by rewrite subr_gt0 ltr_pdivr_mulr ?mul1r ?mulr_gt0 ?ltr0n. Qed.
Lemma ip_dissipative u x : ip_loc dim p tau P t u x 0 -> \sum_(f < 2 * dim) dotv (x f) (num u x f) <= 0.
Proof. by move=> /ip_coercive h; apply: le_trans h _; rewrite mulNr oppr_le0 mulr_ge0 ?(fSge0 hF) // ltW. Qed.
(** Without dissipation the solution and the traces are one constant. *)
Lemma ip_definite u x : ip_loc dim p tau P t u x 0 -> 0 <= \sum_(f < 2 * dim) dotv (x f) (num u x f) ->
  exists2 c, u = c *: one & forall f, x f = c *: e.
Proof.
move=> hl h0; have hc := le_trans h0 (ip_coercive hl).
have s0 : dotv u (S *m u) = 0.
  apply/eqP; rewrite eq_le (fSge0 hF) andbT; move: hc; rewrite mulNr oppr_ge0 pmulr_rle0 //.
have [c hu] := fSeq0 hF s0; exists c => // f.
have g0 k : G k *m u = 0 by rewrite hu -scalemxAr (fGone hF) scaler0.
have hz : \sum_(f < 2 * dim) tau * a f * dotv (T u f - x f) (T u f - x f) = 0.
  apply/eqP; rewrite eq_le andbC; apply/andP; split.
    by apply: sumr_ge0 => k _; rewrite mulr_ge0 ?dotv_ge0 // ltW.
  rewrite -oppr_ge0; apply: le_trans h0 _; rewrite (ip_energy hl) s0 oppr0 add0r -sumrN.
  by apply: ler_sum => k _; rewrite g0 dotv0r add0r.
have := psumr_eq0P (fun k _ => mulr_ge0 (ltW (ta0 k)) (dotv_ge0 (T u k - x k))) hz.
move=> /(_ f isT) /eqP; rewrite mulf_eq0 gt_eqF //= dotv_eq0 subr_eq0 => /eqP <-.
by rewrite hu ip_trace_one.
Qed.
Lemma ip_reg : ip_regular dim p tau P t.
Proof.
move=> u hu; have [|c -> hx] := ip_definite hu; first by rewrite big1 // => f _; rewrite dotv0l.
have f : 'I_(2 * dim) by apply: (@Ordinal _ 0); rewrite muln_gt0.
have /(congr1 (dotv e)) := hx f; rewrite dotv0r dotvZr e_dot mulr1 => <-; exact: scale0r.
Qed.
End Coercive.

(** The fluxes add up to the source. *)
Lemma ip_conserve u x r : ip_loc dim p tau P t u x r -> \sum_(f < 2 * dim) dotv e (num u x f) = dotv one r.
Proof.
move=> /(ip_test one); rewrite -(fSsym hF) -dotv_mxl (fSone hF) dotv0l sub0r.
have h1 f : T one f = e by rewrite -[one]scale1r ip_trace_one scale1r.
under eq_bigr do rewrite h1; under [\sum_(f < 2 * dim) a f * dotv _ (T u f)]eq_bigr do rewrite h1.
under [\sum_(f < 2 * dim) a f * dotv _ (x f)]eq_bigr do rewrite h1.
move=> h; rewrite (eq_bigr (fun f : 'I_(2 * dim) => - dotv e (G f *m u) + (tau * (a f * dotv e (T u f)) - tau * (a f * dotv e (x f))))).
  rewrite big_split sumrN sumrB -!mulr_sumr /= addrA h.
  by move: (tau * _) (dotv one r) => *; ring.
move=> f _; rewrite ip_numE; move: (T u f) => A; rewrite !(dotvDr, dotvNr, dotvZr).
by move: (dotv e A) (dotv e _) (dotv e _) => *; ring.
Qed.
(** Constants solve the local problem without fluxes. *)
Lemma ip_const c : ip_loc dim p tau P t (c *: one) (fun=> c *: e) 0 /\ forall f, num (c *: one) (fun=> c *: e) f = 0.
Proof.
split=> [|f]; last by rewrite ip_numE -scalemxAr (fGone hF) ip_trace_one subrr !scaler0 addr0 oppr0.
rewrite /ip_loc -scalemxAr (fSone hF) scaler0 sub0r big1 ?oppr0 ?add0r ?addr0 => [|f _].
  congr (_ *: _); apply: eq_bigr => f _; rewrite ip_BE -scalemxAl -mulmxA ip_ET ip_trace_one.
  by rewrite -scalemxAr scalerA mulVf ?scale1r // ipa_neq0.
by rewrite ip_NE -scalemxAl -mulmxA -scalemxAr (fGone hF) scaler0 mulmx0 scaler0.
Qed.
End Energy.
