(** Gradients of polynomials on affine hyperedges. *)
From mathcomp Require Import all_ssreflect all_algebra zify ring.
From Verif Require Import L_DenseLA S_Hdg L_Hdg S_Tpp L_Poly L_Tens S_LocalSolver L_LocalBase M_Diffusion S_Diffusion S_TppGeo S_Gradient.
From Verif Require Import L_DiffusionUniform2 L_TppGeo.
Set Implicit Arguments. Unset Strict Implicit. Unset Printing Implicit Defensive.
Import Order.TTheory GRing.Theory Num.Theory.
Local Open Scope ring_scope.

Lemma tri (R : comRingType) m n (C : R) (x y : 'I_m -> 'I_n -> R) :
  \sum_i \sum_j \sum_d C * (x i d * y j d) = C * (\sum_d (\sum_i x i d) * (\sum_j y j d)).
Proof.
rewrite mulr_sumr; transitivity (\sum_d \sum_i \sum_j C * (x i d * y j d)).
  by rewrite [RHS]exchange_big /=; apply: eq_bigr => i _; rewrite exchange_big.
by apply: eq_bigr => d _; rewrite mulr_suml mulr_sumr; apply: eq_bigr => i _; rewrite !mulr_sumr.
Qed.

Section Gradient.
Variable F : realFieldType.
Variables (dim p Q : nat) (b : nat -> {poly F}) (xs ws : nat -> F) (g : edge_geo F dim).
Hypotheses (dim0 : (0 < dim)%N) (hb : orthonormal_basis (p + 1) b) (hq : quad_ok (p + 1) b Q xs ws).
Hypothesis hg : geo_ok g.
Notation n := (p + 1)%N.
Notation nf := (n ^ dim)%N.
Notation W := (quad_weight Q ws dim).
Notation shape := (shape_at n b Q xs dim).
Notation grad := (grad_at n b Q xs g).
Notation fn := (@fn_at F dim n b Q xs).
Notation fngrad := (@fn_grad F dim n b Q xs g).
Let n0 : (0 < n)%N. Proof. by rewrite addn1. Qed.

(** The derivative of a shape function is a combination of shape functions. *)
Lemma dshape_expand (i : 'I_nf) (k s : nat) :
  dshape_at dim n b Q xs i k s = \sum_(j < nf) vol_Dphiphi n b dim i j k * shape j s.
Proof.
pose G (d : 'I_dim) (c : nat) : F :=
  (if d == k :> nat then dphi1 b (dig n i d) c else phi1 b (dig n i d) c) * (b c).[xs (dig Q s d)].
have -> : \sum_(j < nf) vol_Dphiphi n b dim i j k * shape j s = \sum_(j < nf) \prod_(d < dim) G d (dig n j d).
  by apply: eq_bigr => j _; rewrite /vol_Dphiphi /shape_at -big_split.
rewrite sum_tensor; apply: eq_bigr => d _; rewrite /G.
have hd : (dig n i d < n)%N by exact: dig_lt.
case: hb => _ hs ho.
have e (f : {poly F}) x : (size f <= n)%N -> f.[x] = \sum_(c < n) integ (f * b c) * (b c).[x].
  move=> hf; rewrite {1}(basis_expand hb hf) horner_sum; apply: eq_bigr => c _; exact: hornerZ.
by case: ifP => _; rewrite e //; [apply: leq_trans (leq_size_deriv _) _|]; rewrite hs.
Qed.

(** The matrix taking coefficients of the test function to those of its derivative. *)
Definition G (d : 'I_dim) : 'M[F]_nf := \matrix_(i, j) \sum_(k < dim) invmx (eg_R g) k d * vol_Dphiphi n b dim i j k.
Lemma grad_expand (i : 'I_nf) d s : grad i d s = \sum_(j < nf) G d i j * shape j s.
Proof.
rewrite /grad_at; under eq_bigr => k _ do rewrite dshape_expand mulr_sumr.
rewrite exchange_big; apply: eq_bigr => j _; rewrite mxE mulr_suml; apply: eq_bigr => k _.
by rewrite mulrA.
Qed.
Lemma fngradE v d s : fngrad v d s = fn ((G d)^T *m v) s.
Proof.
rewrite /fn_grad /fn_at; under eq_bigr => i _ do rewrite grad_expand mulr_sumr.
rewrite exchange_big; apply: eq_bigr => j _; rewrite mxE mulr_suml; apply: eq_bigr => i _.
by rewrite [(G d)^T j i]mxE mulrA [v i 0 * _]mulrC.
Qed.
Lemma fn0_inj v : (forall s, (s < Q ^ dim)%N -> fn v s = 0) -> v = 0.
Proof.
move=> h; apply/eqP; apply/negPn/negP => hv.
have := @quad_mass_pos F dim p Q b xs ws hb hq (fun _ => 1) (fun _ _ => ltr01) v hv.
by rewrite /quad_mass form_at big1 ?ltxx // => s _; rewrite [val_at _ _ _ _](h s (ltn_ord s)) !mulr0.
Qed.
Lemma fnD v w s : fn (v + w) s = fn v s + fn w s.
Proof. by rewrite /fn_at -big_split; apply: eq_bigr => i _; rewrite mxE mulrDl. Qed.
Lemma fnZ c v s : fn (c *: v) s = c * fn v s.
Proof. by rewrite /fn_at mulr_sumr; apply: eq_bigr => i _; rewrite mxE mulrA. Qed.
Lemma fngradD v w d s : fngrad (v + w) d s = fngrad v d s + fngrad w d s.
Proof. by rewrite !fngradE mulmxDr fnD. Qed.
Lemma fngradZ c v d s : fngrad (c *: v) d s = c * fngrad v d s.
Proof. by rewrite !fngradE -scalemxAr fnZ. Qed.

Notation one := (cube_one F dim p).
Lemma Gone d : (G d)^T *m one = 0.
Proof.
have [h _] := cube_const dim0 hb.
have -> : G d = \sum_k invmx (eg_R g) k d *: hD (cube_hdg b dim p) k.
  by apply/matrixP => i j; rewrite mxE summxE; apply: eq_bigr => k _; rewrite !mxE.
by rewrite linear_sum mulmx_suml big1 // => k _; rewrite linearZ /= -scalemxAl h scaler0.
Qed.
(** Only constants have no gradient. *)
Lemma G_kernel v : (forall d, (G d)^T *m v = 0) -> exists c, v = c *: one.
Proof.
move=> h; apply: (cube_grad dim0 hb) => k.
have -> : hD (cube_hdg b dim p) k = \sum_d eg_R g d k *: G d.
  apply/matrixP => i j; rewrite summxE; under eq_bigr => d _ do rewrite !mxE mulr_sumr.
  rewrite exchange_big (sum_ord1 (i := k)) /= => [|l hl].
    under eq_bigr => d _ do rewrite mulrA [eg_R g d k * _]mulrC.
    rewrite -mulr_suml; have := mulVmx (let: And4 h _ _ _ := hg in h) => /matrixP /(_ k k).
    by rewrite !mxE eqxx => ->; rewrite mul1r.
  under eq_bigr => d _ do rewrite mulrA [eg_R g d k * _]mulrC.
  rewrite -mulr_suml; have := mulVmx (let: And4 h _ _ _ := hg in h) => /matrixP /(_ l k).
  by rewrite !mxE -val_eqE (negbTE hl) => ->; rewrite mul0r.
by rewrite linear_sum mulmx_suml big1 // => d _; rewrite linearZ /= -scalemxAl h scaler0.
Qed.
Lemma fngrad_one d s : fngrad one d s = 0.
Proof. by rewrite fngradE Gone /fn_at big1 // => i _; rewrite mxE mul0r. Qed.
Lemma fngrad0_const v : (forall d s, (s < Q ^ dim)%N -> fngrad v d s = 0) -> exists c, v = c *: one.
Proof.
by move=> h; apply: G_kernel => d; apply: fn0_inj => s hs; rewrite -fngradE h.
Qed.

(** The stiffness matrix. *)
Variable coef : nat -> F.
Hypothesis hc : forall s, (s < Q ^ dim)%N -> 0 < coef s.
Definition stiff : 'M[F]_nf := \matrix_(i, j) vol_stiffness n b Q xs ws g coef i j.
Lemma stiff_form (u v : 'cV[F]_nf) : dotv u (stiff *m v) =
  eg_area g * (\sum_(s < Q ^ dim) W s * coef s * (\sum_d fngrad u d s * fngrad v d s)).
Proof.
rewrite /dotv mulr_sumr.
under eq_bigr => i _.
  rewrite mxE mulr_sumr; under eq_bigr => j _ do rewrite mxE /vol_stiffness !mulr_sumr mulr_suml mulr_sumr.
  rewrite exchange_big /=; over.
rewrite exchange_big /=; apply: eq_bigr => s _.
transitivity (\sum_(i < nf) \sum_(j < nf) \sum_(d < dim) eg_area g * (W s * coef s) * ((u i 0 * grad i d s) * (v j 0 * grad j d s))).
  apply: eq_bigr => i _; apply: eq_bigr => j _; rewrite !mulr_sumr mulr_suml mulr_sumr; apply: eq_bigr => d _.
  by move: (eg_area g) (W s) (coef s) (grad i d s) (grad j d s) => *; ring.
by rewrite [RHS]mulrA; exact: tri.
Qed.
Lemma stiff_sym : stiff^T = stiff.
Proof.
apply/matrixP => i j; rewrite !mxE /vol_stiffness; congr (_ * _); apply: eq_bigr => s _; congr (_ * _).
by apply: eq_bigr => d _; rewrite mulrC.
Qed.
Let W_gt0 (s : 'I_(Q ^ dim)) : 0 < W s. Proof. exact: (weight_gt0 hq). Qed.
Let a_gt0 : 0 < eg_area g. Proof. by case: hg. Qed.
Let term (v : 'cV[F]_nf) (s : 'I_(Q ^ dim)) : 0 <= W s * coef s * (\sum_d fngrad v d s * fngrad v d s).
Proof.
rewrite mulr_ge0 ?mulr_ge0 ?(ltW (W_gt0 s)) ?(ltW (hc (ltn_ord s))) //.
by apply: sumr_ge0 => d _; rewrite -expr2 sqr_ge0.
Qed.
Lemma stiff_ge0 v : 0 <= dotv v (stiff *m v).
Proof. by rewrite stiff_form mulr_ge0 ?(ltW a_gt0) //; apply: sumr_ge0 => s _; exact: term. Qed.
Lemma stiff_eq0 v : dotv v (stiff *m v) = 0 -> exists c, v = c *: one.
Proof.
rewrite stiff_form => /eqP; rewrite mulf_eq0 gt_eqF //= => /eqP h0.
have hz := psumr_eq0P (fun s _ => @term v s) h0.
apply: fngrad0_const => d s hs; have := hz (Ordinal hs) isT => /eqP.
rewrite !mulf_eq0 (gt_eqF (W_gt0 _)) (gt_eqF (hc (ltn_ord _))) /= => /eqP h1.
have hs0 (e : 'I_dim) : true -> 0 <= fngrad v e s * fngrad v e s by move=> _; rewrite -expr2 sqr_ge0.
have hz1 := psumr_eq0P hs0 h1.
by have := hz1 d isT => /eqP; rewrite -expr2 sqrf_eq0 => /eqP.
Qed.
Lemma stiff_one : stiff *m one = 0.
Proof.
apply/colP => i; rewrite [RHS]mxE.
have -> : (stiff *m one) i 0 = dotv (delta_mx i 0) (stiff *m one).
  rewrite /dotv (bigD1 i) //= big1 ?addr0 ?mxE ?eqxx ?mul1r // => j hj.
  by rewrite mxE (negbTE hj) mul0r.
rewrite stiff_form big1 ?mulr0 // => s _; rewrite big1 ?mulr0 // => d _.
by rewrite fngrad_one mulr0.
Qed.
End Gradient.

(** Mixed degrees. *)
Section Mixed.
Variable F : realFieldType.
Variables (dim p m Q : nat) (b : nat -> {poly F}) (xs ws : nat -> F).
Hypotheses (hb : orthonormal_basis (p + 1) b) (hq : quad_ok (p + 1) b Q xs ws) (hm : (m <= p + 1)%N) (m0 : (0 < m)%N).
Notation n := (p + 1)%N.
Let n0 : (0 < n)%N. Proof. by rewrite addn1. Qed.
Lemma quad1 (f : {poly F}) j : (size f <= n)%N -> (j < n)%N ->
  \sum_(s < Q) ws s * (f.[xs s] * (b j).[xs s]) = integ (f * b j).
Proof.
move=> hf hj; rewrite {2}(basis_expand hb hf) mulr_suml raddf_sum /=.
have e x : f.[x] = \sum_(c < n) integ (f * b c) * (b c).[x].
  by rewrite {1}(basis_expand hb hf) horner_sum; apply: eq_bigr => c _; exact: hornerZ.
under eq_bigr => s _ do rewrite e mulr_suml mulr_sumr.
rewrite exchange_big; apply: eq_bigr => c _; rewrite -scalerAl linearZ /=.
case: hq => _ h; rewrite -h // mulr_sumr; apply: eq_bigr => s _.
by move: (integ _) (b c).[_] (b j).[_] => x y z; ring.
Qed.
Lemma mixed_quad (i : 'I_(n ^ dim)) (j : 'I_(m ^ dim)) k : mixed_Dphiphi dim n b m i j k =
  \sum_(s < Q ^ dim) quad_weight Q ws dim s * (dshape_at dim n b Q xs i k s * shape_at m b Q xs dim j s).
Proof.
pose G (d : 'I_dim) (c : nat) : F := ws c *
  ((if d == k :> nat then (b (dig n i d))^`().[xs c] else (b (dig n i d)).[xs c]) * (b (dig m j d)).[xs c]).
rewrite [RHS](eq_bigr (fun s : 'I_(Q ^ dim) => \prod_(d < dim) G d (dig Q s d))) => [|s _]; last first.
  by rewrite /quad_weight /dshape_at /shape_at -!big_split.
rewrite sum_tensor; apply: eq_bigr => d _; rewrite /G; case: hb => _ hs _.
have hj : (dig m j d < n)%N by apply: leq_trans hm; exact: dig_lt.
have hi : (dig n i d < n)%N by exact: dig_lt.
by case: ifP => _; rewrite quad1 //; [apply: leq_trans (leq_size_deriv _) _|]; rewrite hs.
Qed.
End Mixed.
