(** Affine functions in DiffusionIP. *)
From mathcomp Require Import all_ssreflect all_algebra zify ring.
From Verif Require Import L_DenseLA S_Hdg L_Hdg S_Tpp L_Poly L_Tens S_LocalSolver L_LocalBase M_Diffusion S_Diffusion S_TppGeo S_Gradient.
From Verif Require Import L_LocalLink L_DiffusionUniform2 L_TppGeo L_Gradient M_DiffusionIP S_DiffusionIP L_IpGeo L_IpEnergy.
Set Implicit Arguments. Unset Strict Implicit. Unset Printing Implicit Defensive.
Import Order.TTheory GRing.Theory Num.Theory.
Local Open Scope ring_scope.

Section Consist.
Variable F : realFieldType.
Variables (dim p Q : nat) (b : nat -> {poly F}) (xs ws cv : nat -> F) (cb : nat -> nat -> F) (g : edge_geo F dim).
Variables (P : ip_data F) (t : F).
Hypotheses (dim0 : (0 < dim)%N) (hb : orthonormal_basis (p + 1) b) (hq : quad_ok (p + 1) b Q xs ws).
Hypotheses (hcv : forall s, (s < Q ^ dim)%N -> 0 < cv s) (hg : geo_ok g) (hP : ip_contract p b Q xs ws cv cb g P t).
Notation n := (p + 1)%N.
Notation nf := (n ^ dim)%N.
Notation nb := (n ^ (dim - 1))%N.
Notation one := (cube_one F dim p).
Notation e := (unit_vec F nb).
Notation S := (ip_S dim p P t).
Notation B := (ip_B dim p P).
Notation E := (ip_E dim p P).
Notation N := (ip_N dim p P).
Notation Gf := (ip_G dim p P).
Notation a := (ip_area P).
Notation Gm := (@G F dim p b g).
Let n0 : (0 < n)%N. Proof. by rewrite addn1. Qed.
Let pow0 m : (0 < n ^ m)%N. Proof. by rewrite expn_gt0 n0. Qed.
Let hF : ip_facts dim p P t.
Proof.
apply: (@ip_factsP F dim p (fun _ _ _ _ _ _ => True)) => //.
by exists b, Q, xs, ws, cv, cb, g; split.
Qed.

Lemma basis0 (x : F) : (b 0%N).[x] = 1.
Proof. by case: hb => -> _ _; rewrite hornerE. Qed.
Lemma shape0 m s : shape_at n b Q xs m 0 s = 1.
Proof. by rewrite /shape_at big1 // => d _; rewrite dig0 basis0. Qed.
Lemma fshape0 f s : fshape_at dim n b Q xs 0 f s = 1.
Proof. by rewrite /fshape_at big1 // => d _; rewrite dig0 basis0. Qed.
Lemma fn_one s : fn_at b Q xs one s = 1.
Proof.
rewrite /fn_at (sum_ord1 (i := Ordinal (pow0 dim))) => [|i hi]; first by rewrite mxE eqxx mul1r shape0.
by rewrite mxE (negbTE hi) mul0r.
Qed.
Lemma quad_mean m (w : 'cV[F]_(n ^ m)) : \sum_(s < Q ^ m) quad_weight Q ws m s * (\sum_i w i 0 * shape_at n b Q xs m i s) = w (Ordinal (pow0 m)) 0.
Proof.
transitivity (\sum_i w i 0 * (\sum_(s < Q ^ m) quad_weight Q ws m s * (shape_at n b Q xs m i s * shape_at n b Q xs m (Ordinal (pow0 m)) s))).
  under [RHS]eq_bigr => i _ do rewrite mulr_sumr.
  rewrite [RHS]exchange_big; apply: eq_bigr => s _; rewrite mulr_sumr; apply: eq_bigr => i _.
  by rewrite shape0 mulr1 mulrCA.
under eq_bigr => i _ do rewrite (quad_orthonormal hb hq).
rewrite (bigD1 (Ordinal (pow0 m))) // eqxx mulr1 big1 => [|i hi]; first exact: addr0.
by rewrite (negbTE hi) mulr0.
Qed.

(** The derivative of a shape function at a point of a face. *)
Lemma fdshape_expand (i : 'I_nf) (k f s : nat) :
  fdshape_at dim n b Q xs i k f s = \sum_(j < nf) vol_Dphiphi n b dim i j k * fshape_at dim n b Q xs j f s.
Proof.
pose H (d : 'I_dim) (c : nat) : F :=
  (if d == k :> nat then dphi1 b (dig n i d) c else phi1 b (dig n i d) c) * (b c).[face_coord Q xs f s d].
rewrite [RHS](eq_bigr (fun j : 'I_nf => \prod_(d < dim) H d (dig n j d))) => [|j _]; last first.
  by rewrite /vol_Dphiphi /fshape_at -big_split.
rewrite sum_tensor; apply: eq_bigr => d _; rewrite /H.
have hd : (dig n i d < n)%N by exact: dig_lt.
case: hb => _ hs ho.
have ex (h : {poly F}) x : (size h <= n)%N -> h.[x] = \sum_(c < n) integ (h * b c) * (b c).[x].
  move=> hf; rewrite {1}(basis_expand hb hf) horner_sum; apply: eq_bigr => c _; exact: hornerZ.
by case: ifP => _; rewrite ex //; [apply: leq_trans (leq_size_deriv _) _|]; rewrite hs.
Qed.

Variables (c c0 : F) (u : 'cV[F]_nf) (gamma out : nat -> F).
Hypothesis (h1 : forall s, (s < Q ^ dim)%N -> cv s = c).
Hypothesis (h2 : forall (f : 'I_(2 * dim)) s, (s < Q ^ (dim - 1))%N -> cb f s = c0).
Hypothesis (h3 : forall (d : 'I_dim) s, (s < Q ^ dim)%N -> fn_grad b Q xs g u d s = gamma d).
Hypothesis (h4 : forall f : 'I_(2 * dim), out f = \sum_(d < dim) eg_normal g f d * gamma d).

Lemma grad_coeffs d : (Gm d)^T *m u = gamma d *: one.
Proof.
apply/eqP; rewrite -subr_eq0; apply/eqP; apply: (fn0_inj hb hq) => s hs.
by rewrite fnD -scaleN1r fnZ -(@fngradE F dim p Q b xs g hb) h3 // fnZ fn_one; ring.
Qed.
Lemma normal_out (f : 'I_(2 * dim)) s : \sum_i u i 0 * fnormal_at n b Q xs g i f s = out f.
Proof.
rewrite h4 // /fnormal_at; under eq_bigr => i _ do rewrite mulr_sumr.
rewrite exchange_big; apply: eq_bigr => d _.
under eq_bigr => i _ do rewrite mulrCA.
rewrite -mulr_sumr; congr (_ * _).
transitivity (\sum_(j < nf) ((Gm d)^T *m u) j 0 * fshape_at dim n b Q xs j f s).
  transitivity (\sum_(j < nf) \sum_(i < nf) u i 0 * (Gm d i j * fshape_at dim n b Q xs j f s)).
    rewrite [RHS]exchange_big; apply: eq_bigr => i _; rewrite -[RHS]mulr_sumr; congr (_ * _).
    under [LHS]eq_bigr => k _ do rewrite fdshape_expand mulr_sumr.
    rewrite [LHS]exchange_big; apply: eq_bigr => j _; rewrite mxE mulr_suml; apply: eq_bigr => k _; by rewrite mulrA.
  apply: eq_bigr => j _; rewrite mxE mulr_suml; apply: eq_bigr => i _.
  by rewrite [(Gm d)^T j i]mxE mulrA [u i 0 * _]mulrC.
rewrite grad_coeffs (sum_ord1 (i := Ordinal (pow0 dim))) => [|j hj].
  by rewrite !mxE eqxx mulr1 fshape0 mulr1.
by rewrite !mxE (negbTE hj) mulr0 mul0r.
Qed.
Lemma flux_affine (f : 'I_(2 * dim)) : Gf f *m u = (c0 * out f * a f) *: e.
Proof.
case: hP => _ _ h hA; apply/colP => j; rewrite !mxE hA.
transitivity (\sum_i eg_face g f * (\sum_(s < Q ^ (dim - 1)) quad_weight Q ws (dim - 1) s * c0 *
   (u i 0 * fnormal_at n b Q xs g i f s * shape_at n b Q xs (dim - 1) j s))).
  apply: eq_bigr => i _; rewrite mxE (h i j f).2 /bdr_nphipsi -[LHS]mulrA; congr (_ * _).
  rewrite mulr_suml; apply: eq_bigr => s _; rewrite h2 //.
  by move: (quad_weight _ _ _ _) (fnormal_at _ _ _ _ _ _ _ _) (shape_at _ _ _ _ _ _ _) (u _ _) => *; ring.
rewrite -mulr_sumr exchange_big.
rewrite (eq_bigr (fun s : 'I_(Q ^ (dim - 1)) => c0 * out f * (quad_weight Q ws (dim - 1) s * (\sum_i (delta_mx j 0 : 'cV[F]_nb) i 0 * shape_at n b Q xs (dim - 1) i s)))) => [|s _].
  rewrite -mulr_sumr quad_mean mxE [_ == j]eq_sym -val_eqE /= eqxx andbT; move: (_ %:R) (eg_face _ _) => *; ring.
have -> : \sum_i (delta_mx j 0 : 'cV[F]_nb) i 0 * shape_at n b Q xs (dim - 1) i s = shape_at n b Q xs (dim - 1) j s.
  rewrite (bigD1 j) //= mxE !eqxx mul1r big1 ?addr0 => // i hi; by rewrite mxE (negbTE hi) mul0r.
rewrite -mulr_sumr -mulr_suml normal_out.
by move: (quad_weight _ _ _ _) (shape_at _ _ _ _ _ _ _) => *; ring.
Qed.
Notation H := (df_hdg dim p (ip_df p Q b xs ws g P)).
Lemma hD_G d : hD H d = eg_area g *: Gm d.
Proof.
case: (ip_dfP hP) => _ _ h _ _; apply/matrixP => i j; rewrite !mxE h; congr (_ * _).
Qed.
Lemma hB_B f : hB H f = B f.
Proof. by apply/matrixP => i j; rewrite !mxE. Qed.
Lemma D_one (d : 'I_dim) : eg_area g *: (Gm d *m one) = \sum_(f < 2 * dim) eg_normal g f d *: (E f *m e).
Proof.
have [_ _ hp _ _] := ip_H dim0 hb hq hg hP; have [hc _] := ip_Hc dim0 hb hP.
have := congr1 (fun A => A *m one) (hp d); rewrite mulmxDl hc addr0 hD_G scalemxAl => ->.
rewrite mulmx_suml; apply: eq_bigr => f _; rewrite -scalemxAl hB_B; congr (_ *: _).
by rewrite (ip_BE hF) -scalemxAl -mulmxA (fEone hF) -scalemxAr scalerA mulVf ?scale1r // (ipa_neq0 hF).
Qed.
Lemma stiff_affine : S *m u = c *: \sum_(f < 2 * dim) out f *: (E f *m e).
Proof.
have e0 v : dotv v (S *m u) = dotv v (c *: \sum_(f < 2 * dim) out f *: (E f *m e)); last first.
  by apply/eqP; rewrite -subr_eq0 -dotv_eq0 dotvBr e0 subrr.
rewrite (ip_SE hP) stiff_form dotvZr.
rewrite (eq_bigr (fun s : 'I_(Q ^ dim) => \sum_(d < dim) c * gamma d * (quad_weight Q ws dim s * (\sum_i ((Gm d)^T *m v) i 0 * shape_at n b Q xs dim i s)))) => [|s _]; last first.
  rewrite h1 // mulr_sumr; apply: eq_bigr => d _; rewrite h3 // (@fngradE F dim p Q b xs g hb) /fn_at.
  by move: (quad_weight _ _ _ _) (\sum_i _) => *; ring.
rewrite exchange_big /=; under eq_bigr => d _ do rewrite -mulr_sumr quad_mean.
transitivity (c * (\sum_(d < dim) gamma d * dotv v (eg_area g *: (Gm d *m one)))).
  rewrite !mulr_sumr; apply: eq_bigr => d _; rewrite dotvZr [dotv v _]dotvC dotv_mxl dotvC.
  have -> : dotv ((Gm d)^T *m v) one = ((Gm d)^T *m v) (Ordinal (pow0 dim)) 0.
    rewrite /dotv (sum_ord1 (i := Ordinal (pow0 dim))) => [|i hi]; first by rewrite [one _ _]mxE eqxx mulr1.
    by rewrite [one _ _]mxE (negbTE hi) mulr0.
  by move: (((Gm d)^T *m v) _ _) => *; ring.
congr (_ * _); under [LHS]eq_bigr => d _ do rewrite D_one dotv_sumr mulr_sumr.
rewrite [LHS]exchange_big dotv_sumr; apply: eq_bigr => f _; rewrite dotvZr h4 // mulr_suml; apply: eq_bigr => d _.
by rewrite dotvZr mulrCA mulrA.
Qed.
Lemma N_affine : \sum_(f < 2 * dim) N f *m u = c0 *: \sum_(f < 2 * dim) out f *: (E f *m e).
Proof.
rewrite scaler_sumr; apply: eq_bigr => f _.
rewrite (ip_NE hF) -scalemxAl -mulmxA flux_affine -scalemxAr !scalerA; congr (_ *: _).
by rewrite mulrC mulfK ?(ipa_neq0 hF).
Qed.
Lemma B_trace : \sum_(f < 2 * dim) B f *m u = \sum_(f < 2 * dim) E f *m ip_trace dim p P u f.
Proof.
by apply: eq_bigr => f _; rewrite (ip_BE hF) -scalemxAl -mulmxA scalemxAr.
Qed.
Variable tau : F.
Lemma affine_flux (f : 'I_(2 * dim)) : ip_num_flux dim p tau P u (ip_trace dim p P u) f = (- (c0 * out f * a f)) *: e.
Proof. by rewrite (ip_numE tau hF) subrr scaler0 addr0 flux_affine scaleNr. Qed.
Lemma affine_loc r : ip_loc dim p tau P t u (ip_trace dim p P u) r <-> r = (c - c0) *: \sum_(f < 2 * dim) out f *: (E f *m e).
Proof.
rewrite /ip_loc stiff_affine N_affine B_trace scalerBl; split=> [|->]; last by rewrite addrC.
by rewrite addrC => /addrI ->.
Qed.
Lemma affine_zero : \sum_(f < 2 * dim) out f *: (E f *m e) = 0 -> forall d, (d < dim)%N -> gamma d = 0.
Proof.
move=> h0 d hd; have : dotv u (S *m u) = 0 by rewrite stiff_affine h0 scaler0 dotv0r.
move=> /(fSeq0 hF)[k hk]; have Q0 : (0 < Q)%N.
  case: hq => _ /(_ 0%N 0%N n0 n0); case: (Q) => // /eqP; rewrite big_ord0; case: hb => _ _ /(_ 0%N 0%N n0 n0) -> /=.
  by rewrite eq_sym oner_eq0.
rewrite -(h3 (Ordinal hd) (s := 0%N)) ?expn_gt0 ?Q0 // hk (@fngradZ F dim p Q b xs g hb).
by rewrite (@fngrad_one F dim p Q b xs g dim0 hb) mulr0.
Qed.
End Consist.
