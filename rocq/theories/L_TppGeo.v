(** The integrals over affine hyperedges satisfy the requirements of the local HDG problem. *)
From mathcomp Require Import all_ssreflect all_algebra zify ring.
From Verif Require Import M_Base S_Hdg L_Hdg S_Tpp L_Poly L_Tens S_LocalSolver M_DiffusionUniform M_Diffusion S_Diffusion S_TppGeo.
From Verif Require Import L_LocalBase L_LocalLink L_DiffusionUniform L_DiffusionUniform2.
Set Implicit Arguments. Unset Strict Implicit. Unset Printing Implicit Defensive.
Import Order.TTheory GRing.Theory Num.Theory.
Local Open Scope ring_scope.

Section Transform.
Variable F : realFieldType.
Variables (nf nb dim nF : nat) (h0 h : hdg F nf nb dim nF) (K : 'M[F]_dim).
Hypothesis ok0 : hdg_ok h0.
Hypothesis a0 : forall f, ha h0 f = 1.
Hypotheses (hM1 : (hM h)^T = hM h) (hM2 : forall q : 'cV[F]_nf, q != 0 -> 0 < dotv q (hM h *m q)).
Hypothesis hK : K \in unitmx.
Hypothesis hD1 : forall d, hD h d = \sum_k K d k *: hD h0 k.
Hypothesis hE1 : forall f, hE h f = ha h f *: hE h0 f.
Hypothesis hB1 : forall f, hB h f = ha h f *: hB h0 f.
Hypothesis ha1 : forall f, 0 < ha h f.
Hypothesis hn1 : forall f d, ha h f * hnu h f d = \sum_k K d k * hnu h0 f k.

Lemma D_back k : hD h0 k = \sum_d invmx K k d *: hD h d.
Proof.
under eq_bigr => d _ do rewrite hD1 scaler_sumr.
rewrite exchange_big /= (sum_ord1 (i := k)) => [|j hne].
  under eq_bigr => d _ do rewrite scalerA.
  rewrite -scaler_suml (_ : \sum_d _ = 1) ?scale1r //.
  by have := mulVmx hK => /matrixP/(_ k k); rewrite !mxE eqxx.
under eq_bigr => d _ do rewrite scalerA.
rewrite -scaler_suml (_ : \sum_d _ = 0) ?scale0r //.
by have := mulVmx hK => /matrixP/(_ k j); rewrite !mxE -val_eqE /= eq_sym (negbTE hne).
Qed.
Lemma transform_ok : hdg_ok h.
Proof.
case: ok0 => _ _ hp hf hu; split=> // [d|f|u hd he].
- rewrite hD1 linear_sum -big_split /=.
  under eq_bigr => k _ do rewrite linearZ /= -scalerDr hp scaler_sumr.
  rewrite exchange_big /=; apply: eq_bigr => f _; rewrite hB1 scalerA [_ * ha h f]mulrC hn1.
  by rewrite scaler_suml; apply: eq_bigr => k _; rewrite scalerA.
- split => //; rewrite hB1 hE1 [(_ *: _)^T]linearZ /= -scalemxAl -scalemxAr; congr (_ *: (_ *: _)).
  by have [_ <-] := hf f; rewrite a0 scale1r.
apply: hu => [k|f].
  by rewrite D_back mulmx_suml big1 // => d _; rewrite -scalemxAl hd scaler0.
have := he f; rewrite hE1 linearZ /= -scalemxAl => /eqP; rewrite scaler_eq0 gt_eqF //=.
by move/eqP.
Qed.
Lemma transform_const u0 e : hdg_const h0 u0 e -> hdg_const h u0 e.
Proof.
move=> [h1 h2]; split=> [d|f].
  rewrite hD1 linear_sum mulmx_suml big1 // => k _.
  by rewrite linearZ /= -scalemxAl h1 scaler0.
by rewrite hE1 linearZ /= -scalemxAl h2 a0 scale1r.
Qed.
Lemma transform_grad u0 : hdg_grad h0 u0 -> hdg_grad h u0.
Proof.
move=> hg u hu; apply: hg => k; rewrite D_back linear_sum mulmx_suml big1 // => d _.
by rewrite linearZ /= -scalemxAl hu scaler0.
Qed.
End Transform.

Section Quad.
Variable F : realFieldType.
(** Sums over a tensor grid of products. *)
Lemma sum_tensor Q dim (G : 'I_dim -> nat -> F) :
  \sum_(s < Q ^ dim) \prod_(d < dim) G d (dig Q s d) = \prod_(d < dim) \sum_(c < Q) G d c.
Proof.
case: (posnP Q) => [->|Q0].
  case: dim G => [|dim] G; first by rewrite big_ord_recl !big_ord0 addr0.
  rewrite exp0n // big_ord0; symmetry.
  by rewrite (bigD1 ord0) //= big_ord0 mul0r.
rewrite bigA_distr_bigA /=.
rewrite (reindex (fun f : {ffun 'I_dim -> 'I_Q} => unmi f)) /=; last first.
  exists (fun s : 'I_(Q ^ dim) => [ffun d : 'I_dim => mi Q0 s d]) => [f _|s _].
    by apply/ffunP => d; rewrite ffunE; apply/ord_inj; rewrite /= dig_unmi.
  apply/ord_inj; apply: (dig_inj Q0 (ltn_ord _) (ltn_ord _)) => d hd.
  by rewrite (dig_unmi _ (Ordinal hd)) ffunE.
apply: eq_bigr => f _; apply: eq_bigr => d _.
by rewrite dig_unmi.
Qed.

Variables (dim p Q : nat) (b : nat -> {poly F}) (xs ws : nat -> F).
Notation n := (p + 1)%N.
Hypotheses (hb : orthonormal_basis n b) (hq : quad_ok n b Q xs ws).
Lemma weight_gt0 (s : 'I_(Q ^ dim)) : 0 < quad_weight Q ws dim s.
Proof.
apply: prodr_gt0 => d _; case: hq => h _; apply: h; rewrite /dig ltn_mod.
have := leq_ltn_trans (leq0n s) (ltn_ord s); rewrite expn_gt0 => /orP[//|/eqP e].
by case: d => d; rewrite e.
Qed.
Lemma volE (i j : 'I_(n ^ dim)) : vol_phiphi n b dim i j = (i == j)%:R.
Proof.
have n0 : (0 < n)%N by rewrite addn1.
rewrite /vol_phiphi (eq_bigr (fun d : 'I_dim => (dig n i d == dig n j d)%:R)) => [|d _]; last first.
  by case: hb => _ _ ho; rewrite /phi1 ho ?dig_lt.
rewrite prod_bool; congr (_ %:R); congr nat_of_bool; apply/forallP/eqP => [h|-> d]; last by rewrite eqxx.
apply/val_inj; apply: (dig_inj n0 (ltn_ord i) (ltn_ord j)) => d hd.
by apply/eqP; exact: (h (Ordinal hd)).
Qed.
Lemma quad_orthonormal (i j : 'I_(n ^ dim)) :
  \sum_(s < Q ^ dim) quad_weight Q ws dim s * (shape_at n b Q xs dim i s * shape_at n b Q xs dim j s) =
  (i == j)%:R.
Proof.
have n0 : (0 < n)%N by rewrite addn1.
rewrite -volE /vol_phiphi /phi1.
pose G (d : 'I_dim) c := ws c * ((b (dig n i d)).[xs c] * (b (dig n j d)).[xs c]).
have -> : \sum_(s < Q ^ dim) quad_weight Q ws dim s *
    (shape_at n b Q xs dim i s * shape_at n b Q xs dim j s) =
    \sum_(s < Q ^ dim) \prod_(d < dim) G d (dig Q s d).
  by apply: eq_bigr => s _; rewrite /quad_weight /shape_at -!big_split.
rewrite sum_tensor; apply: eq_bigr => d _; case: hq => _ -> //; exact: dig_lt.
Qed.
Variable kappa : nat -> F.
Hypothesis hk : forall s, (s < Q ^ dim)%N -> 0 < kappa s.
Definition quad_mass : 'M[F]_(n ^ dim) := \matrix_(i, j) \sum_(s < Q ^ dim) quad_weight Q ws dim s * kappa s *
  (shape_at n b Q xs dim i s * shape_at n b Q xs dim j s).
Lemma quad_mass_sym : quad_mass^T = quad_mass.
Proof. by apply/matrixP => i j; rewrite !mxE; apply: eq_bigr => s _; rewrite [shape_at _ _ _ _ _ j _ * _]mulrC. Qed.
Definition val_at (q : 'cV[F]_(n ^ dim)) (s : 'I_(Q ^ dim)) : F := \sum_i q i 0 * shape_at n b Q xs dim i s.
Lemma form_at (w : 'I_(Q ^ dim) -> F) (q : 'cV[F]_(n ^ dim)) :
  dotv q ((\matrix_(i, j) \sum_s w s * (shape_at n b Q xs dim i s * shape_at n b Q xs dim j s)) *m q) =
  \sum_s w s * (val_at q s * val_at q s).
Proof.
rewrite /dotv; under eq_bigr => i _.
  rewrite mxE mulr_sumr; under eq_bigr => j _ do rewrite mxE mulr_suml mulr_sumr.
  rewrite exchange_big /=; over.
rewrite exchange_big /=; apply: eq_bigr => s _; rewrite /val_at mulr_suml mulr_sumr.
apply: eq_bigr => i _; rewrite mulr_sumr mulr_sumr; apply: eq_bigr => j _.
by ring.
Qed.
Lemma quad_mass_pos q : q != 0 -> 0 < dotv q (quad_mass *m q).
Proof.
move=> hq0.
have h1 : dotv q q = \sum_(s < Q ^ dim) quad_weight Q ws dim s * (val_at q s * val_at q s).
  rewrite -(form_at (fun s : 'I_(Q ^ dim) => quad_weight Q ws dim s)); congr dotv.
  rewrite (_ : \matrix_(i, j) _ = 1%:M) ?mul1mx //.
  by apply/matrixP => i j; rewrite !mxE quad_orthonormal.
have sq s : 0 <= val_at q s * val_at q s by rewrite -expr2 sqr_ge0.
rewrite (form_at (fun s : 'I_(Q ^ dim) => quad_weight Q ws dim s * kappa s)) lt_neqAle sumr_ge0 ?andbT; last first.
  by move=> s _; rewrite mulr_ge0 // mulr_ge0 // ltW // ?weight_gt0 ?hk.
rewrite eq_sym; apply: contraNneq hq0 => h0; rewrite -dotv_eq0 h1 big1 // => s _.
have hs (t : 'I_(Q ^ dim)) : true -> 0 <= quad_weight Q ws dim t * kappa t * (val_at q t * val_at q t).
  by move=> _; rewrite mulr_ge0 // mulr_ge0 // ltW // ?weight_gt0 ?hk.
have h2 : quad_weight Q ws dim s * kappa s * (val_at q s * val_at q s) == 0.
  by apply/eqP; exact: (psumr_eq0P hs h0).
move: h2; rewrite !mulf_eq0 (gt_eqF (weight_gt0 s)) gt_eqF ?hk //=.
by case/orP => /eqP ->; rewrite mul0r mulr0.
Qed.
End Quad.

Section Contract.
Variable F : realFieldType.
Variables (dim p Q : nat) (b : nat -> {poly F}) (xs ws kappa : nat -> F) (g : edge_geo F dim) (D : df_data F).
Hypotheses (dim0 : (0 < dim)%N) (hb : orthonormal_basis (p + 1) b) (hq : quad_ok (p + 1) b Q xs ws).
Hypothesis hk : forall s, (s < Q ^ dim)%N -> 0 < kappa s.
Hypotheses (hg : geo_ok g) (hD : tpp_contract b p Q xs ws kappa g D).
Notation H := (df_hdg dim p D).
Notation H0 := (cube_hdg b dim p).
Notation nf := ((p + 1) ^ dim)%N.
Notation nb := ((p + 1) ^ (dim - 1))%N.
Definition geo_K : 'M[F]_dim := eg_area g *: (invmx (eg_R g))^T.

Let gM : hM H = eg_area g *: quad_mass dim p Q b xs ws kappa.
Proof. by case: hD => h1 _ _ _ _; apply/matrixP => i j; rewrite !mxE h1. Qed.
Let g0 : 0 < eg_area g. Proof. by case: hg. Qed.
Let gK : geo_K \in unitmx.
Proof. by rewrite unitmxZ ?unitmx_tr ?unitmx_inv; [case: hg | rewrite unitfE gt_eqF]. Qed.
Let gD d : S_Hdg.hD H d = \sum_k geo_K d k *: S_Hdg.hD H0 k.
Proof.
case: hD => _ _ h3 _ _; apply/matrixP => i j; rewrite mxE h3 summxE mulr_sumr.
by apply: eq_bigr => k _; rewrite !mxE mulrA.
Qed.
Let gE f : hE H f = ha H f *: hE H0 f.
Proof.
case: hD => _ _ _ h4 h5; apply/matrixP => i j; rewrite !mxE /=.
by have [_ ->] := h4 i f; have [->] := h5 f.
Qed.
Let gB f : hB H f = ha H f *: hB H0 f.
Proof.
case: hD => _ _ _ h4 h5; apply/matrixP => i j; rewrite !mxE /=.
by have [-> _] := h4 i f; have [->] := h5 f.
Qed.
Let ga f : 0 < ha H f.
Proof. by case: hD => _ _ _ _ h5; rewrite /=; have [-> _] := h5 f; case: hg => _ _ h _; exact: h. Qed.
Let gn f d : ha H f * hnu H f d = \sum_k geo_K d k * hnu H0 f k.
Proof.
case: hD => _ _ _ _ h5; rewrite /=; have [-> ->] := h5 f.
have hf := ltn_ord f; have hk2 : (f %/ 2 < dim)%N by lia.
have ef : (f = 2 * (f %/ 2) + odd f :> nat)%N by rewrite -modn2; lia.
rewrite (sum_ord1 (i := Ordinal hk2)) => [|k hne]; last by rewrite /= /unit_normal (negbTE hne) mulr0.
case: hg => _ _ _ /(_ (Ordinal hk2) d (odd f)) /=; rewrite -ef => ->.
by rewrite /unit_normal eqxx !mxE mulrC.
Qed.
Lemma df_hdg_ok : hdg_ok H.
Proof.
apply: (@transform_ok _ _ _ _ _ H0 H geo_K (cube_ok dim0 hb)) => //.
  by rewrite gM linearZ /= quad_mass_sym.
move=> q hq0; rewrite gM -scalemxAl dotvZr mulr_gt0 //.
exact: (quad_mass_pos hb hq hk hq0).
Qed.
Lemma df_hdg_const : hdg_const H (cube_one F dim p) (unit_vec F nb).
Proof. exact: (transform_const (K := geo_K) (h0 := H0) _ gD gE (cube_const dim0 hb)). Qed.
Lemma df_hdg_grad : hdg_grad H (cube_one F dim p).
Proof. exact (@transform_grad _ _ _ _ _ H0 H geo_K gK gD _ (cube_grad dim0 hb)). Qed.
Lemma df_mass_mxE : df_mass_mx dim p D = (eg_area g)%:M.
Proof.
case: hD => _ h2 _ _ _; apply/matrixP => i j; rewrite !mxE h2.
by rewrite (volE hb); case: eqP; rewrite ?mulr1 ?mulr0.
Qed.
End Contract.
