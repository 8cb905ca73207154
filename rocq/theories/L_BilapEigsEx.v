(** BilaplacianEigs: data that meet the hypotheses, an eigenpair, and a coefficient that depends on the eigenvalue. *)
From mathcomp Require Import all_ssreflect all_algebra zify ring.
From Verif Require Import M_Base L_Base M_DenseLA S_DenseLA M_Lapack S_Lapack.
From Verif Require Import S_Hdg L_Hdg L_HdgSrc S_Tpp L_Poly S_LocalSolver M_DiffusionUniform M_Diffusion S_Diffusion S_TppGeo L_DiffusionEx L_LocalLink L_DiffusionUniform2.
From Verif Require Import M_Global S_Global S_GlobalParab S_GlobalEigs L_ParabEx.
From Verif Require Import M_DiffusionEigs S_DiffusionEigs L_DiffusionEigs2 L_DiffusionEigs3 L_EigsEx.
From Verif Require Import M_Bilaplacian S_Bilaplacian L_Bilaplacian3 S_BiReact L_BiReg M_BilapEigs S_BilapEigs S_GlobalBilapEigs L_BiFlux L_BilapEigs2 L_BilapSquare.
Set Implicit Arguments. Unset Strict Implicit. Unset Printing Implicit Defensive.
Import Order.TTheory GRing.Theory Num.Theory.
Local Open Scope ring_scope.

(** The integrals of DiffusionEigs used for BilaplacianEigs. *)
Definition bi_of (F : realFieldType) (P : de_data F) : be_data F :=
  BeData (BlData (de_df P) (fun _ _ => 0) (fun _ _ => 0)) (de_vol P) (de_area P).
Lemma bi_ofE (F : realFieldType) (P : de_data F) dim p : bi_eigs_data dim p (bi_of P) = eigs_data dim p P.
Proof. by case: P. Qed.
Lemma bi_eigs_example (F : rcfType) dim (types : seq nat) : [/\ gesv_correct (@inv_gesv F), gesv_detects (@inv_gesv F) &
    exists P : be_data F, [/\ bi_eigs_data dim 1 P, be_time_free P & df_types (bl_df (be_bl P)) = types]].
Proof.
have [h1 h2 [P [h3 h4 h5]]] := @eigs_example F dim types; split=> //.
by exists (bi_of P); split=> //; rewrite bi_ofE.
Qed.

(** One interval with u and w given at hypernode 0, piecewise constants, tau = 1. *)
Section Pair.
Variable F : rcfType.
Notation PP := (fun _ : nat => oneP (fun=> 1 : F) [:: 1; 0]%N).
Notation BB := (fun _ : nat => bi_of (oneP (fun=> 1 : F) [:: 1; 0]%N)).
Lemma pair_unit : unit_all 1 0 pair_nodes BB.
Proof.
move=> i _ eig k l.
have hD : bi_eigs_data 1 0 (BB 0%N) by rewrite bi_ofE; apply: oneP_data => t; exact: ltr01.
have [hm _ _ _] := oneH (fun=> 1 : F) [:: 1; 0]%N eig.
have /matrixP/(_ k l) := hm; have /matrixP/(_ k l) := be_mass hD eig.
by rewrite !mxE /= => -> ->.
Qed.
Lemma unit_hdg i eig : de_hdg 1 0 (unit_diffusion BB i) eig = de_hdg 1 0 (PP i) eig.
Proof.
rewrite /de_hdg /df_hdg /hdg_of; congr (Hdg _ _ _ _ _ _); apply/matrixP => k l; rewrite !mxE.
exact: (esym (@pair_unit 0%N isT eig k l)).
Qed.
Lemma bi_pair_exists : [/\ valid_graph 1 2 (indexed pair_nodes),
    forall v, (v < 2)%N -> anchored (indexed pair_nodes) (fun v => row_type v \in [:: 1%N]) v,
    be_data_all 1 0 pair_nodes BB, be_types 1 pair_nodes row_type BB & be_time_free_all pair_nodes BB /\ unit_all 1 0 pair_nodes BB] /\
  bi_eigenpair 1 0 [:: 1%N] [:: 1%N] 1 pair_nodes 2 row_type BB [:: 0; 0; 1; 3%:R / 2%:R] ((3%:R / 2%:R) ^+ 2)
    (fun _ _ => const_mx (-1)) (fun _ => const_mx 2%:R)
    (fun _ _ => (3%:R / 2%:R) *: const_mx (-1)) (fun _ => (3%:R / 2%:R) *: const_mx 2%:R).
Proof.
have [[h1 h2 h3 h4 h5] h6] := pair_exists F.
have hB : be_data_all 1 0 pair_nodes BB by move=> i hi; rewrite bi_ofE; exact: (h3 i hi).
split; first by split=> //; split=> //; exact: pair_unit.
have hu : eigenpair 1 0 [:: 1%N] 1 pair_nodes 2 row_type (unit_diffusion BB) [:: 0; 1] (3%:R / 2%:R)
    (fun _ _ => const_mx (-1)) (fun _ => const_mx 2%:R).
  case: h6 => a b c d; split=> //.
    by move=> i hi; have := c i hi; rewrite /eig_loc unit_hdg.
have e : both 1 0 2 (3%:R / 2%:R : F) [:: 0; 1] = [:: 0; 0; 1; 3%:R / 2%:R].
  by rewrite /both /mkseq /= !mulr0 !mulr1.
by have := square (isT : (0 < 1)%N) hB pair_unit h1 hu; rewrite e.
Qed.
End Pair.

(** The coefficient 1 + t + t^2. *)
Section Time.
Variables (F : rcfType) (tau : F) (gesv : nat -> nat -> seq F -> seq F -> sv_result F).
Hypotheses (tau0 : 0 < tau) (hg : gesv_correct gesv).
Notation k t := (1 + t + t ^+ 2 : F).
Notation B := (bi_of (timeP F)).
Let d1 : (0 < 1)%N := isT.
Lemma timeB : bi_eigs_data 1 0 B. Proof. by rewrite bi_ofE; exact: timeP_data. Qed.
Notation H t := (bl_hdg 1 0 (be_at B t)).
Lemma bH t : [/\ hM (H t) = 1%:M, forall d, hD (H t) d = 0, forall f, hE (H t) f = 1%:M
  & (forall f, hB (H t) f = 1%:M) /\ forall f, ha (H t) f = 1].
Proof. by have [_ hd he [hb ha']] := @tH F t; split=> //; rewrite -(be_mass timeB t). Qed.
Lemma bW t : bl_coef 1 0 (be_at B t) = (k t)%:M.
Proof. by have [hm _ _ _] := @tH F t; rewrite -hm; apply/matrixP => i j; rewrite !mxE. Qed.
Notation x0 := [:: [:: - tau^-1; 1]; [:: 0; 1]].
Notation z0 := (nseq 2 (nseq 2 (0 : F))).
Notation lo x := (tr (nF := 2) 1 (lower 1 x)).
Notation hi x := (tr (nF := 2) 1 (upper 1 x)).
Definition u_at t : F := t * (1 + t) / (2%:R * tau - k t * t / (2%:R * tau)).
Definition w_at t : F := 1 + t * u_at t / (2%:R * tau).
Lemma den_gt0 t : t <= 0 -> 0 < 2%:R * tau - k t * t / (2%:R * tau).
Proof.
move=> t0; have a0 : 0 < 2%:R * tau by rewrite mulr_gt0 ?ltr0n.
rewrite subr_gt0; apply: le_lt_trans a0; apply: mulr_le0_ge0; last by rewrite invr_ge0 ltW ?mulr_gt0 ?ltr0n.
by apply: mulr_ge0_le0 => //; rewrite ltW // k_gt0.
Qed.
Lemma w_atE t : t <= 0 -> 2%:R * tau * u_at t = -1 + k t * w_at t.
Proof.
move=> t0; have := den_gt0 t0; rewrite /w_at /u_at => h.
have t2 : 2%:R * tau != 0 by rewrite mulf_neq0 ?pnatr_eq0 // gt_eqF.
have : 2%:R * tau - k t * t / (2%:R * tau) != 0 by rewrite gt_eqF.
move: (2%:R * tau) t2 => a ha hn; pose D := a - k t * t / a.
have : t * (1 + t) = D * (t * (1 + t) / D) by rewrite [RHS]mulrC divfK.
rewrite -/D; move: (t * (1 + t) / D) => v hv.
have -> : k t * (1 + t * v / a) = 1 + t * (1 + t) + (a - D) * v by rewrite /D; field.
by rewrite hv; ring.
Qed.
Lemma be_area1 : be_area B = 1. Proof. by []. Qed.
Lemma bi_time_loc t : t <= 0 -> bi_eig_loc 1 0 tau B t (fun=> const_mx (- tau^-1)) (const_mx (u_at t)) (fun=> 0) (const_mx (w_at t))
  (lo x0) (hi x0) 0.
Proof.
move=> t0; have [hm hd he [hb ha']] := bH t.
have wE := w_atE t0; have t2 : tau != 0 by rewrite gt_eqF.
rewrite /bi_eig_loc /bi_react /bi_loc bW (be_mass timeB) be_area1 add0r addr0; split; split=> [d|].
- rewrite hm hd mul0mx subr0 addr0 !big_ord_recl big_ord0 !he addr0 !mul1mx.
  apply/colP => i; rewrite !ord1 !mxE /=; ring.
- rewrite !big_ord_recl !big_ord0 !hd !he !hb !addr0 oppr0 add0r !mul1mx mulmx0 add0r.
  apply/colP => i; rewrite !ord1 !mxE /=.
  rewrite /w_at; move: (u_at t) => v; by field.
- rewrite hm hd mul0mx subr0 addr0 !big_ord_recl big_ord0 !he addr0 !mul1mx.
  apply/colP => i; rewrite !ord1 !mxE /=; ring.
rewrite !big_ord_recl !big_ord0 !hd !he !hb !addr0 oppr0 add0r !mul1mx !mul_scalar_mx.
apply/colP => i; rewrite !ord1 !mxE big_ord1 !mxE /=.
have -> : (1 + t + t ^+ 2) * w_at t = 2%:R * tau * u_at t + 1 by rewrite wE; ring.
by move: (u_at t) => v; field.
Qed.
Notation ttf := (be_trace_to_flux gesv 1 0 [::] [::] tau B).
Notation jac := (be_jacobian gesv 1 0 [::] [::] tau B).
Lemma x0_tr : is_trace 2 2 (x0 : seq (seq F)). Proof. by []. Qed.
Lemma z0_tr : is_trace 2 2 z0. Proof. by []. Qed.
Lemma z0_lo (f : 'I_2) : lo z0 f = 0.
Proof. by apply/colP => i; rewrite !mxE ord1; case: f => -[|[|]]. Qed.
Lemma z0_hi (f : 'I_2) : hi z0 f = 0.
Proof. by apply/colP => i; rewrite !mxE ord1; case: f => -[|[|]]. Qed.
Lemma up0 (y : seq (seq F)) : is_trace 2 2 y -> nth 0 (nth [::] (upper 1 y) 0) 0 = nth 0 (nth [::] y 0) 1.
Proof. by case: y => [|[|a [|b s]] y] []. Qed.
Lemma bi_time_flux t : t <= 0 -> exists2 y, ttf x0 z0 t = Ok y & nth 0 (nth [::] y 0) 1 = tau^-1 + tau * u_at t + 1.
Proof.
move=> t0; have hr := be_neg d1 timeB tau0 t0.
have [y h1 [q [u [r [w [h2 [h6 _ h4]]]]]]] := @be_flux_ F gesv 1 0 [::] [::] tau B d1 hg t x0 z0 hr x0_tr z0_tr.
exists y => //; have [hq hu _ _] := be_unique hr h2 (bi_time_loc t0).
have := h4 (Ordinal (isT : (0 < 2)%N)); rewrite /= => /colP/(_ 0); rewrite [LHS]mxE /= => h5.
rewrite -(up0 h6) h5; have [hm hd he [hb ha']] := bH t.
rewrite /num_flux big_ord1 hq hu he ha' trmx1 !mul1mx !mxE /=.
by move: (u_at t) => v; field; rewrite gt_eqF.
Qed.
Lemma bi_time_jac : exists2 j, jac z0 z0 1 x0 0 = Ok j & nth 0 (nth [::] j 0) 1 = 0.
Proof.
have hr := be_neg d1 timeB tau0 (lexx 0).
have [j [q0 [u0 [r0 [w0 [q1 [u1 [r1 [w1 [q2 [u2 [r2 [w2 [j1 j2 j3 j4 [j5 _ j6]]]]]]]]]]]]]]] :=
  @be_jac F gesv 1 0 [::] [::] tau B d1 hg 0 1 z0 z0 x0 hr z0_tr z0_tr x0_tr.
exists j => //; have [_ hu _ _] := be_unique hr j2 (bi_time_loc (lexx 0)).
have u00 : u_at 0 = 0 by rewrite /u_at !mul0r.
have [hq1 hu1 _ _] : [/\ forall d, q1 d = 0, u1 = 0, forall d, r1 d = 0 & w1 = 0].
  by apply: hr; apply: react_ext j3 => // f; [exact: z0_lo | exact: z0_hi].
have [hq2 hu2 _ _] : [/\ forall d, q2 d = 0, u2 = 0, forall d, r2 d = 0 & w2 = 0].
  by apply: hr; apply: react_ext j4 => //; rewrite hu u00; apply/colP => i; rewrite !mxE mulr0.
have := j6 (Ordinal (isT : (0 < 2)%N)); have -> : face_dirichlet [::] (bl_df (be_bl B)) (Ordinal (isT : (0 < 2)%N)) = false by [].
move=> /colP/(_ 0).
rewrite [LHS]mxE (up0 j5) => ->.
by rewrite /num_flux !big_ord1 hq1 hq2 hu1 hu2 z0_lo !mulmx0 !scaler0 !(addr0, subr0) mxE.
Qed.
(** The derivative with respect to eig of the coefficient is missing from the Jacobian. *)
Lemma bi_time_refuted : exists y0 j, [/\ ttf x0 z0 0 = Ok y0, jac z0 z0 1 x0 0 = Ok j &
  forall K delta, 0 < delta -> exists t yt,
   [/\ `|t| <= delta, be_regular 1 0 tau B t, ttf x0 z0 t = Ok yt &
    K * t ^+ 2 < `|nth 0 (nth [::] yt 0) 1 - nth 0 (nth [::] y0 0) 1 - t * nth 0 (nth [::] j 0) 1|]].
Proof.
have [y0 h0 e0] := bi_time_flux (lexx 0); have [j hj ej] := bi_time_jac.
have u00 : u_at 0 = 0 by rewrite /u_at !mul0r.
exists y0, j; split=> // K delta d0.
pose s := Num.min (Num.min (Num.min delta 2%:R^-1) (8%:R * (`|K| + 1))^-1) (4%:R * tau ^+ 2).
have K1 : 0 < `|K| + 1 by rewrite ltr_spaddr ?ltr01.
have s0 : 0 < s by rewrite !lt_minr d0 !invr_gt0 !mulr_gt0 ?ltr0n ?exprn_gt0.
have [s1 s2 s3 s5] : [/\ s <= delta, s <= 2%:R^-1, s <= (8%:R * (`|K| + 1))^-1 & s <= 4%:R * tau ^+ 2].
  by split; rewrite !le_minl ?lexx ?orbT.
have ts : - s <= 0 by rewrite oppr_le0 ltW.
have [yt ht et] := bi_time_flux ts.
exists (- s), yt; split=> //; first by rewrite normrN gtr0_norm.
  exact: (be_neg d1 timeB tau0 ts).
rewrite e0 et ej mulr0 subr0 u00 mulr0 addr0.
have -> : tau^-1 + tau * u_at (- s) + 1 - (tau^-1 + 1) = tau * u_at (- s) by ring.
have dn := den_gt0 ts; have k0 := k_gt0 (- s).
have s4 : 2%:R^-1 <= 1 - s.
  rewrite ler_subr_addr -ler_subr_addl; apply: (le_trans s2).
  have -> : 1 - 2%:R^-1 = 2%:R^-1 :> F by field.
  by [].
have s6 : 0 < 1 - s by apply: lt_le_trans s4; rewrite invr_gt0 ltr0n.
have k1 : k (- s) <= 1.
  have -> : k (- s) = 1 - s * (1 - s) by ring.
  by rewrite ler_subl_addr ler_addl mulr_ge0 // ltW.
have a0 : 0 < 2%:R * tau by rewrite mulr_gt0 ?ltr0n.
have a4 : 0 < 4%:R * tau by rewrite mulr_gt0 ?ltr0n.
pose D := 2%:R * tau - k (- s) * - s / (2%:R * tau).
have D4 : D <= 4%:R * tau.
  have -> : 4%:R * tau = 2%:R * tau + 2%:R * tau by ring.
  rewrite /D mulrN mulNr opprK ler_add2l ler_pdivr_mulr //.
  have -> : 2%:R * tau * (2%:R * tau) = 4%:R * tau ^+ 2 by ring.
  by apply: le_trans s5; rewrite ler_pimull // ltW.
have -> : tau * u_at (- s) = - (tau * (s * (1 - s) / D)) by rewrite /u_at -/D; ring.
have hpos : 0 <= tau * (s * (1 - s) / D).
  by rewrite mulr_ge0 ?divr_ge0 ?mulr_ge0 // ltW.
rewrite normrN (ger0_norm hpos) sqrrN.
have h8 : s / 8%:R <= tau * (s * (1 - s) / D).
  apply: (@le_trans _ _ (tau * (s * (1 - s) / (4%:R * tau)))).
    have -> : tau * (s * (1 - s) / (4%:R * tau)) = s * ((1 - s) / 4%:R) by field; rewrite gt_eqF.
    rewrite ler_pmul2l //; have -> : 8%:R^-1 = 2%:R^-1 / 4%:R :> F by field.
    by rewrite ler_pmul2r // invr_gt0 ltr0n.
  by rewrite ler_pmul2l // ler_pmul2l ?mulr_gt0 // lef_pinv ?posrE.
apply: lt_le_trans h8.
apply: (@le_lt_trans _ _ (`|K| * s ^+ 2)); first by rewrite ler_wpmul2r ?sqr_ge0 ?ler_norm.
rewrite expr2 mulrA [s / _]mulrC ltr_pmul2r //.
apply: (@le_lt_trans _ _ (`|K| * (8%:R * (`|K| + 1))^-1)); first by rewrite ler_wpmul2l.
rewrite invfM mulrA ltr_pdivr_mulr // mulrC ltr_pmul2l ?invr_gt0 ?ltr0n //.
by rewrite ltr_addl ltr01.
Qed.
End Time.
Lemma bi_time_missed (F : rcfType) (tau : F) (gesv : nat -> nat -> seq F -> seq F -> sv_result F) :
  0 < tau -> gesv_correct gesv -> exists (P : be_data F) (x : seq (seq F)) y0 j (zero := nseq 2 (nseq 2 0)),
  [/\ bi_eigs_data 1 0 P, is_trace 2 2 x, be_trace_to_flux gesv 1 0 [::] [::] tau P x zero 0 = Ok y0,
      be_jacobian gesv 1 0 [::] [::] tau P zero zero 1 x 0 = Ok j &
  forall K delta, 0 < delta -> exists t yt,
   [/\ `|t| <= delta, be_regular 1 0 tau P t, be_trace_to_flux gesv 1 0 [::] [::] tau P x zero t = Ok yt &
    K * t ^+ 2 < `|nth 0 (nth [::] yt 0) 1 - nth 0 (nth [::] y0 0) 1 - t * nth 0 (nth [::] j 0) 1|]].
Proof.
move=> t0 hg; have [y0 [j [h1 h2 h3]]] := bi_time_refuted t0 hg.
by exists (bi_of (timeP F)), [:: [:: - tau^-1; 1]; [:: 0; 1]], y0, j; split=> //; exact: timeB.
Qed.

(** The energy identity of L_BiFlux with the mass matrix written out. *)
Lemma be_energy (F : realFieldType) (gesv : nat -> nat -> seq F -> seq F -> sv_result F) (dim p : nat) (dirs laps : seq nat)
  (tau : F) (P : be_data F) (nb := ((p + 1) ^ (dim - 1))%N) (eig : F) (x out : seq (seq F)) :
  (0 < dim)%N -> bi_eigs_data dim p P -> gesv_correct gesv -> be_regular dim p tau P eig ->
  is_trace (2 * dim) (2 * nb) x -> is_trace (2 * dim) (2 * nb) out -> bi_vanishes dim p dirs laps (be_at P eig) x ->
  exists y q u r w, [/\ be_trace_to_flux gesv dim p dirs laps tau P x out eig = Ok y,
    bi_eig_loc dim p tau P eig q u r w (tr nb (lower nb x)) (tr nb (upper nb x)) 0 &
    pairing (2 * dim) nb (lower nb x) (lower nb y) - pairing (2 * dim) nb (upper nb x) (upper nb y) =
    eig * (be_area P * dotv u u) - dotv w (bl_coef dim p (be_at P eig) *m w)].
Proof.
move=> dim0 hP hg hr hx ho hz.
have [y [q [u [r [w [h1 h2 h3]]]]]] := flux_energy dim0 (be_data_at hP eig)
  (fun x out => @be_flux_ F gesv dim p dirs laps tau P dim0 hg eig x out hr) hx ho hz.
exists y, q, u, r, w; split=> //.
by rewrite h3 (be_mass hP) mul_scalar_mx dotvZr.
Qed.
