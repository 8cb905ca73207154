(** The contracts of DiffusionEigs are satisfiable; a coefficient that depends on the eigenvalue. *)
From mathcomp Require Import all_ssreflect all_algebra zify ring.
From Verif Require Import M_Base L_Base M_DenseLA S_DenseLA M_Lapack S_Lapack.
From Verif Require Import S_Hdg L_Hdg L_HdgSrc S_Tpp L_Poly S_LocalSolver M_DiffusionUniform M_Diffusion S_Diffusion S_TppGeo L_DiffusionEx L_LocalLink L_DiffusionUniform2.
From Verif Require Import M_Global S_Global S_GlobalParab S_GlobalEigs L_ParabEx.
From Verif Require Import M_DiffusionEigs S_DiffusionEigs L_DiffusionEigs2 L_DiffusionEigs3.
Set Implicit Arguments. Unset Strict Implicit. Unset Printing Implicit Defensive.
Import Order.TTheory GRing.Theory Num.Theory.
Local Open Scope ring_scope.

Section Ex.
Variable F : rcfType.
Definition eigs_of (b : nat -> {poly F}) (dim p Q : nat) (xs ws : nat -> F) (kappa : F -> nat -> F) (types : seq nat) : de_data F :=
  let D k := tpp_data b p Q xs ws k (unit_geo F dim) (fun=> 0) (fun _ _ => 0) (fun _ _ => 0) (fun=> 0) (fun _ _ _ => 0) types in
  DeData (D (kappa 0)) (fun eig => df_vol (D (kappa eig))) 1.
Lemma eigs_of_data b dim p Q xs ws kappa types : orthonormal_basis (p + 1) b -> quad_ok (p + 1) b Q xs ws ->
  (forall eig s, 0 < kappa eig s) -> eigs_data dim p (eigs_of b dim p Q xs ws kappa types).
Proof.
move=> h1 h2 h3; exists b, Q, xs, ws, kappa, (unit_geo F dim); split=> //; first exact: unit_geo_ok.
by split=> // eig; exact: tpp_dataP.
Qed.
(** Every dimension, with a coefficient that varies in space, and any face types. *)
Lemma eigs_data_exists dim (types : nat -> seq nat) : exists P : nat -> de_data F, forall i,
  [/\ eigs_data dim 1 (P i), time_free (P i) & df_types (de_df (P i)) = types i].
Proof.
have [b hb] := @orthonormal_exists F 1.
exists (fun i => eigs_of b dim 1 3 (@simpson_pt F) (@simpson_wt F) (fun _ s => s.+1%:R) (types i)) => i; split=> //.
apply: eigs_of_data => //; first exact: simpson_ok.
by move=> _ s; rewrite ltr0n.
Qed.
Lemma eigs_example dim (types : seq nat) : [/\ gesv_correct (@inv_gesv F), gesv_detects (@inv_gesv F) &
    exists P : de_data F, [/\ eigs_data dim 1 P, time_free P & df_types (de_df P) = types]].
Proof.
split; first exact: inv_gesv_correct.
  by move=> n nc A b hA hb hu; rewrite /inv_gesv /= (negbTE hu).
by have [P hP] := eigs_data_exists dim (fun=> types); exists (P 0%N).
Qed.
End Ex.

Section Time.
Variable F : rcfType.
Notation k t := (1 + t + t ^+ 2 : F).
Lemma k_gt0 (t : F) : 0 < k t.
Proof.
have -> : k t = (t + 2%:R^-1) ^+ 2 + 3%:R / 4%:R by field; rewrite ?pnatr_eq0.
by rewrite ltr_paddl ?sqr_ge0 // divr_gt0 ?ltr0n.
Qed.
(** Piecewise constants on an interval. *)
Definition oneP (kap : F -> F) (types : seq nat) : de_data F :=
  eigs_of (fun=> 1) 1 0 1 (fun=> 0) (fun=> 1) (fun t _ => kap t) types.
Definition timeP : de_data F := oneP (fun t => k t) [::].
Lemma basis0 : orthonormal_basis 1 (fun=> 1 : {poly F}).
Proof.
split=> // [i|i j]; first by case: i => // _; rewrite size_poly1.
by case: i => //; case: j => // _ _; rewrite mulr1 integ1.
Qed.
Lemma oneP_data kap types : (forall t, 0 < kap t) -> eigs_data 1 0 (oneP kap types).
Proof.
move=> kap0; apply: eigs_of_data; first exact: basis0.
  split=> [s _|i j _ _]; first exact: ltr01.
  by rewrite big_ord1 !hornerC !mulr1 integ1.
by move=> eig s; exact: kap0.
Qed.
Lemma timeP_data : eigs_data 1 0 timeP.
Proof. by apply: oneP_data => t; exact: k_gt0. Qed.
Lemma oneH kap types t (H := de_hdg 1 0 (oneP kap types) t) : [/\ hM H = (kap t)%:M, forall d, hD H d = 0, forall f, hE H f = 1%:M
  & (forall f, hB H f = 1%:M) /\ forall f, ha H f = 1].
Proof.
split; last split=> //.
- apply/matrixP => i j; rewrite !ord1 !mxE /= !mulr1n /shape_at /quad_weight mul1r expn1 big_ord1 !big_ord1 !hornerC.
  by rewrite mul1r !mulr1.
- by move=> d; apply/matrixP => i j; rewrite !ord1 !mxE /= /vol_Dphiphi mul1r !big_ord1 /= /dphi1 derivC mul0r /integ size_poly0 big_ord0 mulr0.
- move=> f; apply/matrixP => i j; rewrite !ord1 !mxE /= mul1r /bdr_phipsi big_ord1 hornerC.
  by have -> : (f %/ 2 = 0)%N by case: f => -[|[|//]].
move=> f; apply/matrixP => i j; rewrite !ord1 !mxE /= mul1r /bdr_phiphi big_ord1 !hornerC mulr1.
by have -> : (f %/ 2 = 0)%N by case: f => -[|[|//]].
Qed.
Notation H t := (de_hdg 1 0 timeP t).
Lemma tH t : [/\ hM (H t) = (k t)%:M, forall d, hD (H t) d = 0, forall f, hE (H t) f = 1%:M
  & (forall f, hB (H t) f = 1%:M) /\ forall f, ha (H t) f = 1].
Proof. exact: oneH. Qed.
Notation trx := (tr (nF := 2) 1).
Definition timeX : seq (seq F) := [:: [:: 1]; [:: -1]].
Definition timeZ : seq (seq F) := [:: [:: 0]; [:: 0]].
Variable tau : F.
Lemma time_loc t : eig_loc 1 0 tau timeP t (fun=> const_mx (2%:R / k t)) 0 (trx timeX) 0.
Proof.
have [hm hd he [hb ha']] := tH t.
split=> [d|].
- rewrite hm hd mul0mx subr0 addr0 !big_ord_recl big_ord0 !he addr0 !mul1mx mul_scalar_mx.
  apply/colP => i; rewrite !ord1 !mxE /= mulrC divfK ?gt_eqF ?k_gt0 //; ring.
rewrite !big_ord_recl !big_ord0 !hd !he !hb !addr0 oppr0 add0r !mul1mx !scaler0 !addr0.
apply/colP => i; rewrite !ord1 !mxE big_ord1 !mxE /=; ring.
Qed.
Lemma timeX_tr : is_trace 2 1 timeX. Proof. by []. Qed.
Lemma timeZ_tr : is_trace 2 1 timeZ. Proof. by []. Qed.
Lemma timeZ0 (f : 'I_2) : trx timeZ f = 0.
Proof. by apply/colP => i; rewrite !mxE ord1; case: f => -[|[|]]. Qed.
Variable gesv : nat -> nat -> seq F -> seq F -> sv_result F.
Hypotheses (tau0 : 0 < tau) (hg : gesv_correct gesv).
Let hP := timeP_data.
Notation ttf := (de_trace_to_flux gesv 1 0 [::] tau timeP).
Notation jac := (de_jacobian gesv 1 0 [::] tau timeP).
Lemma time_flux t : t <= 0 -> exists2 y, ttf timeX timeZ t = Ok y & nth 0 (nth [::] y 0) 0 = - (2%:R / k t) - tau.
Proof.
move=> t0; have hr := eigs_neg (isT : (0 < 1)%N) hP tau0 t0.
have [y [q [u [h1 h2 [h3 h4]]]]] := eigs_flux [::] (isT : (0 < 1)%N) hP hg hr timeX_tr timeZ_tr.
exists y => //; have [hq hu] := loc_unique_e hr h2 (time_loc t).
have := h4 (Ordinal (isT : (0 < 2)%N)); rewrite /de_mask /= => /colP/(_ 0); rewrite [LHS]mxE /= => ->.
have [hm hd he [hb ha']] := tH t.
rewrite /num_flux big_ord1 hq hu he ha' trmx1 mul1mx mulmx0 scaler0 addr0 !mxE /=.
by rewrite !mulr1 mulN1r.
Qed.
Lemma time_jac : exists2 j, jac timeZ timeZ 1 timeX 0 = Ok j & nth 0 (nth [::] j 0) 0 = 0.
Proof.
have hr := eigs_neg (isT : (0 < 1)%N) hP tau0 (lexx 0).
have [j [q0 [u0 [q1 [u1 [q2 [u2 [j1 j2 j3 j4 [j5 j6]]]]]]]]] := eigs_jac [::] (isT : (0 < 1)%N) hP hg 1 hr timeZ_tr timeZ_tr timeX_tr.
exists j => //; have [_ hu] := loc_unique_e hr j2 (time_loc 0).
have [hq1 hu1] : (forall d, q1 d = 0) /\ u1 = 0.
  by apply: hr; apply: src_ext j3 => // f; exact: timeZ0.
have [hq2 hu2] : (forall d, q2 d = 0) /\ u2 = 0.
  by apply: hr; apply: src_ext j4 => //; rewrite hu scaler0.
have := j6 (Ordinal (isT : (0 < 2)%N)); rewrite /de_mask /= => /colP/(_ 0); rewrite [LHS]mxE /= => ->.
rewrite /num_flux !big_ord1 hq1 hq2 hu1 hu2 timeZ0 !mulmx0 !scaler0 !(addr0, subr0).
by rewrite mxE.
Qed.
(** The derivative with respect to eig of the coefficient is missing from the Jacobian. *)
Lemma time_refuted : exists y0 j, [/\ ttf timeX timeZ 0 = Ok y0, jac timeZ timeZ 1 timeX 0 = Ok j &
  forall K delta, 0 < delta -> exists t yt,
   [/\ `|t| <= delta, regular 1 0 tau timeP t, ttf timeX timeZ t = Ok yt &
    K * t ^+ 2 < `|nth 0 (nth [::] yt 0) 0 - nth 0 (nth [::] y0 0) 0 - t * nth 0 (nth [::] j 0) 0|]].
Proof.
have [y0 h0 e0] := time_flux (lexx 0); have [j hj ej] := time_jac.
exists y0, j; split=> // K delta d0.
pose s := Num.min (Num.min delta 2%:R^-1) (2%:R * (`|K| + 1))^-1.
have K1 : 0 < `|K| + 1 by rewrite ltr_spaddr ?ltr01.
have s0 : 0 < s by rewrite !lt_minr d0 !invr_gt0 ltr0n mulr_gt0 ?ltr0n.
have [s1 s2 s3] : [/\ s <= delta, s <= 2%:R^-1 & s <= (2%:R * (`|K| + 1))^-1].
  by split; rewrite !le_minl ?lexx ?orbT.
have s4 : 0 < 1 - s by rewrite subr_gt0 (le_lt_trans s2) // invf_lt1 ?ltr0n // ltr1n.
have ts : - s <= 0 by rewrite oppr_le0 ltW.
have [yt ht et] := time_flux ts.
exists (- s), yt; split=> //; first by rewrite normrN gtr0_norm.
  exact: (eigs_neg (isT : (0 < 1)%N) hP tau0 ts).
rewrite e0 et ej mulr0 subr0.
have k0 := k_gt0 (- s); have kne : k (- s) != 0 by rewrite gt_eqF.
have -> : - (2%:R / k (- s)) - tau - (- (2%:R / k 0) - tau) = - (2%:R * s * (1 - s) / k (- s)).
  by rewrite expr0n /= !addr0 divr1; field.
rewrite normrN ger0_norm; last first.
  by apply: divr_ge0; [apply: mulr_ge0; [apply: mulr_ge0; [exact: ler0n|exact: ltW]|exact: ltW]|exact: ltW].
rewrite ltr_pdivl_mulr // [X in K * X](sqrrN s).
have k1 : k (- s) <= 1.
  have -> : k (- s) = 1 - s * (1 - s) by ring.
  by rewrite ler_subl_addr ler_addl mulr_ge0 // ltW.
have Ks : `|K| * s < 1.
  apply: (@le_lt_trans _ _ (`|K| / (2%:R * (`|K| + 1)))); first by rewrite ler_wpmul2l.
  rewrite ltr_pdivr_mulr ?mulr_gt0 ?ltr0n // mul1r.
  have -> : 2%:R * (`|K| + 1) = `|K| + (`|K| + 2%:R) by ring.
  by rewrite ltr_addl ltr_spaddr ?ltr0n.
have a1 : K * s ^+ 2 * k (- s) <= `|K| * s ^+ 2.
  apply: (@le_trans _ _ (`|K| * s ^+ 2 * k (- s))).
    by rewrite !ler_wpmul2r ?sqr_ge0 ?ler_norm // ltW.
  by rewrite ler_pimulr // mulr_ge0 ?sqr_ge0.
apply: (le_lt_trans a1); rewrite expr2 mulrA.
apply: (@lt_le_trans _ _ s); first by rewrite gtr_pmull.
rewrite [2%:R * s]mulrC -mulrA ler_pmulr // mulrBr mulr1 ler_subr_addr -ler_subr_addl.
have -> : 2%:R - 1 = 2%:R * 2%:R^-1 :> F by rewrite divff ?pnatr_eq0 // -[2%:R]/(1 + 1) addrK.
by rewrite ler_pmul2l ?ltr0n.
Qed.
End Time.
Lemma time_missed (F : rcfType) (tau : F) (gesv : nat -> nat -> seq F -> seq F -> sv_result F) :
  0 < tau -> gesv_correct gesv -> exists (P : de_data F) (x : seq (seq F)) y0 j (zero := nseq 2 (nseq 1 0)),
  [/\ eigs_data 1 0 P, is_trace 2 1 x, de_trace_to_flux gesv 1 0 [::] tau P x zero 0 = Ok y0,
      de_jacobian gesv 1 0 [::] tau P zero zero 1 x 0 = Ok j &
  forall K delta, 0 < delta -> exists t yt,
   [/\ `|t| <= delta, regular 1 0 tau P t, de_trace_to_flux gesv 1 0 [::] tau P x zero t = Ok yt &
    K * t ^+ 2 < `|nth 0 (nth [::] yt 0) 0 - nth 0 (nth [::] y0 0) 0 - t * nth 0 (nth [::] j 0) 0|]].
Proof.
move=> t0 hg; have [y0 [j [h1 h2 h3]]] := time_refuted t0 hg.
by exists (timeP F), (timeX F), y0, j; split=> //; exact: timeP_data.
Qed.

(** An eigenpair: one interval with a Dirichlet condition at hypernode 0, piecewise constants, tau = 1. *)
Section Pair.
Variable F : rcfType.
Notation PP := (fun _ : nat => oneP (fun=> 1 : F) [:: 1; 0]%N).
Definition pair_nodes : seq (seq nat) := [:: [:: 0; 1]]%N.
Lemma pair_exists : [/\ valid_graph 1 2 (indexed pair_nodes),
    forall v, (v < 2)%N -> anchored (indexed pair_nodes) (fun v => row_type v \in [:: 1%N]) v,
    eigs_data_all 1 0 pair_nodes PP, eigs_types 1 pair_nodes row_type PP & time_free_all pair_nodes PP] /\
  eigenpair 1 0 [:: 1%N] 1 pair_nodes 2 row_type PP [:: 0; 1] (3%:R / 2%:R)
    (fun _ _ => const_mx (-1)) (fun _ => const_mx 2%:R).
Proof.
have hP : eigs_data_all 1 0 pair_nodes PP by move=> i _; apply: oneP_data => t; exact: ltr01.
split; first split=> //.
- have a0 : anchored (indexed pair_nodes) (fun v => row_type v \in [:: 1%N]) 0%N by exact: anchored_fixed.
  case=> [|[|//]] _ //; apply: (@anchored_step _ _ _ ([:: 0; 1]%N, 0%N) 0%N) => //; by left.
- by case=> [|//] [|[|]].
split=> //; first by case=> [|[|]].
- case=> // _; have [hm hd he [hb ha']] := oneH (fun=> 1 : F) [:: 1; 0]%N (3%:R / 2%:R).
  split=> [d|].
    rewrite hm hd mul0mx subr0 addr0 !big_ord_recl big_ord0 !he addr0 !mul1mx.
    apply/colP => i; rewrite !ord1 !mxE /=; ring.
  rewrite !big_ord_recl !big_ord0 !hd !he !hb !addr0 oppr0 add0r !mul1mx.
  apply/colP => i; rewrite !ord1 !mxE big_ord1 !mxE /=; field; by rewrite ?pnatr_eq0.
move=> y sy oy; have [hm hd he [hb ha']] := oneH (fun=> 1 : F) [:: 1; 0]%N (3%:R / 2%:R).
have y0 : nth 0 y 0 = 0 by apply: oy.
rewrite big_ord1 !big_ord_recl big_ord0 addr0 /num_flux !big_ord1 !he !ha' !trmx1 !mul1mx /dotv !big_ord1 !mxE /=.
by rewrite y0; ring.
Qed.
End Pair.
