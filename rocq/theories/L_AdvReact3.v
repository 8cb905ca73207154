(** When the local problem of DiffusionAdvectionReaction is regular. *)
From mathcomp Require Import all_ssreflect all_algebra zify ring.
From Verif Require Import M_Base L_Base M_Lapack S_Lapack M_DiffusionUniform M_Diffusion S_Hdg S_Tpp S_LocalSolver S_Diffusion S_TppGeo.
From Verif Require Import L_Hdg L_HdgSrc L_LocalBase L_LocalLink L_DiffusionUniform L_DiffusionUniform2 L_Diffusion L_TppGeo L_Diffusion2.
From Verif Require Import S_DiffusionEigs M_AdvReact S_AdvReact L_ArHdg L_AdvReact2.
Set Implicit Arguments. Unset Strict Implicit. Unset Printing Implicit Defensive.
Import Order.TTheory GRing.Theory Num.Theory.
Local Open Scope ring_scope.

Section Point.
Variable F : realFieldType.
Lemma point_form (dim : nat) (kappa rho c : F) (a v : 'I_dim -> F) : 0 < kappa ->
  \sum_d v d ^+ 2 < 4%:R * kappa * rho \/ ((forall d, v d = 0) /\ 0 <= rho) ->
  let G := kappa * (\sum_d a d * a d) - \sum_d v d * (a d * c) + rho * (c * c) in
  0 <= G /\ (G = 0 -> forall d, a d = 0 /\ v d * c = 0).
Proof.
move=> k0 [h1|[h1 h2]] G.
  have e1 : 4%:R * kappa * G = \sum_d (2%:R * kappa * a d - v d * c) ^+ 2 +
      (4%:R * kappa * rho - \sum_d v d ^+ 2) * (c * c).
    have -> : \sum_d (2%:R * kappa * a d - v d * c) ^+ 2 = 4%:R * kappa * (kappa * (\sum_d a d * a d))
        - 4%:R * kappa * (\sum_d v d * (a d * c)) + (\sum_d v d ^+ 2) * (c * c).
      rewrite !mulr_sumr mulr_suml -sumrB -big_split /=; apply: eq_bigr => d _; ring.
    by rewrite /G; move: (\sum_d _) (\sum_d _) (\sum_d _) => s1 s2 s3; ring.
  have s0 : 0 <= \sum_d (2%:R * kappa * a d - v d * c) ^+ 2 by apply: sumr_ge0 => d _; exact: sqr_ge0.
  have d0 : 0 < 4%:R * kappa * rho - \sum_d v d ^+ 2 by rewrite subr_gt0.
  have c0 : 0 <= (4%:R * kappa * rho - \sum_d v d ^+ 2) * (c * c).
    by rewrite mulr_ge0 ?(ltW d0) // -expr2 sqr_ge0.
  have k4 : 0 < 4%:R * kappa by rewrite mulr_gt0 // ltr0n.
  split; first by rewrite -(pmulr_rge0 _ k4) e1 addr_ge0.
  move=> G0 d; move: e1; rewrite G0 mulr0 => /esym/eqP; rewrite paddr_eq0 // => /andP[/eqP es].
  rewrite !mulf_eq0 (gt_eqF d0) /= orbb => /eqP ec; rewrite ec mulr0; split=> //.
  have hs d' : true -> 0 <= (2%:R * kappa * a d' - v d' * c) ^+ 2 by move=> _; exact: sqr_ge0.
  have /eqP := psumr_eq0P hs es (i := d) isT.
  rewrite ec mulr0 subr0 sqrf_eq0 !mulf_eq0 (gt_eqF k0) pnatr_eq0 /= => /eqP -> //.
have -> : G = kappa * (\sum_d a d * a d) + rho * (c * c).
  by rewrite /G [X in _ - X]big1 ?subr0 // => d _; rewrite h1 mul0r.
have s0 : 0 <= \sum_d a d * a d by apply: sumr_ge0 => d _; rewrite -expr2 sqr_ge0.
have p1 : 0 <= kappa * (\sum_d a d * a d) by rewrite mulr_ge0 // ltW.
have p2 : 0 <= rho * (c * c) by rewrite mulr_ge0 // -expr2 sqr_ge0.
split; first by rewrite addr_ge0.
move=> /eqP; rewrite paddr_eq0 // mulf_eq0 (gt_eqF k0) /= => /andP[/eqP es _] d; rewrite h1 mul0r; split=> //.
have hs d' : true -> 0 <= a d' * a d' by move=> _; rewrite -expr2 sqr_ge0.
by have /eqP := psumr_eq0P hs es (i := d) isT; rewrite mulf_eq0 orbb => /eqP.
Qed.
End Point.

Section Integrals.
Variable F : realFieldType.
Variables (dim p : nat) (tau : F) (P : ar_data F) (t : F).
Variables (b : nat -> {poly F}) (Q : nat) (xs ws kappa rho : nat -> F) (vel : nat -> nat -> F) (g : edge_geo F dim).
Hypotheses (dim0 : (0 < dim)%N) (hb : orthonormal_basis (p + 1) b) (hq : quad_ok (p + 1) b Q xs ws).
Hypotheses (hk : forall s, (s < Q ^ dim)%N -> 0 < kappa s) (hgeo : geo_ok g).
Hypothesis hC : ar_contract p b Q xs ws kappa rho vel g P t.
Notation nf := ((p + 1) ^ dim)%N.
Notation H := (ar_hdg dim p P t).
Notation val := (@val_at F dim p Q b xs).
Notation W s := (quad_weight Q ws dim s).
Lemma integrals_data : diffusion_data dim p (ar_df P t).
Proof. by case: hC => h1 _ _; exists b, Q, xs, ws, kappa, g. Qed.
Definition qmx (w : 'I_(Q ^ dim) -> F) : 'M[F]_nf :=
  \matrix_(i, j) \sum_s w s * (shape_at (p + 1) b Q xs dim i s * shape_at (p + 1) b Q xs dim j s).
Lemma qmxE w (u : 'cV[F]_nf) i : (qmx w *m u) i 0 = \sum_s w s * (shape_at (p + 1) b Q xs dim i s * val u s).
Proof.
rewrite mxE; under eq_bigr => j _ do rewrite mxE mulr_suml.
rewrite exchange_big /=; apply: eq_bigr => s _; rewrite /val_at !mulr_sumr; apply: eq_bigr => j _.
by rewrite -!mulrA [u j 0 * _]mulrC.
Qed.
Lemma qmx_form w (q u : 'cV[F]_nf) : dotv q (qmx w *m u) = \sum_s w s * (val q s * val u s).
Proof.
rewrite /dotv; under eq_bigr => i _ do rewrite qmxE mulr_sumr.
rewrite exchange_big /=; apply: eq_bigr => s _; rewrite /val_at mulr_suml mulr_sumr; apply: eq_bigr => i _.
by move: (\sum_j _) (shape_at _ _ _ _ _ _ _) => x y; ring.
Qed.
Notation ea := (eg_area g).
Lemma M_qmx : hM H = ea *: qmx (fun s => W s * kappa s).
Proof. by case: hC => -[h1 _ _ _ _] _ _; apply/matrixP => i j; rewrite !mxE h1. Qed.
Lemma R_qmx : ar_R dim p P t = ea *: qmx (fun s => W s * rho s).
Proof. by case: hC => _ h1 _; apply/matrixP => i j; rewrite !mxE h1. Qed.
Lemma A_qmx d : ar_A p P d = ea *: qmx (fun s => W s * vel s d).
Proof. by case: hC => _ _ h1; apply/matrixP => i j; rewrite !mxE h1. Qed.
Lemma W_gt0 (s : 'I_(Q ^ dim)) : 0 < W s. Proof. exact: (weight_gt0 hq). Qed.
Lemma ea_gt0 : 0 < ea. Proof. by case: hgeo. Qed.

Lemma small_dom : small_velocity (Q ^ dim) kappa rho vel g ->
  forall q u, 0 <= bulk_form H (@ar_A F dim p P) (ar_R dim p P t) q u /\
  (bulk_form H (@ar_A F dim p P) (ar_R dim p P t) q u = 0 ->
     (forall d, q d = 0) /\ forall d, ar_A p P d *m u = 0).
Proof.
move=> hs q u.
pose G (s : 'I_(Q ^ dim)) := kappa s * (\sum_d val (q d) s * val (q d) s) -
  \sum_(d < dim) vel s d * (val (q d) s * val u s) + rho s * (val u s * val u s).
have hG s : 0 <= G s /\ (G s = 0 -> forall d : 'I_dim, val (q d) s = 0 /\ vel s d * val u s = 0).
  apply: (@point_form F dim (kappa s) (rho s) (val u s) (fun d => val (q d) s) (fun d : 'I_dim => vel s d) (hk (ltn_ord s))).
  case: (hs s (ltn_ord s)) => [|[h1 h2]]; [by left | right; split=> // d; exact: h1].
have e1 : bulk_form H (@ar_A F dim p P) (ar_R dim p P t) q u = ea * (\sum_(s < Q ^ dim) W s * G s).
  rewrite /bulk_form M_qmx R_qmx -scalemxAl dotvZr qmx_form.
  under eq_bigr => d _ do rewrite -scalemxAl dotvZr qmx_form.
  under [X in _ - X]eq_bigr => d _ do rewrite A_qmx -scalemxAl dotvZr qmx_form.
  rewrite -!mulr_sumr -mulrBr -mulrDr; congr (_ * _).
  rewrite exchange_big [X in _ - X]exchange_big /= -sumrB -big_split /=; apply: eq_bigr => s _.
  rewrite /G [RHS]mulrDr [X in _ = X + _]mulrBr; congr (_ - _ + _); last by rewrite [RHS]mulrA.
    by rewrite [RHS]mulrA mulr_sumr.
  by rewrite [RHS]mulr_sumr; apply: eq_bigr => d _; rewrite [RHS]mulrA.
have s0 (s : 'I_(Q ^ dim)) : true -> 0 <= W s * G s by move=> _; rewrite mulr_ge0 ?(ltW (W_gt0 s)) //; have [] := hG s.
rewrite e1; split; first by rewrite mulr_ge0 ?(ltW ea_gt0) //; exact: sumr_ge0.
move=> /eqP; rewrite mulf_eq0 gt_eqF ?ea_gt0 //= => /eqP es.
have hz s (d : 'I_dim) : val (q d) s = 0 /\ vel s d * val u s = 0.
  have /eqP := psumr_eq0P s0 es (i := s) isT; rewrite mulf_eq0 gt_eqF ?W_gt0 //= => /eqP h0.
  by have [_ /(_ h0)] := hG s; apply.
split=> d.
  apply: (mass_eq0 (data_ok dim0 integrals_data)); rewrite -/(ar_hdg dim p P t) M_qmx -scalemxAl dotvZr qmx_form.
  by rewrite big1 ?mulr0 // => s _; have [-> _] := hz s d; rewrite !mulr0.
rewrite A_qmx -scalemxAl; apply/colP => i; rewrite mxE qmxE big1 ?mulr0 ?mxE // => s _.
by rewrite mulrCA -mulrA; have [_ ->] := hz s d; rewrite !mulr0.
Qed.

Section Wind.
Variable w : nat -> F.
Hypothesis hw : steady_wind tau w (Q ^ dim) kappa rho vel g.
Lemma wind_A d : ar_A p P d = w d *: hM H.
Proof.
rewrite A_qmx M_qmx scalerA [w d * _]mulrC -scalerA; congr (_ *: _).
apply/matrixP => i j; rewrite !mxE mulr_sumr; apply: eq_bigr => s _; case: hw => -> // _ _.
by move: (W s) (shape_at _ _ _ _ _ i _) (shape_at _ _ _ _ _ j _) => x y z; ring.
Qed.
Lemma wind_R u : 0 <= dotv u (ar_R dim p P t *m u).
Proof.
rewrite R_qmx -scalemxAl dotvZr qmx_form mulr_ge0 ?(ltW ea_gt0) //; apply: sumr_ge0 => s _.
rewrite mulr_ge0 //; last by rewrite -expr2 sqr_ge0.
by rewrite mulr_ge0 ?(ltW (W_gt0 s)) //; case: hw => _ + _; apply.
Qed.
Lemma wind_outE f : outflow H (fun d : 'I_dim => w d) f = \sum_(d < dim) eg_normal g f d * w d.
Proof. by case: hC => -[_ _ _ _ h5] _ _; have [_ h] := h5 f; apply: eq_bigr => d _; rewrite /= h. Qed.
Lemma wind_stab f : 0 < tau + outflow H (fun d : 'I_dim => w d) f / 2%:R.
Proof. by rewrite wind_outE; case: hw => _ _; apply. Qed.
End Wind.
End Integrals.
