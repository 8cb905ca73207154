(** Properties of the fluxes of Bilaplacian. *)
From mathcomp Require Import all_ssreflect all_algebra zify ring.
From Verif Require Import M_Base L_Base M_Lapack S_Lapack M_DiffusionUniform M_Diffusion S_Hdg S_Tpp S_LocalSolver S_Diffusion S_TppGeo.
From Verif Require Import L_Hdg L_HdgSrc L_LocalBase L_LocalLink L_DiffusionUniform L_DiffusionUniform2 L_Diffusion L_TppGeo L_Diffusion2.
From Verif Require Import M_Bilaplacian S_Bilaplacian L_Bilaplacian L_Bilaplacian2.
Set Implicit Arguments. Unset Strict Implicit. Unset Printing Implicit Defensive.
Import Order.TTheory GRing.Theory Num.Theory.
Local Open Scope ring_scope.

Section Data.
Variable F : realFieldType.
Variables (dim p : nat) (D : df_data F).
Hypothesis hD : diffusion_data dim p D.
(** With the plain mass matrix the data are those of a diffusion problem with coefficient 1. *)
Lemma unit_coefficient_data src dirval : diffusion_data dim p (unit_coefficient D src dirval).
Proof.
case: hD => b [Q [xs [ws [kappa [g [h1 h2 h3 h4 [c1 c2 c3 c4 c5]]]]]]].
exists b, Q, xs, ws, (fun=> 1), g; split=> //; first by move=> s _; exact: ltr01.
split=> // i j /=.
rewrite c2 (volE h1) -(quad_orthonormal h1 h2); congr (_ * _); apply: eq_bigr => s _; by rewrite mulr1.
Qed.
Lemma coefficient_sym : (\matrix_(i, j) df_vol D i j)^T = \matrix_(i, j) df_vol D i j :> 'M[F]_((p + 1) ^ dim).
Proof.
case: hD => b [Q [xs [ws [kappa [g [h1 h2 h3 h4 [c1 c2 c3 c4 c5]]]]]]].
apply/matrixP => i j; rewrite !mxE !c1; congr (_ * _); apply: eq_bigr => s _; congr (_ * _); exact: mulrC.
Qed.
Lemma coefficient_pos (v : 'cV[F]_((p + 1) ^ dim)) : v != 0 -> 0 < dotv v ((\matrix_(i, j) df_vol D i j) *m v).
Proof.
case: hD => b [Q [xs [ws [kappa [g [h1 h2 h3 h4 [c1 c2 c3 c4 c5]]]]]]] v0.
have -> : (\matrix_(i, j) df_vol D i j) = eg_area g *: quad_mass dim p Q b xs ws kappa :> 'M[F]_((p + 1) ^ dim).
  by apply/matrixP => i j; rewrite !mxE c1.
rewrite -scalemxAl dotvZr mulr_gt0 //; first by case: h4.
exact: quad_mass_pos.
Qed.
End Data.

Section Halves.
Variables (F : realFieldType) (nF nb : nat).
Implicit Types (x y : seq (seq F)).
Lemma tr_lowerE x (f : 'I_nF) (j : 'I_nb) : tr nb (lower nb x) f j 0 = lambda_at x f j :> F.
Proof. by rewrite mxE -/(lambda_at _ _ _) lower_at. Qed.
Lemma tr_upperE x (f : 'I_nF) (j : 'I_nb) : tr nb (upper nb x) f j 0 = lambda_at x f (nb + j) :> F.
Proof. by rewrite mxE -/(lambda_at _ _ _) upper_at. Qed.
Lemma comb_at c x y (f : 'I_nF) j : (j < 2 * nb)%N ->
  lambda_at (comb_trace c nF (2 * nb) x y) f j = c * lambda_at x f j + lambda_at y f j.
Proof. by move=> hj; rewrite /lambda_at (nth_mkseq [::]) // nth_mkseq. Qed.
Lemma tr_lower_comb c x y (f : 'I_nF) :
  tr nb (lower nb (comb_trace c nF (2 * nb) x y)) f = c *: tr nb (lower nb x) f + tr nb (lower nb y) f :> 'cV[F]_nb.
Proof.
apply/colP => j; rewrite tr_lowerE comb_at; last by have := ltn_ord j; lia.
by rewrite -!tr_lowerE [RHS]mxE; congr (_ + _); rewrite [RHS]mxE.
Qed.
Lemma tr_upper_comb c x y (f : 'I_nF) :
  tr nb (upper nb (comb_trace c nF (2 * nb) x y)) f = c *: tr nb (upper nb x) f + tr nb (upper nb y) f :> 'cV[F]_nb.
Proof.
apply/colP => j; rewrite tr_upperE comb_at; last by have := ltn_ord j; lia.
by rewrite -!tr_upperE [RHS]mxE; congr (_ + _); rewrite [RHS]mxE.
Qed.
End Halves.

Section Bilaplacian.
Variable F : realFieldType.
Variables (gesv : nat -> nat -> seq F -> seq F -> sv_result F).
Variables (dim p : nat) (dirs laps : seq nat) (tau : F) (P : bl_data F).
Hypotheses (dim0 : (0 < dim)%N) (hD : diffusion_data dim p (bl_df P)) (hg : gesv_correct gesv) (tau0 : 0 < tau).
Notation H := (bl_hdg dim p P).
Notation W := (bl_coef dim p P).
Notation nf := ((p + 1) ^ dim)%N.
Notation nb := ((p + 1) ^ (dim - 1))%N.
Notation mask := (face_dirichlet dirs (bl_df P)).
Notation mask2 := (face_dirichlet laps (bl_df P)).
Notation ttf := (bl_trace_to_flux gesv dim p dirs laps tau P).
Notation res := (bl_residual_flux gesv dim p dirs laps tau P).
Notation massf := (bl_trace_to_mass_flux gesv dim p dirs laps tau P).
Notation is_tr := (is_trace (2 * dim) (2 * nb)).
Notation lo x := (tr nb (lower nb x)).
Notation hi x := (tr nb (upper nb x)).
Notation pair := (pairing (2 * dim) nb).
Notation zero := (fun _ : 'I_dim => 0 : 'cV[F]_nf).
Implicit Types (out : seq (seq F)).

Lemma w_data : diffusion_data dim p (w_problem P). Proof. exact: unit_coefficient_data. Qed.
Lemma u_data : diffusion_data dim p (u_problem P). Proof. exact: unit_coefficient_data. Qed.
Lemma bl_ok : hdg_ok H. Proof. exact: (data_ok dim0 w_data). Qed.
Lemma bl_const : hdg_const H (cube_one F dim p) (unit_vec F nb). Proof. exact: (data_const dim0 w_data). Qed.
Lemma bl_grad : hdg_grad H (cube_one F dim p). Proof. exact: (data_grad dim0 w_data). Qed.
Lemma bl_coef_sym : W^T = W. Proof. exact: coefficient_sym. Qed.
Lemma bl_coef_pos v : v != 0 -> 0 < dotv v (W *m v). Proof. exact: coefficient_pos. Qed.
Lemma bl_coef_ge0 v : 0 <= dotv v (W *m v).
Proof. by have [->|/bl_coef_pos/ltW] := eqVneq v 0; first by rewrite dotv0l. Qed.
Lemma dotv_coef v w : dotv v (W *m w) = dotv w (W *m v).
Proof. by rewrite dotvC dotv_mxl bl_coef_sym. Qed.

(** ** The solves and the fluxes in the terms of the specification *)
Lemma bilap_solve0 x : is_tr x ->
  exists2 X, bl_solve_local_problem gesv dim p dirs laps tau P 0 x = Ok X &
    size X = ((dim + 1 + (dim + 1)) * nf)%N /\
    bi_hom dim p tau P x (qpart nf X) (upart nf dim X)
      (qpart nf (drop ((dim + 1) * nf) X)) (upart nf dim (drop ((dim + 1) * nf) X)).
Proof.
move=> hx; have := @bl_solve0 F gesv dim p dirs laps tau P dim0 hg.
rewrite (n_shape_fctE p dim0) n_shape_bdrE /= => h.
by have [X [h1 h2 h3 h4]] := h bl_ok tau0 _ hx; exists X.
Qed.
Lemma bilap_solve1 x : is_tr x ->
  exists2 X, bl_solve_local_problem gesv dim p dirs laps tau P 1 x = Ok X &
    size X = ((dim + 1 + (dim + 1)) * nf)%N /\
    bi_full dim p dirs laps tau P x (qpart nf X) (upart nf dim X)
      (qpart nf (drop ((dim + 1) * nf) X)) (upart nf dim (drop ((dim + 1) * nf) X)).
Proof.
move=> hx; have := @bl_solve1 F gesv dim p dirs laps tau P dim0 hg.
rewrite /df_rq_ /df_ru_ (n_shape_fctE p dim0) n_shape_bdrE /= => h.
by have [X [h1 h2 h3 h4]] := h bl_ok tau0 _ hx; exists X.
Qed.
Lemma bilap_solve_mass X0 :
  exists2 X, bl_solve_mass_problem gesv dim p tau P X0 = Ok X &
    size X = ((dim + 1 + (dim + 1)) * nf)%N /\
    bi_loc dim p tau P (qpart nf X) (upart nf dim X)
      (qpart nf (drop ((dim + 1) * nf) X)) (upart nf dim (drop ((dim + 1) * nf) X))
      (fun=> 0) (fun=> 0) zero 0 zero (df_mass_mx dim p (bl_df P) *m upart nf dim X0).
Proof.
have := @bl_solve_mass F gesv dim p tau P dim0 hg.
rewrite (n_shape_fctE p dim0) n_shape_bdrE /= => h.
by have [X [h1 h2 h3 h4]] := h bl_ok tau0 X0; exists X.
Qed.
Lemma bilap_solve_cor x X0 dt : dt != 0 -> is_tr x ->
  exists2 X, bl_solve_loc_prob_cor gesv dim p dirs laps tau P x X0 dt = Ok X &
    size X = ((dim + 1 + (dim + 1)) * nf)%N /\
    bi_loc dim p tau P (qpart nf X) (upart nf dim X)
      (qpart nf (drop ((dim + 1) * nf) X)) (upart nf dim (drop ((dim + 1) * nf) X))
      (lo x) (hi x) (df_rq p (u_problem P) mask) (df_ru dim p (u_problem P) tau mask)
      (df_rq p (w_problem P) mask2)
      (df_ru dim p (w_problem P) tau mask2 + dt^-1 *: (df_mass_mx dim p (bl_df P) *m upart nf dim X0)).
Proof.
move=> t0 hx; have := @bl_solve_cor F gesv dim p dirs laps tau P dim0 hg.
rewrite /df_rq_ /df_ru_ (n_shape_fctE p dim0) n_shape_bdrE /= => h.
by have [X [h1 h2 h3 h4]] := h bl_ok tau0 _ hx X0 _ t0; exists X.
Qed.
Lemma is_trP (x : seq (seq F)) : bl_lambda_ok dim p x <-> is_tr x.
Proof. by rewrite -n_shape_bdrE; exact: bl_lambda_okP. Qed.
Lemma bilap_write X (G : nat -> nat -> F) out (x y : 'I_(2 * dim) -> 'cV[F]_nb) : is_tr out ->
  (forall (f : 'I_(2 * dim)) (j : 'I_nb), G f j = tau * y f j 0 * df_area (bl_df P) f) ->
  (forall (f : 'I_(2 * dim)) (j : 'I_nb), G f (nb + j)%N = tau * x f j 0 * df_area (bl_df P) f) ->
  bi_flux dim p dirs laps tau P (qpart nf X) (upart nf dim X)
      (qpart nf (drop ((dim + 1) * nf) X)) (upart nf dim (drop ((dim + 1) * nf) X)) x y
    (bl_write dirs laps (bl_df P) (fun i j => lambda_at (bl_dual dim p (bl_df P) X) i j +
     tau * lambda_at (bl_primal dim p (bl_df P) X) i j - G i j) out).
Proof.
move=> ho h1 h2; have := @bl_flux_write F dim p dirs laps tau P dim0.
by rewrite (n_shape_fctE p dim0) n_shape_bdrE /= => /(_ _ ho X G x y h1 h2).
Qed.

Lemma bilap_flux x out : is_tr x -> is_tr out ->
  exists2 y, ttf x out = Ok y & exists q u r w,
    bi_hom dim p tau P x q u r w /\ bi_flux dim p dirs laps tau P q u r w (lo x) (hi x) y.
Proof.
move=> hx ho; have [X hX [sX lX]] := bilap_solve0 hx.
rewrite /bl_trace_to_flux !(iffRL (is_trP _)) // hX /=; eexists => //.
eexists; eexists; eexists; eexists; split; first exact: lX.
apply: (bilap_write X ho) => f j.
  rewrite [bl_shape_bdr _ _]n_shape_bdrE ltn_ord addnC tr_upperE //.
rewrite [bl_shape_bdr _ _]n_shape_bdrE ltnNge leq_addr /= addKn tr_lowerE //.
Qed.
Lemma bilap_residual x out : is_tr x -> is_tr out ->
  exists2 y, res x out = Ok y & exists q u r w,
    bi_full dim p dirs laps tau P x q u r w /\ bi_flux dim p dirs laps tau P q u r w (hi x) (lo x) y.
Proof.
move=> hx ho; have [X hX [sX lX]] := bilap_solve1 hx.
rewrite /bl_residual_flux !(iffRL (is_trP _)) // hX /=; eexists => //.
eexists; eexists; eexists; eexists; split; first exact: lX.
by apply: (bilap_write X ho) => f j; rewrite ?tr_upperE ?tr_lowerE.
Qed.
Lemma bilap_mass_write X out : is_tr out ->
  bi_flux dim p dirs laps tau P (qpart nf X) (upart nf dim X)
      (qpart nf (drop ((dim + 1) * nf) X)) (upart nf dim (drop ((dim + 1) * nf) X)) (fun=> 0) (fun=> 0)
    (bl_write dirs laps (bl_df P) (fun i j => lambda_at (bl_dual dim p (bl_df P) X) i j +
     tau * lambda_at (bl_primal dim p (bl_df P) X) i j) out).
Proof.
move=> ho; have := @bl_write_tr F dim p dirs laps P dim0.
have h1 := @bl_dual_lo F dim p P dim0; have h2 := @bl_dual_hi F dim p P dim0.
have h3 := @bl_primal_lo F dim p P dim0; have h4 := @bl_primal_hi F dim p P dim0.
move: h1 h2 h3 h4; rewrite (n_shape_fctE p dim0) n_shape_bdrE /= => h1 h2 h3 h4 h.
apply: h => // f j.
  by rewrite h1 h3 /num_flux scaler0 subr0 !mxE.
by rewrite h2 h4 /num_flux scaler0 subr0 !mxE.
Qed.
Lemma bilap_mass x out : is_tr x -> is_tr out ->
  exists2 y, massf x out = Ok y & exists q u r w q' u' r' w',
    [/\ bi_hom dim p tau P x q u r w,
        bi_loc dim p tau P q' u' r' w' (fun=> 0) (fun=> 0) zero 0 zero (df_mass_mx dim p (bl_df P) *m u)
      & bi_flux dim p dirs laps tau P q' u' r' w' (fun=> 0) (fun=> 0) y].
Proof.
move=> hx ho; have [X hX [sX lX]] := bilap_solve0 hx; have [Y hY [sY lY]] := bilap_solve_mass X.
rewrite /bl_trace_to_mass_flux /bl_mass_flux !(iffRL (is_trP _)) // hX /= hY /=; eexists => //.
do 8 eexists; split; [exact: lX | exact: lY | exact: bilap_mass_write].
Qed.
Lemma bilap_mass_total x out : is_tr x -> is_tr out ->
  exists2 y, bl_total_numerical_flux_mass gesv dim p dirs laps tau P x out = Ok y & exists q u r w q' u' r' w',
    [/\ bi_full dim p dirs laps tau P x q u r w,
        bi_loc dim p tau P q' u' r' w' (fun=> 0) (fun=> 0) zero 0 zero (df_mass_mx dim p (bl_df P) *m u)
      & bi_flux dim p dirs laps tau P q' u' r' w' (fun=> 0) (fun=> 0) y].
Proof.
move=> hx ho; have [X hX [sX lX]] := bilap_solve1 hx; have [Y hY [sY lY]] := bilap_solve_mass X.
rewrite /bl_total_numerical_flux_mass /bl_mass_flux !(iffRL (is_trP _)) // hX /= hY /=; eexists => //.
do 8 eexists; split; [exact: lX | exact: lY | exact: bilap_mass_write].
Qed.

(** ** Uniqueness and linearity *)
Implicit Types (q r rq rr : 'I_dim -> 'cV[F]_nf) (u w ru rw : 'cV[F]_nf) (x y : 'I_(2 * dim) -> 'cV[F]_nb).
Lemma bi_unique q u r w q' u' r' w' x y rq ru rr rw :
  bi_loc dim p tau P q u r w x y rq ru rr rw -> bi_loc dim p tau P q' u' r' w' x y rq ru rr rw ->
  [/\ forall d, q d = q' d, u = u', forall d, r d = r' d & w = w'].
Proof.
move=> [h1 h2] [h3 h4]; have [er ew] := src_unique bl_ok tau0 h1 h3.
by rewrite -ew in h4; have [eq eu] := src_unique bl_ok tau0 h2 h4.
Qed.
Lemma bi_lin c q u r w x y rq ru rr rw q' u' r' w' x' y' rq' ru' rr' rw' :
  bi_loc dim p tau P q u r w x y rq ru rr rw -> bi_loc dim p tau P q' u' r' w' x' y' rq' ru' rr' rw' ->
  bi_loc dim p tau P (fun d => c *: q d + q' d) (c *: u + u') (fun d => c *: r d + r' d) (c *: w + w')
    (fun f => c *: x f + x' f) (fun f => c *: y f + y' f)
    (fun d => c *: rq d + rq' d) (c *: ru + ru') (fun d => c *: rr d + rr' d) (c *: rw + rw').
Proof.
move=> [h1 h2] [h3 h4]; split; first exact: src_lin.
by apply: src_ext (src_lin c h2 h4) => //; rewrite mulmxDr -scalemxAr scalerDr addrACA.
Qed.
Lemma bi_ext q u r w x y rq ru rr rw x' y' rq' ru' rr' rw' :
  (forall f, x f = x' f) -> (forall f, y f = y' f) -> (forall d, rq d = rq' d) -> ru = ru' ->
  (forall d, rr d = rr' d) -> rw = rw' ->
  bi_loc dim p tau P q u r w x y rq ru rr rw -> bi_loc dim p tau P q u r w x' y' rq' ru' rr' rw'.
Proof. by move=> hx hy h1 -> h2 -> [h3 h4]; split; [apply: src_ext h3 | apply: src_ext h4]. Qed.
Lemma flux_bi_lin c q u r w x y o q' u' r' w' x' y' o' :
  bi_flux dim p dirs laps tau P q u r w x y o -> bi_flux dim p dirs laps tau P q' u' r' w' x' y' o' ->
  bi_flux dim p dirs laps tau P (fun d => c *: q d + q' d) (c *: u + u') (fun d => c *: r d + r' d) (c *: w + w')
    (fun f => c *: x f + x' f) (fun f => c *: y f + y' f) (comb_trace c (2 * dim) (2 * nb) o o').
Proof.
move=> [s1 a1 b1] [s2 a2 b2]; split=> [|f|f]; first exact: comb_is_trace.
  rewrite tr_lower_comb // a1 a2; case: ifP => _; first by rewrite scaler0 addr0.
  by rewrite flux_lin.
rewrite tr_upper_comb // b1 b2; case: ifP => _; first by rewrite scaler0 addr0.
by rewrite flux_lin.
Qed.
Lemma flux_bi_unique q u r w x y o q' u' r' w' x' y' o' :
  [/\ forall d, q d = q' d, u = u', forall d, r d = r' d & w = w'] -> (forall f, x f = x' f) -> (forall f, y f = y' f) ->
  bi_flux dim p dirs laps tau P q u r w x y o -> bi_flux dim p dirs laps tau P q' u' r' w' x' y' o' -> o = o'.
Proof.
move=> [eq eu er ew] hx hy [s1 a1 b1] [s2 a2 b2].
apply: (halves_ext s1 s2) => f; rewrite ?a1 ?a2 ?b1 ?b2; case: ifP => // _; exact: flux_ext.
Qed.
End Bilaplacian.
