(** Properties of the fluxes of DiffusionAdvectionReaction. *)
From mathcomp Require Import all_ssreflect all_algebra zify ring.
From Verif Require Import M_Base L_Base M_Index L_Index M_DenseLA M_Lapack S_Lapack M_DiffusionUniform M_Diffusion S_Hdg S_Tpp S_LocalSolver S_Diffusion S_TppGeo.
From Verif Require Import L_Hdg L_HdgSrc L_LocalBase L_LocalLink L_DiffusionUniform L_DiffusionUniform2 L_Diffusion L_TppGeo L_Diffusion2 L_Diffusion3.
From Verif Require Import S_DiffusionEigs M_AdvReact S_AdvReact L_ArHdg L_AdvReact.
Set Implicit Arguments. Unset Strict Implicit. Unset Printing Implicit Defensive.
Import Order.TTheory GRing.Theory Num.Theory.
Local Open Scope ring_scope.

(** ** Failures *)
Section Failures.
Variable F : realFieldType.
Variables (gesv : nat -> nat -> seq F -> seq F -> sv_result F).
Variables (dim p : nat) (dirs : seq nat) (tau : F) (P : ar_data F).
Notation nb := ((p + 1) ^ (dim - 1))%N.
Implicit Types (x y out : seq (seq F)).
Lemma ar_checked st x out t : ~ is_trace (2 * dim) nb x \/ ~ is_trace (2 * dim) nb out ->
  ar_flux gesv dim p dirs tau P st x out t = Abort /\ ar_mass_flux gesv dim p dirs tau P st x out t = Abort.
Proof. by rewrite /ar_flux /ar_mass_flux => -[/not_trace ->|/not_trace ->] //; rewrite andbF. Qed.
Lemma ar_checked_errors x t : ~ is_trace (2 * dim) nb x ->
  ar_errors gesv dim p dirs tau P x t = Abort /\ ar_make_initial dim p dirs P x t = Abort.
Proof. by rewrite /ar_errors /ar_make_initial /df_make_initial => /not_trace ->. Qed.
Lemma ar_failed st x out t : ar_solve_local_problem gesv dim p dirs tau P st x t = Abort ->
  ar_flux gesv dim p dirs tau P st x out t = Abort /\ ar_mass_flux gesv dim p dirs tau P st x out t = Abort.
Proof. by rewrite /ar_flux /ar_mass_flux => ->; case: (_ && _). Qed.
Lemma ar_lapack st x out t : (forall n nc A b, ~~ sv_info (gesv n nc A b)) ->
  ar_flux gesv dim p dirs tau P st x out t = Abort /\ ar_mass_flux gesv dim p dirs tau P st x out t = Abort.
Proof.
move=> hf; apply: ar_failed.
have hd r : ar_divide gesv dim p tau P t r = Abort.
  by rewrite /ar_divide /solve_const /solve_mut /= (negbTE (hf _ _ _ _)).
rewrite /ar_solve_local_problem /df_rhs_lambda.
by case: eqP => // _; case: lambda_ok; rewrite //= ?hd //; case: eqP => //= _; rewrite hd.
Qed.
Lemma ar_singular st x out t : (0 < dim)%N -> gesv_detects gesv -> ~ ar_regular dim p tau P t ->
  ar_flux gesv dim p dirs tau P st x out t = Abort /\ ar_mass_flux gesv dim p dirs tau P st x out t = Abort.
Proof.
move=> d0 hd hr; apply: ar_failed.
have := @ar_irregular_solve F gesv dim p dirs tau P t st x hd.
rewrite /arA_ /arR_ (n_shape_fctE p d0) n_shape_bdrE /=; exact.
Qed.
End Failures.

Section AdvReact.
Variable F : realFieldType.
Variables (gesv : nat -> nat -> seq F -> seq F -> sv_result F).
Variables (dim p : nat) (dirs : seq nat) (tau : F) (P : ar_data F) (t : F).
Hypotheses (dim0 : (0 < dim)%N) (hg : gesv_correct gesv) (hreg : ar_regular dim p tau P t).
Notation D := (ar_df P t).
Notation H := (ar_hdg dim p P t).
Notation nf := ((p + 1) ^ dim)%N.
Notation nb := ((p + 1) ^ (dim - 1))%N.
Notation mask := (ar_mask dirs P t).
Notation ttf x out := (ar_trace_to_flux gesv dim p dirs tau P x out t).
Notation res x out := (ar_residual_flux gesv dim p dirs tau P x out t).
Notation massf x out := (ar_trace_to_mass_flux gesv dim p dirs tau P x out t).
Notation is_tr := (is_trace (2 * dim) nb).
Notation pair := (pairing (2 * dim) nb).
Notation off := (vanishes mask (2 * dim) nb).
Notation zero := (fun _ : 'I_dim => 0 : 'cV[F]_nf).
Notation aloc := (ar_loc dim p tau P t).
Notation fof := (ar_flux_of dim p dirs tau P t).
Notation zt := (zero_trace F (2 * dim) nb).
Implicit Types (x y out : seq (seq F)).

Lemma lam_ok x : is_tr x -> lambda_ok dim p x.
Proof. by move=> hx; apply/lambda_okP; rewrite n_shape_bdrE. Qed.
Lemma zt_tr : is_tr zt.
Proof. by split; [exact: size_nseq | apply/allP => l /nseqP[-> _]; rewrite size_nseq]. Qed.

Lemma ar_sol0 x : is_tr x -> exists X, [/\ ar_solve_local_problem gesv dim p dirs tau P 0 x t = Ok X,
  size X = n_loc_dofs dim p & aloc (qpart nf X) (upart nf dim X) (tr nb x) zero 0].
Proof.
move=> hx; have := @ar_solve0 F gesv dim p dirs tau P t hg.
rewrite /arA_ /arR_ (n_shape_fctE p dim0) n_shape_bdrE /=; apply => //; exact: lam_ok.
Qed.
Lemma ar_sol1 x : is_tr x -> exists X, [/\ ar_solve_local_problem gesv dim p dirs tau P 1 x t = Ok X,
  size X = n_loc_dofs dim p & ar_full dim p dirs tau P t x (qpart nf X) (upart nf dim X)].
Proof.
move=> hx; have := @ar_solve1 F gesv dim p dirs tau P t hg.
rewrite /arA_ /arR_ /df_rq_ /df_ru_ (n_shape_fctE p dim0) n_shape_bdrE /=; apply => //; exact: lam_ok.
Qed.
Lemma ar_solm X0 : exists X, [/\ ar_solve_mass_problem gesv dim p tau P X0 t = Ok X,
  size X = n_loc_dofs dim p & aloc (qpart nf X) (upart nf dim X) (fun=> 0) zero (df_mass_mx dim p D *m upart nf dim X0)].
Proof.
have := @ar_solve_mass F gesv dim p tau P t hg.
by rewrite /arA_ /arR_ (n_shape_fctE p dim0) n_shape_bdrE /=; apply.
Qed.
Lemma ar_solc x X0 : is_tr x -> exists X, [/\ ar_solve_loc_prob_cor gesv dim p dirs tau P x X0 t = Ok X,
  size X = n_loc_dofs dim p & aloc (qpart nf X) (upart nf dim X) (tr nb x) (df_rq p D mask)
    (df_ru dim p D tau mask + df_mass_mx dim p D *m upart nf dim X0)].
Proof.
move=> hx; have := @ar_solve_cor F gesv dim p dirs tau P t hg.
rewrite /arA_ /arR_ /df_rq_ /df_ru_ (n_shape_fctE p dim0) n_shape_bdrE /=; apply => //; exact: lam_ok.
Qed.
Lemma ar_unique q u q' u' (x : 'I_(2 * dim) -> 'cV[F]_nb) rq ru : aloc q u x rq ru -> aloc q' u' x rq ru -> (forall d, q d = q' d) /\ u = u'.
Proof. exact: aloc_unique. Qed.
Lemma ar_writeE x out X : is_tr out ->
  fof x (qpart nf X) (upart nf dim X)
    (df_write dirs D (fun i j => mget (2 * dim) (df_dual dim p D X) i j + tau * mget (2 * dim) (df_primal dim p D X) i j
       - tau * lambda_at x i j * df_area D i) out).
Proof.
move=> ho; have := @df_flux_write F dim p dirs tau D x out.
by rewrite (n_shape_fctE p dim0) n_shape_bdrE /=; apply.
Qed.
Lemma ar_massE out X : is_tr out ->
  fof zt (qpart nf X) (upart nf dim X)
    (df_write dirs D (fun i j => mget (2 * dim) (df_dual dim p D X) i j + tau * mget (2 * dim) (df_primal dim p D X) i j) out).
Proof.
move=> ho; have := @df_mass_write F dim p dirs tau D out.
rewrite (n_shape_fctE p dim0) n_shape_bdrE /= => h; have [h1 h2] := h ho X; split=> // f.
rewrite h2 -[face_dirichlet dirs D f]/(mask f); case: (mask f) => //.
by apply: flux_ext; rewrite ?tr_zerob.
Qed.

Lemma ar_fluxP x out : is_tr x -> is_tr out -> exists y q u,
  [/\ ttf x out = Ok y, aloc q u (tr nb x) zero 0 & fof x q u y].
Proof.
move=> hx ho; have [X [hX _ h1]] := ar_sol0 hx.
rewrite /ar_trace_to_flux /ar_flux !lam_ok // hX /=.
by eexists; exists (qpart nf X), (upart nf dim X); split=> //; exact: ar_writeE.
Qed.
Lemma ar_residualP x out : is_tr x -> is_tr out -> exists y q u,
  [/\ res x out = Ok y, ar_full dim p dirs tau P t x q u & fof x q u y].
Proof.
move=> hx ho; have [X [hX _ h1]] := ar_sol1 hx.
rewrite /ar_residual_flux /ar_flux !lam_ok // hX /=.
by eexists; exists (qpart nf X), (upart nf dim X); split=> //; exact: ar_writeE.
Qed.
Lemma ar_massP x out : is_tr x -> is_tr out -> exists y q u q' u',
  [/\ massf x out = Ok y, aloc q u (tr nb x) zero 0, aloc q' u' (fun=> 0) zero (df_mass_mx dim p D *m u) &
      fof zt q' u' y].
Proof.
move=> hx ho; have [X [hX _ h1]] := ar_sol0 hx; have [Y [hY _ h2]] := ar_solm X.
rewrite /ar_trace_to_mass_flux /ar_mass_flux !lam_ok // hX /= hY /=.
by eexists; exists (qpart nf X), (upart nf dim X), (qpart nf Y), (upart nf dim Y); split=> //; exact: ar_massE.
Qed.
Lemma ar_totalP x out : is_tr x -> is_tr out -> exists y q u q' u',
  [/\ ar_total_numerical_flux_mass gesv dim p dirs tau P x out t = Ok y,
      ar_full dim p dirs tau P t x q u, aloc q' u' (fun=> 0) zero (df_mass_mx dim p D *m u) &
      fof zt q' u' y].
Proof.
move=> hx ho; have [X [hX _ h1]] := ar_sol1 hx; have [Y [hY _ h2]] := ar_solm X.
rewrite /ar_total_numerical_flux_mass /ar_mass_flux !lam_ok // hX /= hY /=.
by eexists; exists (qpart nf X), (upart nf dim X), (qpart nf Y), (upart nf dim Y); split=> //; exact: ar_massE.
Qed.

(** ** Linearity *)
Lemma fof_lin c x q u y x' q' u' y' : fof x q u y -> fof x' q' u' y' ->
  fof (comb_trace c (2 * dim) nb x x') (fun d => c *: q d + q' d) (c *: u + u') (comb_trace c (2 * dim) nb y y').
Proof.
move=> [sy f1] [sy' f2]; split=> [|f]; first exact: comb_is_trace.
rewrite tr_comb f1 f2; case: ifP => _; first by rewrite scaler0 addr0.
by rewrite -flux_lin; apply: flux_ext => //; rewrite tr_comb.
Qed.
Lemma fof_ext x q u y q' u' y' : (forall d, q d = q' d) -> u = u' -> fof x q u y -> fof x q' u' y' -> y = y'.
Proof.
move=> hq hu [sy f1] [sy' f2]; apply: trace_ext sy sy' _ => f; rewrite f1 f2; case: ifP => // _.
exact: flux_ext.
Qed.
Lemma ar_linear c x x' out out' out'' : is_tr x -> is_tr x' -> is_tr out -> is_tr out' -> is_tr out'' ->
  exists y y', [/\ ttf x out = Ok y, ttf x' out' = Ok y' &
    ttf (comb_trace c (2 * dim) nb x x') out'' = Ok (comb_trace c (2 * dim) nb y y')].
Proof.
move=> hx hx' ho ho' ho''.
have [y [q [u [hy h1 f1]]]] := ar_fluxP hx ho; have [y' [q' [u' [hy' h2 f2]]]] := ar_fluxP hx' ho'.
have [z [qz [uz [hz hz' fz]]]] := ar_fluxP (comb_is_trace _ _ c x x') ho''.
exists y, y'; split => //; rewrite hz; congr Ok.
have h3 : aloc (fun d => c *: q d + q' d) (c *: u + u') (tr nb (comb_trace c (2 * dim) nb x x')) zero 0.
  by apply: aloc_ext (aloc_lin c h1 h2) => // [f|d|]; rewrite ?tr_comb ?scaler0 ?addr0.
have [eq eu] := ar_unique hz' h3.
exact: (fof_ext eq eu fz (fof_lin c f1 f2)).
Qed.
Lemma ar_affine x out out' out'' : is_tr x -> is_tr out -> is_tr out' -> is_tr out'' ->
  exists y y0, [/\ ttf x out = Ok y, res zt out' = Ok y0 & res x out'' = Ok (comb_trace 1 (2 * dim) nb y y0)].
Proof.
move=> hx ho ho' ho''.
have [y [q [u [hy h1 f1]]]] := ar_fluxP hx ho; have [y0 [q0 [u0 [hy0 h2 f2]]]] := ar_residualP zt_tr ho'.
have [z [qz [uz [hz hz' fz]]]] := ar_residualP hx ho''.
exists y, y0; split => //; rewrite hz; congr Ok.
have ex : comb_trace 1 (2 * dim) nb x zt = x.
  apply: trace_ext (comb_is_trace _ _ _ _ _) hx _ => f.
  by rewrite tr_comb tr_zerob addr0 scale1r.
have h3 : ar_full dim p dirs tau P t x (fun d => 1 *: q d + q0 d) (1 *: u + u0).
  by apply: aloc_ext (aloc_lin 1 h1 h2) => // [f|d|]; rewrite ?tr_zerob ?scaler0 ?scale1r ?addr0 ?add0r.
have [eq eu] := ar_unique hz' h3.
by have := fof_lin 1 f1 f2; rewrite ex; exact: (fof_ext eq eu fz).
Qed.
Lemma ar_mass_linear c x x' out out' out'' : is_tr x -> is_tr x' -> is_tr out -> is_tr out' -> is_tr out'' ->
  exists y y', [/\ massf x out = Ok y, massf x' out' = Ok y' &
    massf (comb_trace c (2 * dim) nb x x') out'' = Ok (comb_trace c (2 * dim) nb y y')].
Proof.
move=> hx hx' ho ho' ho''.
have [y [q [u [q2 [u2 [hy h1 h1' f1]]]]]] := ar_massP hx ho.
have [y' [q' [u' [q2' [u2' [hy' h2 h2' f2]]]]]] := ar_massP hx' ho'.
have [z [qz [uz [qz2 [uz2 [hz hz' hz'' fz]]]]]] := ar_massP (comb_is_trace _ _ c x x') ho''.
exists y, y'; split => //; rewrite hz; congr Ok.
have h3 : aloc (fun d => c *: q d + q' d) (c *: u + u') (tr nb (comb_trace c (2 * dim) nb x x')) zero 0.
  by apply: aloc_ext (aloc_lin c h1 h2) => // [f|d|]; rewrite ?tr_comb ?scaler0 ?addr0.
have [_ eu] := ar_unique hz' h3.
have h4 : aloc (fun d => c *: q2 d + q2' d) (c *: u2 + u2') (fun=> 0) zero (df_mass_mx dim p D *m uz).
  apply: aloc_ext (aloc_lin c h1' h2') => // [f|d|]; rewrite ?scaler0 ?addr0 // eu.
  by rewrite mulmxDr scalemxAr.
have [eq eu2] := ar_unique hz'' h4.
have ez : comb_trace c (2 * dim) nb zt zt = zt.
  by apply: trace_ext (comb_is_trace _ _ _ _ _) zt_tr _ => f; rewrite tr_comb !tr_zerob scaler0 addr0.
by have := fof_lin c f1 f2; rewrite ez; exact: (fof_ext eq eu2 fz).
Qed.

(** ** Errors, values *)
Lemma ar_errorsP x : is_tr x -> exists q u, ar_full dim p dirs tau P t x q u /\
  ar_errors gesv dim p dirs tau P x t = Ok [:: df_diffsq D (coeffs_of u)].
Proof.
move=> hx; have [X [h1 _ h3]] := ar_sol1 hx.
exists (qpart nf X), (upart nf dim X); split => //.
rewrite /ar_errors lam_ok // h1 /=; congr (Ok [:: df_diffsq _ _]).
rewrite /df_u_coeffs coeffs_mkseq (n_shape_fctE p dim0); congr coeffs_of.
by apply/colP => i; rewrite !mxE addnC.
Qed.
Lemma ar_bulkP x absc : is_tr x -> exists q u, ar_full dim p dirs tau P t x q u /\
  ar_bulk_values gesv dim p dirs tau P absc x t =
  Ok (rcons [seq mkseq (df_eval D absc (coeffs_of (q d))) (size absc ^ dim) | d <- enum 'I_dim]
            (mkseq (df_eval D absc (coeffs_of u)) (size absc ^ dim))).
Proof.
move=> hx; have [X [h1 _ h3]] := ar_sol1 hx.
exists (qpart nf X), (upart nf dim X); split => //.
rewrite /ar_bulk_values h1 /= hc_powE; congr Ok.
have hc d : mkseq (fun i => nth 0 X (d * n_shape_fct dim p + i)) (n_shape_fct dim p) =
    coeffs_of (\col_(i < nf) nth 0 X (d * nf + i)) by rewrite (n_shape_fctE p dim0) coeffs_mkseq.
rewrite {1}/mkseq iotaD map_cat cats1; congr rcons; last by rewrite hc.
by rewrite -(val_enum_ord dim) -map_comp; apply: eq_map => d /=; rewrite hc.
Qed.
Lemma ar_errors_tempP dt x xo : ar_regular dim p tau P (t - dt) -> is_tr x -> is_tr xo ->
  exists q u qo uo q' u', [/\ ar_full dim p dirs tau P t x q u, ar_full dim p dirs tau P (t - dt) xo qo uo,
    aloc q' u' (tr nb x) (df_rq p D mask)
      (df_ru dim p D tau mask + df_mass_mx dim p D *m (dt^-1 *: (uo - u))) &
    ar_errors_temp gesv dim p dirs tau P dt x xo t = Ok (df_diffsq D (coeffs_of u'))].
Proof.
move=> hro hx hxo; have [X [h1 s1 h3]] := ar_sol1 hx.
have [Xo [h1o s1o h3o]] : exists X, [/\ ar_solve_local_problem gesv dim p dirs tau P 1 xo (t - dt) = Ok X,
  size X = n_loc_dofs dim p & ar_full dim p dirs tau P (t - dt) xo (qpart nf X) (upart nf dim X)].
  have := @ar_solve1 F gesv dim p dirs tau P (t - dt) hg.
  rewrite /arA_ /arR_ /df_rq_ /df_ru_ (n_shape_fctE p dim0) n_shape_bdrE /=; apply => //; exact: lam_ok.
pose X0 := mkseq (fun i => (nth 0 Xo i - nth 0 X i) / dt) (n_loc_dofs dim p).
have hX0 : upart nf dim X0 = dt^-1 *: (upart nf dim Xo - upart nf dim X) :> 'cV[F]_nf.
  apply/colP => i; rewrite !mxE nth_mkseq ?[dt^-1 * _]mulrC //.
  by rewrite /n_loc_dofs (n_shape_fctE p dim0) ; apply: block_lt; rewrite ?addn1.
have [Y [hY sY lY]] := ar_solc X0 hx.
exists (qpart nf X), (upart nf dim X), (qpart nf Xo), (upart nf dim Xo), (qpart nf Y), (upart nf dim Y).
split => //; first by rewrite -hX0.
rewrite /ar_errors_temp !lam_ok //= h1 /= h1o /= -/X0 hY /=; congr (Ok (df_diffsq _ _)).
rewrite /df_u_coeffs coeffs_mkseq (n_shape_fctE p dim0); congr coeffs_of.
by apply/colP => i; rewrite !mxE addnC.
Qed.

(** ** Balance *)
Hypothesis hD : diffusion_data dim p D.
Lemma ar_pair x y q u : off x -> fof x q u y ->
  pair x y = \sum_f dotv (tr nb x f) (num_flux H tau q u (tr nb x) f).
Proof. by move=> ox [_ f1]; exact: (pairing_mask ox f1). Qed.
Lemma ar_sum_flux x y q u : (forall f, (f < 2 * dim)%N -> ~~ mask f) -> fof x q u y ->
  \sum_(f < 2 * dim) nth 0 (nth [::] y f) 0 = \sum_f dotv (unit_vec F nb) (num_flux H tau q u (tr nb x) f).
Proof.
move=> nm [_ f1]; rewrite -(pairing_const dim p).
have oc : off (const_trace (1 : F) (2 * dim) nb) by move=> f j hf _ hm; move: (nm f hf); rewrite hm.
rewrite (pairing_mask oc f1); apply: eq_bigr => f _; congr dotv.
by apply/colP => j; rewrite !mxE nth_nseq ltn_ord nth_mkseq //; case: eqP.
Qed.
(** The coefficient of the constant function. *)
Lemma dot_one (v : 'cV[F]_nf) (i0 : 'I_nf) : (i0 : nat) = 0%N -> dotv (cube_one F dim p) v = v i0 0.
Proof.
move=> h0; rewrite /dotv (sum_ord1 (i := i0)) => [|j hj]; first by rewrite !mxE h0 eqxx mul1r.
by move: hj; rewrite h0 !mxE => /negbTE ->; rewrite mul0r.
Qed.
Lemma ar_conserved x out : is_tr x -> is_tr out -> (forall f, (f < 2 * dim)%N -> ~~ mask f) ->
  exists y q u, [/\ res x out = Ok y, ar_full dim p dirs tau P t x q u &
    \sum_(f < 2 * dim) nth 0 (nth [::] y f) 0 =
    df_src D 0 - \sum_(j < nf) ar_react P t 0 j * u j 0].
Proof.
move=> hx ho nm; have [y [q [u [hy h1 f1]]]] := ar_residualP hx ho; exists y, q, u; split=> //.
rewrite (ar_sum_flux nm f1) (adv_balance (data_ok dim0 hD) (data_const dim0 hD) h1).
have nf0 : (0 < nf)%N by rewrite expn_gt0 addn1.
rewrite !(@dot_one _ (Ordinal nf0)) // /df_ru big_pred0 => [|f]; last by rewrite (negbTE (nm _ (ltn_ord f))).
rewrite scaler0 addr0 !mxE /=; congr (_ - _).
by apply: eq_bigr => j _; rewrite !mxE.
Qed.
Lemma ar_zero_trace q u rq ru : aloc q u (fun=> 0) rq ru -> aloc q u (tr nb zt) rq ru.
Proof. by move=> h; apply: aloc_ext h => // f; rewrite tr_zerob. Qed.
End AdvReact.
