(** Diffusion: failures, initial values, errors and values in the bulk. *)
From mathcomp Require Import all_ssreflect all_algebra zify.
From Verif Require Import M_Base L_Base M_Index L_Index M_Lapack S_Lapack M_DiffusionUniform M_Diffusion S_Hdg S_Tpp S_LocalSolver S_Diffusion S_TppGeo.
From Verif Require Import L_Hdg L_HdgSrc L_LocalBase L_LocalLink L_DiffusionUniform L_DiffusionUniform2 L_Diffusion L_TppGeo L_Diffusion2.
Set Implicit Arguments. Unset Strict Implicit. Unset Printing Implicit Defensive.
Import Order.TTheory GRing.Theory Num.Theory.
Local Open Scope ring_scope.

Section Failures.
Variable F : realFieldType.
Variables (gesv : nat -> nat -> seq F -> seq F -> sv_result F).
Variables (dim p : nat) (dirs : seq nat) (tau : F) (D : df_data F) (ig : integrator F).
Notation nb := ((p + 1) ^ (dim - 1))%N.
Implicit Types (x y out : seq (seq F)).
Lemma not_trace x : ~ is_trace (2 * dim) nb x -> lambda_ok dim p x = false.
Proof. by rewrite -n_shape_bdrE => h; apply/negP => /lambda_okP. Qed.
Lemma uniform_checked x out : ~ is_trace (2 * dim) nb x \/ ~ is_trace (2 * dim) nb out ->
  trace_to_flux gesv dim p ig tau x out = Abort.
Proof. by rewrite /trace_to_flux => -[/not_trace ->|/not_trace ->] //; rewrite andbF. Qed.
Lemma uniform_lapack x out : (forall n nc A b, ~~ sv_info (gesv n nc A b)) ->
  trace_to_flux gesv dim p ig tau x out = Abort.
Proof.
move=> hf; rewrite /trace_to_flux; case: (_ && _) => //.
rewrite /solve_local_problem /assemble_rhs; case: lambda_ok => //.
by rewrite /obind /solve_const /solve_mut /= (negbTE (hf _ _ _ _)).
Qed.
Lemma diffusion_checked st x out : ~ is_trace (2 * dim) nb x \/ ~ is_trace (2 * dim) nb out ->
  df_flux gesv dim p dirs tau D st x out = Abort /\ df_mass_flux gesv dim p dirs tau D st x out = Abort.
Proof. by rewrite /df_flux /df_mass_flux => -[/not_trace ->|/not_trace ->] //; rewrite andbF. Qed.
Lemma diffusion_lapack st x out : (forall n nc A b, ~~ sv_info (gesv n nc A b)) ->
  df_flux gesv dim p dirs tau D st x out = Abort /\ df_mass_flux gesv dim p dirs tau D st x out = Abort.
Proof.
move=> hf; have hd r : df_divide gesv dim p tau D r = Abort.
  by rewrite /df_divide /solve_const /solve_mut /= (negbTE (hf _ _ _ _)).
have hs : df_solve_local_problem gesv dim p dirs tau D st x = Abort.
  rewrite /df_solve_local_problem /df_rhs_lambda.
  by case: eqP => // _; case: lambda_ok; rewrite //= ?hd //; case: eqP => //= _; rewrite hd.
by rewrite /df_flux /df_mass_flux hs /=; case: (_ && _).
Qed.
End Failures.

Section Diffusion.
Variable F : realFieldType.
Lemma coeffs_mkseq n (G : nat -> F) : mkseq G n = coeffs_of (\col_(i < n) G i).
Proof. by rewrite /mkseq -val_enum_ord -map_comp; apply: eq_map => i; rewrite /= mxE. Qed.

Variables (gesv : nat -> nat -> seq F -> seq F -> sv_result F).
Variables (dim p : nat) (dirs : seq nat) (tau : F).
Hypotheses (dim0 : (0 < dim)%N) (hg : gesv_correct gesv) (tau0 : 0 < tau).
Notation H D := (df_hdg dim p D).
Notation nf := ((p + 1) ^ dim)%N.
Notation nb := ((p + 1) ^ (dim - 1))%N.
Notation mask D := (face_dirichlet dirs D).
Notation is_tr := (is_trace (2 * dim) nb).
Implicit Types (D : df_data F) (x y out : seq (seq F)).

Notation full_solution := (@full_solution _ dim p dirs tau).
Lemma full_solve D x : diffusion_data dim p D -> is_tr x ->
  exists X, [/\ df_solve_local_problem gesv dim p dirs tau D 1 x = Ok X,
    size X = n_loc_dofs dim p, df_u_coeffs dim p X = coeffs_of (upart nf dim X)
    & full_solution D x (qpart nf X) (upart nf dim X)].
Proof.
move=> hD hx; have := @df_solve1 F gesv dim p dirs tau D x hg.
rewrite /full_solution /df_u_coeffs /df_rq_ /df_ru_.
rewrite (n_shape_fctE p dim0) n_shape_bdrE /= => h.
have [|//||X [h1 h2 h3]] := h; first exact: data_ok.
  by apply/lambda_okP; rewrite n_shape_bdrE.
exists X; split => //; rewrite coeffs_mkseq; congr coeffs_of.
by apply/colP => i; rewrite !mxE addnC.
Qed.
Lemma full_unique D x q u q' u' : diffusion_data dim p D -> full_solution D x q u -> full_solution D x q' u' ->
  (forall d, q d = q' d) /\ u = u'.
Proof. move=> hD; exact: (src_unique (data_ok dim0 hD) tau0). Qed.

Lemma diffusion_errors D x : diffusion_data dim p D -> is_tr x ->
  exists q u, full_solution D x q u /\
    df_errors gesv dim p dirs tau D x = Ok [:: df_diffsq D (coeffs_of u)].
Proof.
move=> hD hx; have [X [h1 _ h2 h3]] := full_solve hD hx.
exists (qpart nf X), (upart nf dim X); split => //.
by rewrite /df_errors (iffRL (lambda_okP _ _ _)) ?n_shape_bdrE // h1 /= h2.
Qed.
Lemma diffusion_bulk D x absc : diffusion_data dim p D -> is_tr x ->
  exists q u, full_solution D x q u /\
    df_bulk_values gesv dim p dirs tau D absc x =
    Ok (rcons [seq mkseq (df_eval D absc (coeffs_of (q d))) (size absc ^ dim) | d <- enum 'I_dim]
              (mkseq (df_eval D absc (coeffs_of u)) (size absc ^ dim))).
Proof.
move=> hD hx; have [X [h1 _ h2 h3]] := full_solve hD hx.
exists (qpart nf X), (upart nf dim X); split => //.
rewrite /df_bulk_values h1 /= hc_powE; congr Ok.
have hc d : mkseq (fun i => nth 0 X (d * n_shape_fct dim p + i)) (n_shape_fct dim p) =
    coeffs_of (\col_(i < nf) nth 0 X (d * nf + i)) by rewrite (n_shape_fctE p dim0) coeffs_mkseq.
rewrite {1}/mkseq iotaD map_cat cats1; congr rcons; last by rewrite hc.
by rewrite -(val_enum_ord dim) -map_comp; apply: eq_map => d /=; rewrite hc.
Qed.
Lemma diffusion_initial D out : is_tr out ->
  df_make_initial dim p dirs D out =
  Ok (mkseq (fun f => mkseq (fun j => if mask D f then 0 else df_initial D j f) nb) (2 * dim)).
Proof.
by rewrite -n_shape_bdrE => ho; rewrite /df_make_initial (iffRL (lambda_okP _ _ _)) // (df_writeE dirs D _ ho).
Qed.
(** The solution at the new time with the difference quotient in time as an additional source. *)
Lemma diffusion_errors_temp D Do dt x xo : diffusion_data dim p D -> diffusion_data dim p Do ->
  is_tr x -> is_tr xo ->
  exists q u qo uo q' u', [/\ full_solution D x q u, full_solution Do xo qo uo,
    loc_src (H D) tau q' u' (tr nb x) (df_rq p D (mask D))
      (df_ru dim p D tau (mask D) + df_mass_mx dim p D *m (dt^-1 *: (uo - u))) &
    df_errors_temp gesv dim p dirs tau D Do dt x xo = Ok (df_diffsq D (coeffs_of u'))].
Proof.
move=> hD hDo hx hxo; have [X [h1 s1 h2 h3]] := full_solve hD hx.
have [Xo [h1o s1o h2o h3o]] := full_solve hDo hxo.
pose X0 := mkseq (fun i => (nth 0 Xo i - nth 0 X i) / dt) (n_loc_dofs dim p).
have := @df_solve_cor F gesv dim p dirs tau D x hg.
rewrite /df_rq_ /df_ru_.
have := erefl (df_errors_temp gesv dim p dirs tau D Do dt x xo).
rewrite {2}/df_errors_temp !(iffRL (lambda_okP _ _ _)) ?n_shape_bdrE // h1 h1o /=.
rewrite -/X0 /df_u_coeffs.
have hX0 : upart nf dim X0 = dt^-1 *: (upart nf dim Xo - upart nf dim X) :> 'cV[F]_nf.
  apply/colP => i; rewrite !mxE nth_mkseq ?[dt^-1 * _]mulrC //.
  by rewrite /n_loc_dofs (n_shape_fctE p dim0) ; apply: block_lt; rewrite ?addn1.
rewrite (n_shape_fctE p dim0) /= => e0 h.
have [|//|//|Y [hY sY lY]] := h _ _ X0; first exact: data_ok.
exists (qpart nf X), (upart nf dim X), (qpart nf Xo), (upart nf dim Xo), (qpart nf Y), (upart nf dim Y).
split => //; first by rewrite -hX0.
rewrite e0 hY /=; congr (Ok (df_diffsq _ _)); rewrite coeffs_mkseq; congr coeffs_of.
by apply/colP => i; rewrite !mxE addnC.
Qed.
End Diffusion.
