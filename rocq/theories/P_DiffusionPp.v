(** Properties C104, C105: the local solver DiffusionPostprocess.  The integrals of TPP and the LAPACK solver enter
    with the contracts of S_DiffusionPp and S_LocalSolver.  Statements only; proofs are in L_DiffusionPp2, L_Diffusion2
    and L_PpEx. *)
From mathcomp Require Import all_ssreflect all_algebra.
From Verif Require Import M_Base M_Lapack S_Lapack S_Hdg S_Tpp M_DiffusionUniform M_Diffusion S_LocalSolver S_Diffusion S_TppGeo.
From Verif Require Import S_Gradient M_DiffusionPp S_DiffusionPp L_Diffusion2 L_DiffusionPp L_DiffusionPp2 L_PpEx L_DiffusionUniform2.
Set Implicit Arguments. Unset Strict Implicit. Unset Printing Implicit Defensive.
Import Order.TTheory GRing.Theory Num.Theory.
Local Open Scope ring_scope.

Section Local.
Variable F : realFieldType.
Variables (gesv : nat -> nat -> seq F -> seq F -> sv_result F).
Variables (dim p : nat) (dirs : seq nat) (tau : F) (S : pp_setting F dim) (P : pp_data F).
Hypotheses (dim0 : (0 < dim)%N) (hS : setting_ok p S P).
Let nF := (2 * dim)%N.
Let nb := ((p + 1) ^ (dim - 1))%N.
Let nf := ((p + 1) ^ dim)%N.
Let npp := ((p + 1 + 1) ^ dim)%N.
Let errors := pp_errors gesv dim p dirs tau P.
Let mask (f : nat) : bool := nth 0%N (df_types (pp_df P)) f \in dirs.

(** * C104 fluxes and post-processed errors *)
Section Solver.
Hypotheses (hg : gesv_correct gesv) (tau0 : 0 < tau).
Theorem C104_flux x out : is_trace nF nb x -> is_trace nF nb out ->
  exists2 y, pp_trace_to_flux gesv dim p dirs tau P x out = Ok y &
    flux_src (df_hdg dim p (pp_df P)) tau mask x (fun _ => 0) 0 y.
Proof. by move=> *; apply: diffusion_flux => //; exact: (setting_data dim0 hS). Qed.
Theorem C104_residual x out : is_trace nF nb x -> is_trace nF nb out ->
  exists2 y, pp_residual_flux gesv dim p dirs tau P x out = Ok y
    & flux_src (df_hdg dim p (pp_df P)) tau mask x (df_rq p (pp_df P) mask) (df_ru dim p (pp_df P) tau mask) y.
Proof. by move=> *; apply: diffusion_residual => //; exact: (setting_data dim0 hS). Qed.
(** The error is measured for the post-processed solution of the local problem with source and boundary values. *)
Theorem C104_errors x : is_trace nF nb x -> exists q u (v : 'cV[F]_npp),
  [/\ full_solution dirs tau (pp_df P) x q u, postprocessed P q u v & errors x = Ok [:: pp_diffsq P (coeffs_of v)]].
Proof. exact: (pp_errors_ok dirs dim0 hS hg tau0). Qed.
End Solver.
(** There is exactly one post-processed solution. *)
Theorem C104_exists (q : 'I_dim -> 'cV[F]_nf) (u : 'cV[F]_nf) : exists v : 'cV[F]_npp, postprocessed P q u v.
Proof. exact: (pp_exists dim0 hS). Qed.
Theorem C104_unique (q : 'I_dim -> 'cV[F]_nf) (u : 'cV[F]_nf) (v v' : 'cV[F]_npp) :
  postprocessed P q u v -> postprocessed P q u v' -> v = v'.
Proof. exact: (pp_unique dim0 hS). Qed.
(** Wrong sizes end in an assertion.  A failure of LAPACK in the post-processing leaves the function as an exception. *)
Theorem C104_checked x : ~ is_trace nF nb x -> errors x = Abort.
Proof. by move=> hx; apply: pp_checked. Qed.
Theorem C104_throw X x : is_trace nF nb x -> df_solve_local_problem gesv dim p dirs tau (pp_df P) 1 x = Ok X ->
  ~~ sv_info (gesv npp 1%N (pp_matrix dim p P) (pp_vector dim p P X)) -> errors x = Throw.
Proof. by move=> *; apply: (@pp_throw F gesv dim p dirs tau P) => //; eassumption. Qed.

(** * C105 the post-processed solution *)
Let W := quad_weight (st_Qp S) (st_wp S) dim.
(** The function with coefficients v and its gradient at quadrature point s, for degrees p and p + 1. *)
Let val (u : 'cV[F]_nf) s := fn_at (st_b S) (st_Qp S) (st_xp S) u s.
Let val' (v : 'cV[F]_npp) s := fn_at (st_b S) (st_Qp S) (st_xp S) v s.
Let grad (v : 'cV[F]_npp) d s := fn_grad (st_b S) (st_Qp S) (st_xp S) (st_geo S) v d s.
Section Function.
Variables (q : 'I_dim -> 'cV[F]_nf) (u : 'cV[F]_nf) (v : 'cV[F]_npp).
Hypothesis hv : postprocessed P q u v.
(** It has the mean of the solution. *)
Theorem C105_mean : \sum_(s < st_Qp S ^ dim) W s * val' v s = \sum_(s < st_Qp S ^ dim) W s * val u s.
Proof. exact: (pp_mean dim0 hS hv). Qed.
(** Its flux and the flux of the local problem have the same work on the gradients of polynomials of degree p + 1. *)
Theorem C105_weak w : \sum_(s < st_Qp S ^ dim) W s * (\sum_d st_coef S s * grad v d s * grad w d s) =
  - (\sum_(s < st_Qp S ^ dim) W s * (\sum_d val (q d) s * grad w d s)).
Proof. exact: (pp_weak hS w hv). Qed.
(** If the flux of the local problem is that of a polynomial w of degree p + 1, it is w up to a constant. *)
Theorem C105_exact w :
  (forall d s, (s < st_Qp S ^ dim)%N -> val (q d) s = - (st_coef S s * grad w d s)) ->
  v = w + const_fn npp (nth 0 (coeffs_of u) 0 - nth 0 (coeffs_of w) 0).
Proof. exact: (pp_exact dim0 hS hv). Qed.
End Function.
(** Constants are reproduced. *)
Theorem C105_constant c : gesv_correct gesv -> 0 < tau ->
  (forall i, (i < nf)%N -> df_src (pp_df P) i = 0) -> (forall f, (f < nF)%N -> ~~ mask f) ->
  errors (const_trace c nF nb) = Ok [:: pp_diffsq P (coeffs_of (const_fn npp c))].
Proof. exact: (pp_constant dim0 hS c). Qed.
End Local.
Print Assumptions C104_flux.
Print Assumptions C104_residual.
Print Assumptions C104_errors.
Print Assumptions C104_exists.
Print Assumptions C104_unique.
Print Assumptions C104_checked.
Print Assumptions C104_throw.
Print Assumptions C105_mean.
Print Assumptions C105_weak.
Print Assumptions C105_exact.
Print Assumptions C105_constant.

Example C104_example (F : rcfType) dim src dirval (init : nat -> nat -> F) (diffsq : seq F -> F)
    (eval : seq F -> seq F -> nat -> F) types ppsq :
  exists (S : pp_setting F dim) (P : pp_data F), [/\ setting_ok 1 S P, df_src (pp_df P) = src,
    df_dirval (pp_df P) = dirval, df_types (pp_df P) = types & pp_diffsq P = ppsq].
Proof. exact: (pp_setting_exists dim src dirval init diffsq eval types ppsq). Qed.
Example C104_lapack (F : realFieldType) : gesv_correct (@inv_gesv F).
Proof. exact: inv_gesv_correct. Qed.
