(** Model of include/HyperHDG/local_solver/diffusion_ldgh_pp.hxx (class DiffusionPostprocess).  The local
    matrix (649-696), the right-hand sides (709-783), solve_local_problem (354-378), the boundary values
    (823-877), trace_to_flux (441-475), residual_flux (505-541), node_types (479-492) and bulk_values (896-922)
    have the text of diffusion_ldgh.hxx, so the definitions of M_Diffusion are used; only [errors] differs.
    Simplifications: those of M_Diffusion; the integrals of the second integrator (251-256, of higher
    quadrature degree, for polynomials of degree poly_deg + 1) are further data. *)
From mathcomp Require Import all_ssreflect all_algebra.
From Verif Require Import M_Base M_Index M_DenseLA M_Lapack M_DiffusionUniform M_Diffusion.
Set Implicit Arguments. Unset Strict Implicit. Unset Printing Implicit Defensive.
Local Open Scope ring_scope.

Record pp_data (F : Type) := PpData {
  pp_df : df_data F;
  (** integrator_pp::integrate_vol_nablaphinablaphifunc<diffusion_coeff>(i,j), 571-574. *)
  pp_stiff : nat -> nat -> F;
  (** integrator_pp::integrate_vol_phiphi(0,0), 575, 590. *)
  pp_vol00 : F;
  (** integrator_pp::integrate_vol_nablaphiphi<poly_deg+1,poly_deg>(i,j)[dim], 583-585. *)
  pp_grad : nat -> nat -> nat -> F;
  (** integrator_pp::integrate_vol_diffsquare_discana<analytic_result>(coeffs), 594-596. *)
  pp_diffsq : seq F -> F }.

Section DiffusionPp.
Variable F : realFieldType.
Variable gesv : nat -> nat -> seq F -> seq F -> sv_result F.
Variables (dim poly_deg : nat) (dirichlet_nodes : seq nat) (tau : F).
Implicit Types (P : pp_data F) (coeffs : seq F) (lambda : seq (seq F)).
Local Notation nf := (n_shape_fct dim poly_deg).

(** 441-475 trace_to_flux, 505-541 residual_flux. *)
Definition pp_trace_to_flux P lambda_in lambda_out :=
  df_trace_to_flux gesv dim poly_deg dirichlet_nodes tau (pp_df P) lambda_in lambda_out.
Definition pp_residual_flux P lambda_in lambda_out :=
  df_residual_flux gesv dim poly_deg dirichlet_nodes tau (pp_df P) lambda_in lambda_out.

(** 563 n_shape_pp. *)
Definition n_shape_pp : nat := hc_pow dim (poly_deg + 2).
Local Notation npp := n_shape_pp.
(** 568-575 the matrix of the post-processing. *)
Definition pp_matrix P : seq F :=
  let matrix := for_ npp (fun i A => for_ npp (fun j A => mset npp A i j (pp_stiff P i j)) A)
                  (zeros F npp npp) in
  mset npp matrix 0 0 (pp_vol00 P).
(** 577-590 its right-hand side. *)
Definition pp_vector P coeffs : seq F :=
  let vector := for_ npp (fun i v => for_ nf (fun j v => for_ dim (fun d v =>
      add_at v i (- (nth 0 coeffs (d * nf + j) * pp_grad P i j d))) v) v)
    (zeros F npp 1) in
  upd vector 0 (nth 0 coeffs (dim * nf) * pp_vol00 P).
(** 592 sol = vector / matrix: outside of any handler, so a LAPACK exception leaves the function. *)
Definition pp_post P coeffs : outcome (seq F) :=
  (solve_mut gesv npp 1 (pp_vector P coeffs) (pp_matrix P)).1.
(** 552-597 errors. *)
Definition pp_errors P lambda : outcome (seq F) :=
  if lambda_ok dim poly_deg lambda then
    obind (df_solve_local_problem gesv dim poly_deg dirichlet_nodes tau (pp_df P) 1 lambda) (fun coefficients =>
    omap (fun sol => [:: pp_diffsq P sol]) (pp_post P coefficients))
  else Abort.
End DiffusionPp.
