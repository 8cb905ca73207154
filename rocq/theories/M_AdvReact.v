(** Model of include/HyperHDG/local_solver/diffusion_advection_reaction_ldg.hxx (class DiffusionAdvectionReaction).
    The class is a copy of Diffusion (diffusion_ldgh.hxx) but for the local matrix: the functions that do not use
    that matrix have the same text as there, so their models are those of M_Diffusion, and the lines of the copy are
    cited here.  Same simplifications as in M_Diffusion; the integrals are functions of the time. *)
From mathcomp Require Import all_ssreflect all_algebra.
From Verif Require Import M_Base M_Index M_DenseLA M_Lapack M_DiffusionUniform M_Diffusion.
Set Implicit Arguments. Unset Strict Implicit. Unset Printing Implicit Defensive.
Import GRing.Theory.
Local Open Scope ring_scope.

Record ar_data (F : Type) := ArData {
  (** What Diffusion uses as well, at a time: 964-983, 1043, 1079-1092, 1122, 1153, 1187, 627, 848, 900, 1229. *)
  ar_df : F -> df_data F;
  (** integrate_vol_phiphifunc<reaction_rate>(i, j, time), 987-990. *)
  ar_react : F -> nat -> nat -> F;
  (** integrate_vol_phiphivecfunc<advective_velocity>(i, j, dim, time), 997-1001. *)
  ar_adv : F -> nat -> nat -> nat -> F }.

Section AdvReact.
Variable F : realFieldType.
Variable gesv : nat -> nat -> seq F -> seq F -> sv_result F.
(** hyEdge_dimT, poly_deg, parameters::dirichlet_nodes, tau_. *)
Variables (dim poly_deg : nat) (dirichlet_nodes : seq nat) (tau : F).
Implicit Types (P : ar_data F) (time : F) (coeffs : seq F) (lambda : seq (seq F)).

(** 198-201, 219-227. *)
Local Notation nf := (n_shape_fct dim poly_deg).
Local Notation nb := (n_shape_bdr dim poly_deg).
Local Notation nl := (n_loc_dofs dim poly_deg).

(** 952-1007 assemble_loc_matrix; the integral of the velocity is called without the time, 997-1001, whose default
    is 0. *)
Definition ar_assemble_loc_matrix P time : seq F :=
  let D := ar_df P time in
  for_ nf (fun i A => for_ nf (fun j A =>
    let vol_integral := df_vol D i j in
    let grad_int_vec := df_grad D i j in
    let st := df_face_loop dim D i j in
    let A := madd nl A (dim * nf + i) (dim * nf + j) (tau * st.1 + ar_react P time i j) in
    for_ dim (fun d A =>
      let A := madd nl A (d * nf + i) (d * nf + j) vol_integral in
      let A := madd nl A (dim * nf + i) (d * nf + j) (- grad_int_vec d) in
      let A := madd nl A (d * nf + i) (dim * nf + j) (- grad_int_vec d) in
      let A := madd nl A (dim * nf + i) (d * nf + j) (nth 0 st.2 d) in
      madd nl A (d * nf + i) (dim * nf + j) (- ar_adv P 0 i j d)) A) A)
  (zeros F nl nl).

(** rhs / assemble_loc_matrix; a LAPACK failure ends in the assertion of the handler. *)
Definition ar_divide P time rhs : outcome (seq F) :=
  match (solve_const gesv nl 1 rhs (ar_assemble_loc_matrix P time)).1 with
  | Throw => Abort
  | r => r
  end.
(** 364-387 solve_local_problem; 1024-1052 assemble_rhs_from_lambda, 1069-1096 assemble_rhs_from_global_rhs. *)
Definition ar_solve_local_problem P (solution_type : nat) lambda time : outcome (seq F) :=
  let D := ar_df P time in
  obind (if solution_type == 0%N then df_rhs_lambda dim poly_deg tau D lambda
         else if solution_type == 1%N then
           omap (fun r => mat_add nl 1 1 r (df_rhs_global dim poly_deg dirichlet_nodes tau D))
             (df_rhs_lambda dim poly_deg tau D lambda)
         else Abort) (ar_divide P time).
(** 401-416 solve_mass_problem; 1113-1124 assemble_rhs_from_coeffs. *)
Definition ar_solve_mass_problem P coeffs time : outcome (seq F) :=
  ar_divide P time (df_rhs_coeffs dim poly_deg (ar_df P time) coeffs).
(** 423-444 solve_loc_prob_cor. *)
Definition ar_solve_loc_prob_cor P lambda coeffs time : outcome (seq F) :=
  let D := ar_df P time in
  obind (omap (fun r => mat_add nl 1 1 (mat_add nl 1 1 r (df_rhs_global dim poly_deg dirichlet_nodes tau D))
                          (df_rhs_coeffs dim poly_deg D coeffs))
              (df_rhs_lambda dim poly_deg tau D lambda)) (ar_divide P time).

(** 508-542 trace_to_flux (solution type 0), 572-608 residual_flux (solution type 1); 1142-1156 primal_at_boundary,
    1174-1193 dual_at_boundary. *)
Definition ar_flux P (solution_type : nat) lambda_in lambda_out time : outcome (seq (seq F)) :=
  if lambda_ok dim poly_deg lambda_in && lambda_ok dim poly_deg lambda_out then
    let D := ar_df P time in
    obind (ar_solve_local_problem P solution_type lambda_in time) (fun coeffs =>
      let primals := df_primal dim poly_deg D coeffs in
      let duals := df_dual dim poly_deg D coeffs in
      Ok (df_write dirichlet_nodes D (fun i j => mget (2 * dim) duals i j + tau * mget (2 * dim) primals i j
                                 - tau * lambda_at lambda_in i j * df_area D i) lambda_out))
  else Abort.
Definition ar_trace_to_flux P lambda_in lambda_out time := ar_flux P 0 lambda_in lambda_out time.
Definition ar_residual_flux P lambda_in lambda_out time := ar_flux P 1 lambda_in lambda_out time.

(** 546-559 node_types, 621-646 make_initial. *)
Definition ar_node_types P time : seq nat := df_node_types dim dirichlet_nodes (ar_df P time).
Definition ar_make_initial P lambda time : outcome (seq (seq F)) :=
  df_make_initial dim poly_deg dirichlet_nodes (ar_df P time) lambda.

(** 737-772 trace_to_mass_flux (solution type 0), 787-822 total_numerical_flux_mass (solution type 1). *)
Definition ar_mass_flux P (solution_type : nat) lambda_in lambda_out time : outcome (seq (seq F)) :=
  if lambda_ok dim poly_deg lambda_in && lambda_ok dim poly_deg lambda_out then
    let D := ar_df P time in
    obind (ar_solve_local_problem P solution_type lambda_in time) (fun coeffs =>
    obind (ar_solve_mass_problem P coeffs time) (fun coeffs =>
      let primals := df_primal dim poly_deg D coeffs in
      let duals := df_dual dim poly_deg D coeffs in
      Ok (df_write dirichlet_nodes D (fun i j => mget (2 * dim) duals i j + tau * mget (2 * dim) primals i j)
            lambda_out)))
  else Abort.
Definition ar_trace_to_mass_flux P lambda_in lambda_out time := ar_mass_flux P 0 lambda_in lambda_out time.
Definition ar_total_numerical_flux_mass P lambda_in lambda_out time := ar_mass_flux P 1 lambda_in lambda_out time.

(** 833-853 errors. *)
Definition ar_errors P lambda time : outcome (seq F) :=
  if lambda_ok dim poly_deg lambda then
    omap (fun coeffs => [:: df_diffsq (ar_df P time) (df_u_coeffs dim poly_deg coeffs)])
      (ar_solve_local_problem P 1 lambda time)
  else Abort.
(** 868-902 errors_temp. *)
Definition ar_errors_temp P (delta_t : F) lambda_new lambda_old time : outcome F :=
  if lambda_ok dim poly_deg lambda_new && lambda_ok dim poly_deg lambda_old then
    obind (ar_solve_local_problem P 1 lambda_new time) (fun coeffs_new =>
    obind (ar_solve_local_problem P 1 lambda_old (time - delta_t)) (fun coeffs_old =>
      let coeffs_old := mkseq (fun i => (nth 0 coeffs_old i - nth 0 coeffs_new i) / delta_t) nl in
      omap (fun coefficients => df_diffsq (ar_df P time) (df_u_coeffs dim poly_deg coefficients))
        (ar_solve_loc_prob_cor P lambda_new coeffs_old time)))
  else Abort.
(** 1211-1235 bulk_values. *)
Definition ar_bulk_values P (abscissas : seq F) lambda time : outcome (seq (seq F)) :=
  omap (fun coefficients =>
    mkseq (fun d => mkseq (df_eval (ar_df P time) abscissas (mkseq (fun i => nth 0 coefficients (d * nf + i)) nf))
                      (hc_pow dim (size abscissas))) (dim + 1))
    (ar_solve_local_problem P 1 lambda time).
End AdvReact.
