(** Model of include/HyperHDG/local_solver/bilaplacian_parab_ldgh.hxx (class BilaplacianParab).  As in M_Bilaplacian
    the integrals of TPP, the geometry and the parameter functions enter through a record, one value per hyperedge
    and time; hyper_edge.data.coeffs is the argument [old].  Same simplifications as in M_Bilaplacian. *)
From mathcomp Require Import all_ssreflect all_algebra.
From Verif Require Import M_Base M_Index M_DenseLA M_Lapack M_DiffusionUniform M_Diffusion M_Bilaplacian.
Set Implicit Arguments. Unset Strict Implicit. Unset Printing Implicit Defensive.
Local Open Scope ring_scope.

Record bp_data (F : Type) := BpData {
  (** The integrals, normals, ... at [time] that Bilaplacian uses as well. *)
  bp_bl : bl_data F;
  (** integrate_vol_phifunc<right_hand_side>(i) at time - delta_t_, 864-867. *)
  bp_src_old : nat -> F;
  (** integrate_volUni_phifunc<initial>(i), 612-616. *)
  bp_init_phi : nat -> F }.

Section BilaplacianParab.
Variable F : realFieldType.
Variable gesv : nat -> nat -> seq F -> seq F -> sv_result F.
(** hyEdge_dimT, poly_deg, parameters::dirichlet_nodes, parameters::dirichlet_laplacian_nodes, tau_, theta_,
    delta_t_. *)
Variables (dim poly_deg : nat) (dirichlet_nodes laplacian_nodes : seq nat) (tau theta delta_t : F).
Implicit Types (P : bp_data F) (D : df_data F) (coeffs old : seq F) (lambda : seq (seq F)).
(** The constants, and the two tests for boundary types, are those of Bilaplacian. *)
Local Notation nf := (bl_shape_fct dim poly_deg).
Local Notation nb := (bl_shape_bdr dim poly_deg).
Local Notation nl := (bl_loc_dofs dim poly_deg).
Local Notation lap := (bl_dofs_lap dim poly_deg).
Local Notation lambda_ok := (bl_lambda_ok dim poly_deg).

(** 708-782 assemble_loc_matrix; the loop over the faces is that of Diffusion up to the order of factors. *)
Definition bp_assemble_loc_matrix D : seq F :=
  for_ nf (fun i A => for_ nf (fun j A =>
    let vol_integral := df_mass D i j in
    let vol_func_integral := df_vol D i j in
    let grad_int_vec := df_grad D i j in
    let st := df_face_loop dim D i j in
    let A := madd nl A (dim * nf + i) (lap + dim * nf + j) (- vol_func_integral) in
    let A := madd nl A (dim * nf + i) (dim * nf + j) (tau * st.1) in
    let A := madd nl A (lap + dim * nf + i) (lap + dim * nf + j) (tau * theta * delta_t * st.1) in
    let A := for_ dim (fun d A =>
      let A := madd nl A (d * nf + i) (d * nf + j) vol_integral in
      let A := madd nl A (lap + d * nf + i) (lap + d * nf + j) vol_integral in
      let A := madd nl A (dim * nf + i) (d * nf + j) (- grad_int_vec d) in
      let A := madd nl A (d * nf + i) (dim * nf + j) (- grad_int_vec d) in
      let A := madd nl A (lap + dim * nf + i) (lap + d * nf + j) (- (theta * delta_t * grad_int_vec d)) in
      let A := madd nl A (lap + d * nf + i) (lap + dim * nf + j) (- grad_int_vec d) in
      let A := madd nl A (dim * nf + i) (d * nf + j) (nth 0 st.2 d) in
      madd nl A (lap + dim * nf + i) (lap + d * nf + j) (theta * delta_t * nth 0 st.2 d)) A in
    madd nl A (lap + dim * nf + i) (dim * nf + j) (df_mass D i j)) A)
  (zeros F nl nl).

(** 798-831 assemble_rhs_from_lambda. *)
Definition bp_rhs_lambda_loop D lambda : seq F :=
  for_ nf (fun i r => for_ nb (fun j r => for_ (2 * dim) (fun face r =>
    let integral := df_bp D i j face in
    let r := add_at r (dim * nf + i) (tau * lambda_at lambda face j * integral) in
    let r := add_at r (lap + dim * nf + i) (tau * theta * delta_t * lambda_at lambda face (nb + j) * integral) in
    for_ dim (fun d r =>
      let r := add_at r (d * nf + i) (- (df_normal D face d * lambda_at lambda face j * integral)) in
      add_at r (lap + d * nf + i) (- (df_normal D face d * lambda_at lambda face (nb + j) * integral))) r) r) r)
  (zeros F nl 1).
Definition bp_rhs_lambda D lambda : outcome (seq F) :=
  if lambda_ok lambda then Ok (bp_rhs_lambda_loop D lambda) else Abort.

(** 854-898: the loop of assemble_rhs_from_global_rhs. *)
Definition bp_rhs_data P : seq F :=
  let D := bl_df (bp_bl P) in
  for_ nf (fun i r =>
    let r := upd r (lap + dim * nf + i) (theta * delta_t * df_src D i + (1 - theta) * delta_t * bp_src_old P i) in
    for_ (2 * dim) (fun face r =>
      let r := if bl_dirichlet dirichlet_nodes D face then
          let integral := df_dirval D i face in
          let r := add_at r (dim * nf + i) (tau * integral) in
          for_ dim (fun d r => add_at r (d * nf + i) (- (df_normal D face d * integral))) r
        else r in
      if bl_laplacian laplacian_nodes D face then
        let integral := bl_dirlap (bp_bl P) i face in
        let r := add_at r (lap + dim * nf + i) (tau * theta * delta_t * integral) in
        for_ dim (fun d r => add_at r (lap + d * nf + i) (- (df_normal D face d * integral))) r
      else r) r)
  (zeros F nl 1).
(** 849-900 assemble_rhs_from_global_rhs; 916-937 assemble_rhs_from_coeffs is that of Bilaplacian. *)
Definition bp_rhs_global P old : seq F :=
  mat_add nl 1 1 (bp_rhs_data P) (bl_rhs_coeffs dim poly_deg (bl_df (bp_bl P)) old).

(** 318-341 solve_local_problem. *)
Definition bp_solve_local_problem P old (solution_type : nat) lambda : outcome (seq F) :=
  let D := bl_df (bp_bl P) in
  obind (if solution_type == 0%N then bp_rhs_lambda D lambda
         else if solution_type == 1%N then
           omap (fun r => mat_add nl 1 1 r (bp_rhs_global P old)) (bp_rhs_lambda D lambda)
         else Abort) (bl_divide gesv dim poly_deg (bp_assemble_loc_matrix D)).

(** 462-500 trace_to_flux; 946-977 primal_at_boundary and 990-1024 dual_at_boundary are those of Bilaplacian. *)
Definition bp_trace_to_flux P old lambda_in lambda_out : outcome (seq (seq F)) :=
  let D := bl_df (bp_bl P) in
  if lambda_ok lambda_in && lambda_ok lambda_out then
    obind (bp_solve_local_problem P old 0 lambda_in) (fun coeffs =>
      let primals := bl_primal dim poly_deg D coeffs in
      let duals := bl_dual dim poly_deg D coeffs in
      Ok (bl_write dirichlet_nodes laplacian_nodes D (fun i j => lambda_at duals i j + tau * lambda_at primals i j
            - tau * lambda_at lambda_in i (if (j < nb)%N then (j + nb)%N else (j - nb)%N) * df_area D i)
          lambda_out))
  else Abort.
(** 519-556 residual_flux; 543-545 does not exchange the halves of lambda_in. *)
Definition bp_residual_flux P old lambda_in lambda_out : outcome (seq (seq F)) :=
  let D := bl_df (bp_bl P) in
  if lambda_ok lambda_in && lambda_ok lambda_out then
    obind (bp_solve_local_problem P old 1 lambda_in) (fun coeffs =>
      let primals := bl_primal dim poly_deg D coeffs in
      let duals := bl_dual dim poly_deg D coeffs in
      Ok (bl_write dirichlet_nodes laplacian_nodes D (fun i j => lambda_at duals i j + tau * lambda_at primals i j
            - tau * lambda_at lambda_in i j * df_area D i) lambda_out))
  else Abort.

(** 565-574 set_data: the new data.coeffs. *)
Definition bp_set_data P lambda old : outcome (seq F) := bp_solve_local_problem P old 1 lambda.
(** 586-619 make_initial: the traces, 592-610, as in Bilaplacian, and the new data.coeffs. *)
Definition bp_make_initial P lambda old : seq (seq F) * seq F :=
  (bl_make_initial dirichlet_nodes (bp_bl P) lambda,
   for_ nf (fun i c => upd c (dim * nf + i) (bp_init_phi P i)) old).

(** 632-658 errors. *)
Definition bp_errors P old lambda : outcome (seq F) :=
  obind (bp_solve_local_problem P old 1 lambda) (fun coeffs =>
    let result := df_diffsq (bl_df (bp_bl P)) (bl_u_coeffs dim poly_deg coeffs) in
    if 0 <= result then Ok [:: result] else Abort).
(** 1039-1065 bulk_values. *)
Definition bp_bulk_values P old (abscissas : seq F) lambda : outcome (seq (seq F)) :=
  omap (fun coefficients =>
    mkseq (fun d => mkseq (df_eval (bl_df (bp_bl P)) abscissas (mkseq (fun i => nth 0 coefficients (d * nf + i)) nf))
                      (hc_pow dim (size abscissas))) (dim + 1))
    (bp_solve_local_problem P old 1 lambda).
End BilaplacianParab.
