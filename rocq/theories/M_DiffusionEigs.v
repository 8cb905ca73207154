(** Model of include/HyperHDG/local_solver/diffusion_eigs_ldgh.hxx (class DiffusionEigs).  As in M_Diffusion the
    integrals of TPP, the geometry and the parameter functions enter through a record.  Same simplifications
    as in M_Diffusion.  Not modelled: errors, 534-550, names a variable [time] that does not exist. *)
From mathcomp Require Import all_ssreflect all_algebra.
From Verif Require Import M_Base M_Index M_DenseLA M_Lapack M_DiffusionUniform M_Diffusion.
Set Implicit Arguments. Unset Strict Implicit. Unset Printing Implicit Defensive.
Local Open Scope ring_scope.

Record de_data (F : Type) := DeData {
  (** The integrals, normals, ... that Diffusion uses as well; df_vol is replaced by de_vol. *)
  de_df : df_data F;
  (** integrate_vol_phiphifunc<inverse_diffusion_coeff>(i, j, geometry, eig), 613-616: the eigenvalue is
      passed where the parameter function expects the time. *)
  de_vol : F -> nat -> nat -> F;
  (** geometry.area(), 506. *)
  de_area : F }.

Section DiffusionEigs.
Variable F : realFieldType.
Variable gesv : nat -> nat -> seq F -> seq F -> sv_result F.
(** hyEdge_dimT, poly_deg, parameters::dirichlet_nodes, tau_. *)
Variables (dim poly_deg : nat) (dirichlet_nodes : seq nat) (tau : F).
Implicit Types (P : de_data F) (D : df_data F) (coeffs : seq F) (lambda : seq (seq F)).

Local Notation nf := (n_shape_fct dim poly_deg).
Local Notation nb := (n_shape_bdr dim poly_deg).
Local Notation nl := (n_loc_dofs dim poly_deg).

(** What the functions below see when they are called with eig. *)
Definition de_at P (eig : F) : df_data F :=
  let D := de_df P in
  DfData (de_vol P eig) (df_mass D) (df_grad D) (df_bb D) (df_bp D) (df_src D) (df_dirval D) (df_initial D)
    (df_normal D) (df_area D) (df_diffsq D) (df_eval D) (df_types D).

(** 588-655 assemble_loc_matrix; the sums over the faces, 626-635, are those of Diffusion up to the order of
    factors. *)
Definition de_assemble_loc_matrix D (eig : F) : seq F :=
  for_ nf (fun i A => for_ nf (fun j A =>
    let vol_integral := df_vol D i j in
    let grad_int_vec := df_grad D i j in
    let st := df_face_loop dim D i j in
    let A := madd nl A (dim * nf + i) (dim * nf + j) (tau * st.1) in
    let A := for_ dim (fun d A =>
      let A := madd nl A (d * nf + i) (d * nf + j) vol_integral in
      let A := madd nl A (dim * nf + i) (d * nf + j) (- grad_int_vec d) in
      let A := madd nl A (d * nf + i) (dim * nf + j) (- grad_int_vec d) in
      madd nl A (dim * nf + i) (d * nf + j) (nth 0 st.2 d)) A in
    madd nl A (dim * nf + i) (dim * nf + j) (- (eig * df_mass D i j))) A)
  (zeros F nl nl).

(** rhs / assemble_loc_matrix. *)
Definition de_divide D (eig : F) rhs : outcome (seq F) :=
  (solve_const gesv nl 1 rhs (de_assemble_loc_matrix D eig)).1.
(** 284-301 solve_local_problem: a LAPACK failure ends in the assertion of the handler.  657-698
    assemble_rhs_from_lambda is that of Diffusion. *)
Definition de_solve_local_problem P lambda (eig : F) : outcome (seq F) :=
  obind (df_rhs_lambda dim poly_deg tau (de_at P eig) lambda) (fun rhs =>
    match de_divide (de_at P eig) eig rhs with
    | Throw => Abort
    | r => r
    end).

(** 700-734 primal_at_boundary and 736-774 dual_at_boundary compute what Diffusion does; here as arrays of
    arrays.  duals + tau * primals, 524, and minus tau * lambda * face_area, 391-393, 497-499. *)
Definition de_bdr_flux D coeffs (i j : nat) : F :=
  mget (2 * dim) (df_dual dim poly_deg D coeffs) i j + tau * mget (2 * dim) (df_primal dim poly_deg D coeffs) i j.
Definition de_num_flux D coeffs lambda (i j : nat) : F :=
  de_bdr_flux D coeffs i j - tau * lambda_at lambda i j * df_area D i.

(** 361-396 trace_to_flux. *)
Definition de_trace_to_flux P lambda_in lambda_out (eig : F) : outcome (seq (seq F)) :=
  if lambda_ok dim poly_deg lambda_in && lambda_ok dim poly_deg lambda_out then
    obind (de_solve_local_problem P lambda_in eig) (fun coeffs =>
      Ok (df_write dirichlet_nodes (de_at P eig) (de_num_flux (de_at P eig) coeffs lambda_in) lambda_out))
  else Abort.

(** 403-416 node_types. *)
Definition de_node_types P : seq nat := df_node_types dim dirichlet_nodes (de_df P).
(** 427-450 make_initial, without assertions; the integrals are those for the time of the call. *)
Definition de_make_initial P lambda : seq (seq F) :=
  df_write dirichlet_nodes (de_df P) (fun i j => df_initial (de_df P) j i) lambda.

(** 517-524: the second part is added to what was written before. *)
Definition de_add D coeffs lambda_out : seq (seq F) :=
  for_ (size lambda_out) (fun i out => for_ (size (nth [::] out i)) (fun j out =>
    add_at2 out i j (if face_dirichlet dirichlet_nodes D i then 0 else de_bdr_flux D coeffs i j)) out) lambda_out.
(** 466-526 jacobian_of_trace_to_flux. *)
Definition de_jacobian P lambda_in lambda_out (eig : F) lambda_vals (eig_val : F) : outcome (seq (seq F)) :=
  let D := de_at P eig_val in
  if lambda_ok dim poly_deg lambda_in && lambda_ok dim poly_deg lambda_out then
    obind (de_solve_local_problem P lambda_in eig_val) (fun coeffs =>
      let lambda_out := df_write dirichlet_nodes D (de_num_flux D coeffs lambda_in) lambda_out in
      obind (de_solve_local_problem P lambda_vals eig_val) (fun coeffs =>
        let coeffs := for_ (dim * nf) (fun i c => upd c i 0) coeffs in
        let coeffs := for_ nf (fun i c =>
          upd c (dim * nf + i) (nth 0 c (dim * nf + i) * (eig * de_area P))) coeffs in
        obind (de_divide D eig_val coeffs) (fun coeffs => Ok (de_add D coeffs lambda_out))))
  else Abort.

(** 776-819 bulk_values; its argument time is used as eigenvalue. *)
Definition de_bulk_values P (abscissas : seq F) lambda (time : F) : outcome (seq (seq F)) :=
  omap (fun coefficients =>
    mkseq (fun d => mkseq (df_eval (de_df P) abscissas (mkseq (fun i => nth 0 coefficients (d * nf + i)) nf))
                      (hc_pow dim (size abscissas))) (dim + 1))
    (de_solve_local_problem P lambda time).
End DiffusionEigs.
