(** Model of include/HyperHDG/local_solver/bilaplacian_eigs_ldgh.hxx (class BilaplacianEigs).  As in M_Bilaplacian
    the integrals of TPP, the geometry and the parameter functions enter through a record.  Same simplifications
    as in M_Bilaplacian.  Not modelled: errors, 593-620, names a variable [time] that does not exist. *)
From mathcomp Require Import all_ssreflect all_algebra.
From Verif Require Import M_Base M_Index M_DenseLA M_Lapack M_DiffusionUniform M_Diffusion M_Bilaplacian.
Set Implicit Arguments. Unset Strict Implicit. Unset Printing Implicit Defensive.
Local Open Scope ring_scope.

Record be_data (F : Type) := BeData {
  (** The integrals, normals, ... that Bilaplacian uses as well; df_vol is replaced by be_vol. *)
  be_bl : bl_data F;
  (** integrate_vol_phiphifunc<inverse_bilaplacian_coefficient>(i, j, geometry, eig), 687-690: the eigenvalue is
      passed where the parameter function expects the time. *)
  be_vol : F -> nat -> nat -> F;
  (** geometry.area(), 558. *)
  be_area : F }.

Section BilaplacianEigs.
Variable F : realFieldType.
Variable gesv : nat -> nat -> seq F -> seq F -> sv_result F.
(** hyEdge_dimT, poly_deg, parameters::dirichlet_nodes, parameters::dirichlet_laplacian_nodes, tau_. *)
Variables (dim poly_deg : nat) (dirichlet_nodes laplacian_nodes : seq nat) (tau : F).
Implicit Types (P : be_data F) (D : df_data F) (coeffs : seq F) (lambda : seq (seq F)).
(** The constants, and the two tests for boundary types, are those of Bilaplacian. *)
Local Notation nf := (bl_shape_fct dim poly_deg).
Local Notation nb := (bl_shape_bdr dim poly_deg).
Local Notation nl := (bl_loc_dofs dim poly_deg).
Local Notation lap := (bl_dofs_lap dim poly_deg).
Local Notation lambda_ok := (bl_lambda_ok dim poly_deg).

(** What the functions below see when they are called with eig. *)
Definition be_at P (eig : F) : bl_data F :=
  let D := bl_df (be_bl P) in
  BlData (DfData (be_vol P eig) (df_mass D) (df_grad D) (df_bb D) (df_bp D) (df_src D) (df_dirval D) (df_initial D)
    (df_normal D) (df_area D) (df_diffsq D) (df_eval D) (df_types D)) (bl_dirlap (be_bl P)) (bl_initlap (be_bl P)).

(** 664-742 assemble_loc_matrix; the loop over the faces is that of Diffusion up to the order of factors. *)
Definition be_assemble_loc_matrix D (eig : F) : seq F :=
  for_ nf (fun i A => for_ nf (fun j A =>
    let vol_integral := df_mass D i j in
    let vol_func_integral := df_vol D i j in
    let grad_int_vec := df_grad D i j in
    let st := df_face_loop dim D i j in
    let A := madd nl A (dim * nf + i) (lap + dim * nf + j) (- vol_func_integral) in
    let A := madd nl A (dim * nf + i) (dim * nf + j) (tau * st.1) in
    let A := madd nl A (lap + dim * nf + i) (lap + dim * nf + j) (tau * st.1) in
    let A := for_ dim (fun d A =>
      let A := madd nl A (d * nf + i) (d * nf + j) vol_integral in
      let A := madd nl A (lap + d * nf + i) (lap + d * nf + j) vol_integral in
      let A := madd nl A (dim * nf + i) (d * nf + j) (- grad_int_vec d) in
      let A := madd nl A (d * nf + i) (dim * nf + j) (- grad_int_vec d) in
      let A := madd nl A (lap + dim * nf + i) (lap + d * nf + j) (- grad_int_vec d) in
      let A := madd nl A (lap + d * nf + i) (lap + dim * nf + j) (- grad_int_vec d) in
      let A := madd nl A (dim * nf + i) (d * nf + j) (nth 0 st.2 d) in
      madd nl A (lap + dim * nf + i) (lap + d * nf + j) (nth 0 st.2 d)) A in
    madd nl A (lap + dim * nf + i) (dim * nf + j) (- (eig * df_mass D i j))) A)
  (zeros F nl nl).

(** rhs / assemble_loc_matrix. *)
Definition be_divide D (eig : F) rhs : outcome (seq F) :=
  (solve_const gesv nl 1 rhs (be_assemble_loc_matrix D eig)).1.
(** 317-334 solve_local_problem: a LAPACK failure ends in the assertion of the handler.  744-793
    assemble_rhs_from_lambda is that of Bilaplacian. *)
Definition be_solve_local_problem P lambda (eig : F) : outcome (seq F) :=
  obind (bl_rhs_lambda dim poly_deg tau (bl_df (be_at P eig)) lambda) (fun rhs =>
    match be_divide (bl_df (be_at P eig)) eig rhs with
    | Throw => Abort
    | r => r
    end).

(** 810-837 primal_at_boundary and 850-884 dual_at_boundary are those of Bilaplacian.  duals + tau * primals, and
    minus tau * lambda * face_area with the halves of lambda exchanged. *)
Definition be_bdr_flux D coeffs (i j : nat) : F :=
  lambda_at (bl_dual dim poly_deg D coeffs) i j + tau * lambda_at (bl_primal dim poly_deg D coeffs) i j.
Definition be_num_flux D coeffs lambda (i j : nat) : F :=
  be_bdr_flux D coeffs i j
  - tau * lambda_at lambda i (if (j < nb)%N then (j + nb)%N else (j - nb)%N) * df_area D i.

(** 394-432 trace_to_flux. *)
Definition be_trace_to_flux P lambda_in lambda_out (eig : F) : outcome (seq (seq F)) :=
  let D := bl_df (be_at P eig) in
  if lambda_ok lambda_in && lambda_ok lambda_out then
    obind (be_solve_local_problem P lambda_in eig) (fun coeffs =>
      Ok (bl_write dirichlet_nodes laplacian_nodes D (be_num_flux D coeffs lambda_in) lambda_out))
  else Abort.

(** 440-453 node_types. *)
Definition be_node_types P : seq nat := bl_node_types dim dirichlet_nodes (bl_df (be_bl P)).
(** 465-491 make_initial, the integrals are those for the time of the call; in 483-487 j runs from n_shape_bdr_
    on, while there are n_shape_bdr_ functions on a face. *)
Definition be_make_initial P lambda : seq (seq F) :=
  let D := bl_df (be_bl P) in
  for_ (size lambda) (fun i t =>
    if bl_dirichlet dirichlet_nodes D i then for_ (size (nth [::] t i)) (fun j t => upd2 t i j 0) t
    else
      let half := (size (nth [::] t i) %/ 2)%N in
      let t := for_ half (fun j t => upd2 t i j (df_initial D j i)) t in
      for_ (size (nth [::] t i) - half) (fun j t => upd2 t i (half + j) (bl_initlap (be_bl P) (half + j) i)) t)
  lambda.

(** 568-579: the second part is added to what was written before, then the zeros are written again. *)
Definition be_add D coeffs lambda_out : seq (seq F) :=
  for_ (size lambda_out) (fun i out =>
    let out := for_ (size (nth [::] out i)) (fun j out => add_at2 out i j (be_bdr_flux D coeffs i j)) out in
    let out := if bl_dirichlet dirichlet_nodes D i then
        for_ (size (nth [::] out i) %/ 2) (fun j out => upd2 out i j 0) out else out in
    if bl_laplacian laplacian_nodes D i then
      let half := (size (nth [::] out i) %/ 2)%N in
      for_ (size (nth [::] out i) - half) (fun j out => upd2 out i (half + j) 0) out
    else out)
  lambda_out.
(** 511-582 jacobian_of_trace_to_flux. *)
Definition be_jacobian P lambda_in lambda_out (eig : F) lambda_vals (eig_val : F) : outcome (seq (seq F)) :=
  let D := bl_df (be_at P eig_val) in
  if lambda_ok lambda_in && lambda_ok lambda_out then
    obind (be_solve_local_problem P lambda_in eig_val) (fun coeffs =>
      let lambda_out := bl_write dirichlet_nodes laplacian_nodes D (be_num_flux D coeffs lambda_in) lambda_out in
      obind (be_solve_local_problem P lambda_vals eig_val) (fun coeffs =>
        let coeffs := for_ nf (fun i c =>
          upd c (nl %/ 2 + dim * nf + i) (eig * nth 0 c (dim * nf + i) * be_area P)) coeffs in
        let coeffs := for_ (nl %/ 2 + dim * nf) (fun i c => upd c i 0) coeffs in
        obind (be_divide D eig_val coeffs) (fun coeffs => Ok (be_add D coeffs lambda_out))))
  else Abort.

(** 891-925 bulk_values; its argument time is used as eigenvalue. *)
Definition be_bulk_values P (abscissas : seq F) lambda (time : F) : outcome (seq (seq F)) :=
  omap (fun coefficients =>
    mkseq (fun d => mkseq (df_eval (bl_df (be_bl P)) abscissas (mkseq (fun i => nth 0 coefficients (d * nf + i)) nf))
                      (hc_pow dim (size abscissas))) (dim + 1))
    (be_solve_local_problem P lambda time).
End BilaplacianEigs.
