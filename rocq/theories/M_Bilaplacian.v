(** Model of include/HyperHDG/local_solver/bilaplacian_ldgh.hxx (class Bilaplacian).  As in M_Diffusion the
    integrals of TPP, the geometry and the parameter functions enter through a record.  Same simplifications
    as in M_Diffusion; the tests for NaN in errors, 857-861 and 869-870, always pass here.  Lines 769-845 are
    commented out in the source. *)
From mathcomp Require Import all_ssreflect all_algebra.
From Verif Require Import M_Base M_Index M_DenseLA M_Lapack M_DiffusionUniform M_Diffusion.
Set Implicit Arguments. Unset Strict Implicit. Unset Printing Implicit Defensive.
Local Open Scope ring_scope.

Record bl_data (F : Type) := BlData {
  (** The integrals, normals, ... of Diffusion; df_vol is integrate_vol_phiphifunc<inverse_bilaplacian_coefficient>
      (i,j), 984-987, and df_mass is integrate_vol_phiphi(i,j), 983. *)
  bl_df : df_data F;
  (** integrate_bdr_phifunc<dirichlet_laplace_value>(i,face), 1131-1134. *)
  bl_dirlap : nat -> nat -> F;
  (** integrate_bdrUni_psifunc<initial_laplace>(number of the face function, face), 649-652. *)
  bl_initlap : nat -> nat -> F }.

Section Bilaplacian.
Variable F : realFieldType.
Variable gesv : nat -> nat -> seq F -> seq F -> sv_result F.
(** hyEdge_dimT, poly_deg, parameters::dirichlet_nodes, parameters::dirichlet_laplacian_nodes, tau_. *)
Variables (dim poly_deg : nat) (dirichlet_nodes laplacian_nodes : seq nat) (tau : F).
Implicit Types (P : bl_data F) (D : df_data F) (coeffs : seq F) (lambda : seq (seq F)).

(** 213-221 n_shape_fct_, n_shape_bdr_, n_loc_dofs_; 192-195 n_glob_dofs_per_node; n_dofs_lap, 971. *)
Definition bl_shape_fct : nat := hc_pow dim (poly_deg + 1).
Definition bl_shape_bdr : nat := hc_pow (dim - 1) (poly_deg + 1).
Definition bl_loc_dofs : nat := (2 * (dim + 1) * bl_shape_fct)%N.
Definition bl_glob_dofs_per_node : nat := (2 * hc_pow (dim - 1) (poly_deg + 1))%N.
Definition bl_dofs_lap : nat := (bl_loc_dofs %/ 2)%N.
Local Notation nf := bl_shape_fct.
Local Notation nb := bl_shape_bdr.
Local Notation nl := bl_loc_dofs.
Local Notation lap := bl_dofs_lap.

(** 237-248 is_dirichlet, is_dirichlet_laplacian. *)
Definition bl_dirichlet D face : bool := nth 0%N (df_types D) face \in dirichlet_nodes.
Definition bl_laplacian D face : bool := nth 0%N (df_types D) face \in laplacian_nodes.

(** 960-1034 assemble_loc_matrix; the loop over the faces, 994-1003, is that of Diffusion up to the order of
    factors. *)
Definition bl_assemble_loc_matrix D : seq F :=
  for_ nf (fun i A => for_ nf (fun j A =>
    let vol_integral := df_mass D i j in
    let vol_func_integral := df_vol D i j in
    let grad_int_vec := df_grad D i j in
    let st := df_face_loop dim D i j in
    let A := madd nl A (dim * nf + i) (lap + dim * nf + j) (- vol_func_integral) in
    let A := madd nl A (dim * nf + i) (dim * nf + j) (tau * st.1) in
    let A := madd nl A (lap + dim * nf + i) (lap + dim * nf + j) (tau * st.1) in
    for_ dim (fun d A =>
      let A := madd nl A (d * nf + i) (d * nf + j) vol_integral in
      let A := madd nl A (lap + d * nf + i) (lap + d * nf + j) vol_integral in
      let A := madd nl A (dim * nf + i) (d * nf + j) (- grad_int_vec d) in
      let A := madd nl A (d * nf + i) (dim * nf + j) (- grad_int_vec d) in
      let A := madd nl A (lap + dim * nf + i) (lap + d * nf + j) (- grad_int_vec d) in
      let A := madd nl A (lap + d * nf + i) (lap + dim * nf + j) (- grad_int_vec d) in
      let A := madd nl A (dim * nf + i) (d * nf + j) (nth 0 st.2 d) in
      madd nl A (lap + dim * nf + i) (lap + d * nf + j) (nth 0 st.2 d)) A) A)
  (zeros F nl nl).

(** The sizes of arrays of traces. *)
Definition bl_lambda_ok lambda : bool :=
  (size lambda == 2 * dim)%N && all (fun l => size l == (2 * nb)%N) lambda.
(** 1046-1086 assemble_rhs_from_lambda. *)
Definition bl_rhs_lambda_loop D lambda : seq F :=
  for_ nf (fun i r => for_ nb (fun j r => for_ (2 * dim) (fun face r =>
    let integral := df_bp D i j face in
    let r := add_at r (dim * nf + i) (tau * lambda_at lambda face j * integral) in
    let r := add_at r (lap + dim * nf + i) (tau * lambda_at lambda face (nb + j) * integral) in
    for_ dim (fun d r =>
      let r := add_at r (d * nf + i) (- (df_normal D face d * lambda_at lambda face j * integral)) in
      add_at r (lap + d * nf + i) (- (df_normal D face d * lambda_at lambda face (nb + j) * integral))) r) r) r)
  (zeros F nl 1).
Definition bl_rhs_lambda D lambda : outcome (seq F) :=
  if bl_lambda_ok lambda then Ok (bl_rhs_lambda_loop D lambda) else Abort.

(** 1098-1143 assemble_rhs_from_global_rhs. *)
Definition bl_rhs_global P : seq F :=
  let D := bl_df P in
  for_ nf (fun i r =>
    let r := upd r (lap + dim * nf + i) (df_src D i) in
    for_ (2 * dim) (fun face r =>
      let r := if bl_dirichlet D face then
          let integral := df_dirval D i face in
          let r := add_at r (dim * nf + i) (tau * integral) in
          for_ dim (fun d r => add_at r (d * nf + i) (- (df_normal D face d * integral))) r
        else r in
      if bl_laplacian D face then
        let integral := bl_dirlap P i face in
        let r := add_at r (lap + dim * nf + i) (tau * integral) in
        for_ dim (fun d r => add_at r (lap + d * nf + i) (- (df_normal D face d * integral))) r
      else r) r)
  (zeros F nl 1).

(** 1155-1175 assemble_rhs_from_coeffs. *)
Definition bl_rhs_coeffs D coeffs : seq F :=
  for_ nf (fun i r => for_ nf (fun j r =>
    add_at r (nl %/ 2 + dim * nf + i) (nth 0 coeffs (dim * nf + j) * df_mass D i j)) r)
  (zeros F nl 1).

(** rhs / matrix; a LAPACK failure ends in the assertion of the handler. *)
Definition bl_divide A rhs : outcome (seq F) :=
  match (solve_const gesv nl 1 rhs A).1 with
  | Throw => Abort
  | r => r
  end.

(** 363-389 solve_local_problem. *)
Definition bl_solve_local_problem P (solution_type : nat) lambda : outcome (seq F) :=
  obind (if solution_type == 0%N then bl_rhs_lambda (bl_df P) lambda
         else if solution_type == 1%N then
           omap (fun r => mat_add nl 1 1 r (bl_rhs_global P)) (bl_rhs_lambda (bl_df P) lambda)
         else Abort) (bl_divide (bl_assemble_loc_matrix (bl_df P))).
(** 399-418 solve_mass_problem. *)
Definition bl_solve_mass_problem P coeffs : outcome (seq F) :=
  bl_divide (bl_assemble_loc_matrix (bl_df P)) (bl_rhs_coeffs (bl_df P) coeffs).
(** 422-445 solve_loc_prob_cor. *)
Definition bl_solve_loc_prob_cor P lambda coeffs (delta_time : F) : outcome (seq F) :=
  obind (omap (fun r => mat_add nl 1 1 (mat_add nl 1 1 (muls nl r delta_time) (muls nl (bl_rhs_global P) delta_time))
                          (bl_rhs_coeffs (bl_df P) coeffs))
              (bl_rhs_lambda (bl_df P) lambda))
    (bl_divide (muls (nl * nl) (bl_assemble_loc_matrix (bl_df P)) delta_time)).

(** 1188-1219 primal_at_boundary: the values of the second half of the coefficients come first. *)
Definition bl_primal D coeffs : seq (seq F) :=
  for_ nf (fun i t => for_ nb (fun j t => for_ (2 * dim) (fun face t =>
    let t := add_at2 t face (nb + j) (nth 0 coeffs (dim * nf + i) * df_bp D i j face) in
    add_at2 t face j (nth 0 coeffs (lap + dim * nf + i) * df_bp D i j face)) t) t)
  (nseq (2 * dim) (nseq (2 * nb) 0)).
(** 1232-1266 dual_at_boundary. *)
Definition bl_dual D coeffs : seq (seq F) :=
  for_ nf (fun i t => for_ nb (fun j t => for_ (2 * dim) (fun face t =>
    let integral := df_bp D i j face in
    for_ dim (fun d t =>
      let t := add_at2 t face (nb + j) (df_normal D face d * integral * nth 0 coeffs (d * nf + i)) in
      add_at2 t face j (df_normal D face d * integral * nth 0 coeffs (lap + d * nf + i))) t) t) t)
  (nseq (2 * dim) (nseq (2 * nb) 0)).

(** 531-544 and its copies: write [g i j], and 0 into the halves that belong to Dirichlet conditions. *)
Definition upd2 (T : Type) (a : seq (seq T)) (i j : nat) (v : T) : seq (seq T) := upd a i (upd (nth [::] a i) j v).
Definition bl_write D (g : nat -> nat -> F) lambda_out : seq (seq F) :=
  for_ (size lambda_out) (fun i out =>
    let out := for_ (size (nth [::] out i)) (fun j out => upd2 out i j (g i j)) out in
    let out := if bl_dirichlet D i then
        for_ (size (nth [::] out i) %/ 2) (fun j out => upd2 out i j 0) out else out in
    if bl_laplacian D i then
      let half := (size (nth [::] out i) %/ 2)%N in
      for_ (size (nth [::] out i) - half) (fun j out => upd2 out i (half + j) 0) out
    else out)
  lambda_out.

(** 508-547 trace_to_flux. *)
Definition bl_trace_to_flux P lambda_in lambda_out : outcome (seq (seq F)) :=
  if bl_lambda_ok lambda_in && bl_lambda_ok lambda_out then
    obind (bl_solve_local_problem P 0 lambda_in) (fun coeffs =>
      let primals := bl_primal (bl_df P) coeffs in
      let duals := bl_dual (bl_df P) coeffs in
      Ok (bl_write (bl_df P) (fun i j => lambda_at duals i j + tau * lambda_at primals i j
            - tau * lambda_at lambda_in i (if (j < nb)%N then (j + nb)%N else (j - nb)%N) * df_area (bl_df P) i)
          lambda_out))
  else Abort.
(** 577-614 residual_flux; 602-604 does not exchange the halves of lambda_in. *)
Definition bl_residual_flux P lambda_in lambda_out : outcome (seq (seq F)) :=
  if bl_lambda_ok lambda_in && bl_lambda_ok lambda_out then
    obind (bl_solve_local_problem P 1 lambda_in) (fun coeffs =>
      let primals := bl_primal (bl_df P) coeffs in
      let duals := bl_dual (bl_df P) coeffs in
      Ok (bl_write (bl_df P) (fun i j => lambda_at duals i j + tau * lambda_at primals i j
            - tau * lambda_at lambda_in i j * df_area (bl_df P) i) lambda_out))
  else Abort.

(** 551-564 node_types. *)
Definition bl_node_types D : seq nat :=
  for_ (2 * dim) (fun i r => if bl_dirichlet D i then upd r i 1%N else r) (nseq (2 * dim) 0%N).

(** 627-655 make_initial; 642-645 and 647-650 pass the face where TPP expects the number of a face function and
    conversely (the other solvers call it with j, i), and j runs up to 2 * n_shape_bdr_. *)
Definition bl_make_initial P lambda : seq (seq F) :=
  let D := bl_df P in
  for_ (size lambda) (fun i t =>
    if bl_dirichlet D i then for_ (size (nth [::] t i)) (fun j t => upd2 t i j 0) t
    else
      let half := (size (nth [::] t i) %/ 2)%N in
      let t := for_ half (fun j t => upd2 t i j (df_initial D i j)) t in
      for_ (size (nth [::] t i) - half) (fun j t => upd2 t i (half + j) (bl_initlap P i (half + j))) t)
  lambda.

(** 673-711 trace_to_mass_flux (solution type 0), 728-766 total_numerical_flux_mass (solution type 1). *)
Definition bl_mass_flux P (solution_type : nat) lambda_in lambda_out : outcome (seq (seq F)) :=
  if bl_lambda_ok lambda_in && bl_lambda_ok lambda_out then
    obind (bl_solve_local_problem P solution_type lambda_in) (fun coeffs =>
    obind (bl_solve_mass_problem P coeffs) (fun coeffs =>
      let primals := bl_primal (bl_df P) coeffs in
      let duals := bl_dual (bl_df P) coeffs in
      Ok (bl_write (bl_df P) (fun i j => lambda_at duals i j + tau * lambda_at primals i j) lambda_out)))
  else Abort.
Definition bl_trace_to_mass_flux P lambda_in lambda_out := bl_mass_flux P 0 lambda_in lambda_out.
Definition bl_total_numerical_flux_mass P lambda_in lambda_out := bl_mass_flux P 1 lambda_in lambda_out.

(** 865-867, 911-913. *)
Definition bl_u_coeffs coeffs : seq F := mkseq (fun i => nth 0 coeffs (i + dim * nf)) nf.
(** 851-879 errors. *)
Definition bl_errors P lambda : outcome (seq F) :=
  obind (bl_solve_local_problem P 1 lambda) (fun coeffs =>
    let result := df_diffsq (bl_df P) (bl_u_coeffs coeffs) in
    if 0 <= result then Ok [:: result] else Abort).
(** 893-917 errors_temp; [P_old] holds the data at time - delta_t. *)
Definition bl_errors_temp P P_old (delta_t : F) lambda_new lambda_old : outcome F :=
  obind (bl_solve_local_problem P 1 lambda_new) (fun coeffs_new =>
  obind (bl_solve_local_problem P_old 1 lambda_old) (fun coeffs_old =>
    let coeffs_old := mkseq (fun i => nth 0 coeffs_old i - nth 0 coeffs_new i) nl in
    omap (fun coefficients => df_diffsq (bl_df P) (bl_u_coeffs coefficients))
      (bl_solve_loc_prob_cor P lambda_new coeffs_old delta_t))).
(** 1277-1306 bulk_values. *)
Definition bl_bulk_values P (abscissas : seq F) lambda : outcome (seq (seq F)) :=
  omap (fun coefficients =>
    mkseq (fun d => mkseq (df_eval (bl_df P) abscissas (mkseq (fun i => nth 0 coefficients (d * nf + i)) nf))
                      (hc_pow dim (size abscissas))) (dim + 1))
    (bl_solve_local_problem P 1 lambda).
End Bilaplacian.
