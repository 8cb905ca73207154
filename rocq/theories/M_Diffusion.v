(** Model of include/HyperHDG/local_solver/diffusion_ldgh.hxx (class Diffusion).  The integrals of the
    external library TPP, the values of the geometry and the user's parameter functions enter through
    the record [df_data], one value per hyperedge and time.  Simplifications: floating point numbers
    are elements of a real field; hy_assert is active; the geometry's local_normal, which may fail in
    LAPACK, is taken to succeed (M_Geometry models it with its failures). *)
From mathcomp Require Import all_ssreflect all_algebra.
From Verif Require Import M_Base M_Index M_DenseLA M_Lapack M_DiffusionUniform.
Set Implicit Arguments. Unset Strict Implicit. Unset Printing Implicit Defensive.
Local Open Scope ring_scope.

Record df_data (F : Type) := DfData {
  (** integrate_vol_phiphifunc<inverse_diffusion_coeff>(i,j), 950-953. *)
  df_vol : nat -> nat -> F;
  (** integrate_vol_phiphi(i,j), 1095. *)
  df_mass : nat -> nat -> F;
  (** integrate_vol_nablaphiphi(i,j)[dim], 956-959. *)
  df_grad : nat -> nat -> nat -> F;
  (** integrate_bdr_phiphi(i,j,face), 965; integrate_bdr_phipsi(i,j,face), 1018, 1125, 1156. *)
  df_bb : nat -> nat -> nat -> F; df_bp : nat -> nat -> nat -> F;
  (** integrate_vol_phifunc<right_hand_side>(i), 1052; integrate_bdr_phifunc<dirichlet_value>(i,face), 1059;
      integrate_bdrUni_psifunc<initial>(j,face), 622. *)
  df_src : nat -> F; df_dirval : nat -> nat -> F; df_initial : nat -> nat -> F;
  (** geometry.local_normal(face)[dim], geometry.face_area(face). *)
  df_normal : nat -> nat -> F; df_area : nat -> F;
  (** integrate_vol_diffsquare_discana<analytic_result>(coeffs), 832, 881. *)
  df_diffsq : seq F -> F;
  (** shape_fun_t::lin_comb_fct_val(coeffs, tensorial_pt(pt, abscissas)), 1202-1203; abscissas first. *)
  df_eval : seq F -> seq F -> nat -> F;
  (** node_descriptor[face]. *)
  df_types : seq nat }.

Section Diffusion.
Variable F : realFieldType.
Variable gesv : nat -> nat -> seq F -> seq F -> sv_result F.
(** hyEdge_dimT, poly_deg, parameters::dirichlet_nodes, tau_. *)
Variables (dim poly_deg : nat) (dirichlet_nodes : seq nat) (tau : F).
Implicit Types (D : df_data F) (coeffs : seq F) (lambda : seq (seq F)).

(** 181-184, 202-210: the numbers of shape functions are those of DiffusionUniform. *)
Local Notation nf := (n_shape_fct dim poly_deg).
Local Notation nb := (n_shape_bdr dim poly_deg).
Local Notation nl := (n_loc_dofs dim poly_deg).

(** 227-231 is_dirichlet. *)
Definition is_dirichlet (node_type : nat) : bool := node_type \in dirichlet_nodes.
Definition face_dirichlet D face : bool := is_dirichlet (nth 0%N (df_types D) face).

(** 935-984 assemble_loc_matrix. *)
Definition df_face_loop D i j : F * seq F :=
  for_ (2 * dim) (fun face st =>
    let helper := df_bb D i j face in
    (st.1 + helper, for_ dim (fun d v => add_at v d (helper * df_normal D face d)) st.2))
  (0, nseq dim 0).
Definition df_assemble_loc_matrix D : seq F :=
  for_ nf (fun i A => for_ nf (fun j A =>
    let vol_integral := df_vol D i j in
    let grad_int_vec := df_grad D i j in
    let st := df_face_loop D i j in
    let A := madd nl A (dim * nf + i) (dim * nf + j) (tau * st.1) in
    for_ dim (fun d A =>
      let A := madd nl A (d * nf + i) (d * nf + j) vol_integral in
      let A := madd nl A (dim * nf + i) (d * nf + j) (- grad_int_vec d) in
      let A := madd nl A (d * nf + i) (dim * nf + j) (- grad_int_vec d) in
      madd nl A (dim * nf + i) (d * nf + j) (nth 0 st.2 d)) A) A)
  (zeros F nl nl).

(** 999-1028 assemble_rhs_from_lambda. *)
Definition df_rhs_lambda_loop D lambda : seq F :=
  for_ nf (fun i r => for_ nb (fun j r => for_ (2 * dim) (fun face r =>
    let integral := df_bp D i j face in
    let r := add_at r (dim * nf + i) (tau * lambda_at lambda face j * integral) in
    for_ dim (fun d r =>
      add_at r (d * nf + i) (- (df_normal D face d * lambda_at lambda face j * integral))) r) r) r)
  (zeros F nl 1).
Definition df_rhs_lambda D lambda : outcome (seq F) :=
  if lambda_ok dim poly_deg lambda then Ok (df_rhs_lambda_loop D lambda) else Abort.

(** 1043-1071 assemble_rhs_from_global_rhs. *)
Definition df_rhs_global D : seq F :=
  for_ nf (fun i r =>
    let r := upd r (dim * nf + i) (df_src D i) in
    for_ (2 * dim) (fun face r =>
      if ~~ face_dirichlet D face then r else
      let integral := df_dirval D i face in
      let r := add_at r (dim * nf + i) (tau * integral) in
      for_ dim (fun d r => add_at r (d * nf + i) (- (df_normal D face d * integral))) r) r)
  (zeros F nl 1).

(** 1086-1098 assemble_rhs_from_coeffs. *)
Definition df_rhs_coeffs D coeffs : seq F :=
  for_ nf (fun i r => for_ nf (fun j r =>
    add_at r (dim * nf + i) (nth 0 coeffs (dim * nf + j) * df_mass D i j)) r)
  (zeros F nl 1).

(** rhs / assemble_loc_matrix; a LAPACK failure ends in the assertion of the handler. *)
Definition df_divide D rhs : outcome (seq F) :=
  match (solve_const gesv nl 1 rhs (df_assemble_loc_matrix D)).1 with
  | Throw => Abort
  | r => r
  end.

(** 346-369 solve_local_problem. *)
Definition df_solve_local_problem D (solution_type : nat) lambda : outcome (seq F) :=
  obind (if solution_type == 0%N then df_rhs_lambda D lambda
         else if solution_type == 1%N then
           omap (fun r => mat_add nl 1 1 r (df_rhs_global D)) (df_rhs_lambda D lambda)
         else Abort) (df_divide D).
(** 383-398 solve_mass_problem. *)
Definition df_solve_mass_problem D coeffs : outcome (seq F) := df_divide D (df_rhs_coeffs D coeffs).
(** 405-426 solve_loc_prob_cor. *)
Definition df_solve_loc_prob_cor D lambda coeffs : outcome (seq F) :=
  obind (omap (fun r => mat_add nl 1 1 (mat_add nl 1 1 r (df_rhs_global D)) (df_rhs_coeffs D coeffs))
              (df_rhs_lambda D lambda)) (df_divide D).

(** 1114-1129 primal_at_boundary: a SmallMat with 2*dim rows. *)
Definition df_primal D coeffs : seq F :=
  for_ nf (fun i t => for_ nb (fun j t => for_ (2 * dim) (fun face t =>
    madd (2 * dim) t face j (nth 0 coeffs (dim * nf + i) * df_bp D i j face)) t) t)
  (zeros F (2 * dim) nb).
(** 1145-1164 dual_at_boundary. *)
Definition df_dual D coeffs : seq F :=
  for_ nf (fun i t => for_ nb (fun j t => for_ (2 * dim) (fun face t =>
    let integral := df_bp D i j face in
    for_ dim (fun d t =>
      madd (2 * dim) t face j (df_normal D face d * integral * nth 0 coeffs (d * nf + i))) t) t) t)
  (zeros F (2 * dim) nb).

(** 513-521 and its copies: write [g i j], or 0 on the faces with Dirichlet nodes. *)
Definition df_write D (g : nat -> nat -> F) lambda_out : seq (seq F) :=
  for_ (size lambda_out) (fun i out =>
    for_ (size (nth [::] out i)) (fun j out =>
      upd out i (upd (nth [::] out i) j (if face_dirichlet D i then 0 else g i j))) out)
  lambda_out.

(** 490-524 trace_to_flux (solution type 0), 554-590 residual_flux (solution type 1). *)
Definition df_flux D (solution_type : nat) lambda_in lambda_out : outcome (seq (seq F)) :=
  if lambda_ok dim poly_deg lambda_in && lambda_ok dim poly_deg lambda_out then
    obind (df_solve_local_problem D solution_type lambda_in) (fun coeffs =>
      let primals := df_primal D coeffs in
      let duals := df_dual D coeffs in
      Ok (df_write D (fun i j => mget (2 * dim) duals i j + tau * mget (2 * dim) primals i j
                                 - tau * lambda_at lambda_in i j * df_area D i) lambda_out))
  else Abort.
Definition df_trace_to_flux D lambda_in lambda_out := df_flux D 0 lambda_in lambda_out.
Definition df_residual_flux D lambda_in lambda_out := df_flux D 1 lambda_in lambda_out.

(** 528-541 node_types. *)
Definition df_node_types D : seq nat :=
  for_ (2 * dim) (fun i r => if face_dirichlet D i then upd r i 1%N else r) (nseq (2 * dim) 0%N).

(** 603-628 make_initial. *)
Definition df_make_initial D lambda : outcome (seq (seq F)) :=
  if lambda_ok dim poly_deg lambda then
    Ok (df_write D (fun i j => df_initial D j i) lambda)
  else Abort.

(** 719-754 trace_to_mass_flux (solution type 0), 769-804 total_numerical_flux_mass (solution type 1). *)
Definition df_mass_flux D (solution_type : nat) lambda_in lambda_out : outcome (seq (seq F)) :=
  if lambda_ok dim poly_deg lambda_in && lambda_ok dim poly_deg lambda_out then
    obind (df_solve_local_problem D solution_type lambda_in) (fun coeffs =>
    obind (df_solve_mass_problem D coeffs) (fun coeffs =>
      let primals := df_primal D coeffs in
      let duals := df_dual D coeffs in
      Ok (df_write D (fun i j => mget (2 * dim) duals i j + tau * mget (2 * dim) primals i j)
            lambda_out)))
  else Abort.
Definition df_trace_to_mass_flux D lambda_in lambda_out := df_mass_flux D 0 lambda_in lambda_out.
Definition df_total_numerical_flux_mass D lambda_in lambda_out := df_mass_flux D 1 lambda_in lambda_out.

(** The last n_shape_fct_ coefficients, 828-830. *)
Definition df_u_coeffs coeffs : seq F := mkseq (fun i => nth 0 coeffs (i + dim * nf)) nf.
(** 815-836 errors. *)
Definition df_errors D lambda : outcome (seq F) :=
  if lambda_ok dim poly_deg lambda then
    omap (fun coeffs => [:: df_diffsq D (df_u_coeffs coeffs)]) (df_solve_local_problem D 1 lambda)
  else Abort.
(** 851-884 errors_temp; [D_old] holds the data at time - delta_t.  A division by zero is left to the
    field. *)
Definition df_errors_temp D D_old (delta_t : F) lambda_new lambda_old : outcome F :=
  if lambda_ok dim poly_deg lambda_new && lambda_ok dim poly_deg lambda_old then
    obind (df_solve_local_problem D 1 lambda_new) (fun coeffs_new =>
    obind (df_solve_local_problem D_old 1 lambda_old) (fun coeffs_old =>
      let coeffs_old := mkseq (fun i => (nth 0 coeffs_old i - nth 0 coeffs_new i) / delta_t) nl in
      omap (fun coefficients => df_diffsq D (df_u_coeffs coefficients))
        (df_solve_loc_prob_cor D lambda_new coeffs_old)))
  else Abort.
(** 1182-1207 bulk_values; [n_pts] = pow(abscissas_sizeT). *)
Definition df_bulk_values D (abscissas : seq F) lambda : outcome (seq (seq F)) :=
  omap (fun coefficients =>
    mkseq (fun d => mkseq (df_eval D abscissas (mkseq (fun i => nth 0 coefficients (d * nf + i)) nf))
                      (hc_pow dim (size abscissas))) (dim + 1))
    (df_solve_local_problem D 1 lambda).
End Diffusion.
