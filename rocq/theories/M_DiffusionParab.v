(** Model of include/HyperHDG/local_solver/diffusion_parab_ldgh.hxx (class DiffusionParab).  As in
    M_Diffusion the integrals of the external library TPP, the geometry and the parameter functions
    enter through a record, one value per hyperedge and time; what the hyperedge stores between calls
    (hyper_edge.data) is a second record.  Same simplifications as in M_Diffusion. *)
From mathcomp Require Import all_ssreflect all_algebra.
From Verif Require Import M_Base M_Index M_DenseLA M_Lapack M_DiffusionUniform M_Diffusion.
Set Implicit Arguments. Unset Strict Implicit. Unset Printing Implicit Defensive.
Local Open Scope ring_scope.

Record dp_data (F : Type) := DpData {
  (** The integrals, normals, ... at [time] that Diffusion uses as well. *)
  dp_df : df_data F;
  (** integrate_bdr_phifunc<dirichlet_value>(i, face) at time - delta_t_, 958-961. *)
  dp_dirold : nat -> nat -> F;
  (** geometry.area(), 970. *)
  dp_area : F;
  (** integrate_volUni_phifunc<initial>(i), 648; integrate_vol_derphifunc<initial>(i, dim), 669;
      integrate_bdr_phifunc<initial>(i, face), 675. *)
  dp_init_phi : nat -> F; dp_init_der : nat -> nat -> F; dp_init_bdr : nat -> nat -> F }.

(** 361-365 data_type: u_old, flux_old, and boundary_flux_old, a matrix with n_shape_bdr_ rows and
    2 * hyEdge_dimT columns. *)
Record dp_state (F : Type) := DpState { dp_u_old : seq F; dp_flux_old : seq F; dp_bdr_old : seq F }.

Section DiffusionParab.
Variable F : realFieldType.
Variable gesv : nat -> nat -> seq F -> seq F -> sv_result F.
(** hyEdge_dimT, poly_deg, parameters::dirichlet_nodes, tau_, theta_, delta_t_. *)
Variables (dim poly_deg : nat) (dirichlet_nodes : seq nat) (tau theta delta_t : F).
Implicit Types (P : dp_data F) (S : dp_state F) (coeffs : seq F) (lambda : seq (seq F)).

Local Notation nf := (n_shape_fct dim poly_deg).
Local Notation nb := (n_shape_bdr dim poly_deg).
Local Notation nl := (n_loc_dofs dim poly_deg).

(** 361-365: SmallVec and SmallMat are filled with zeros. *)
Definition dp_state0 : dp_state F := DpState (nseq nf 0) (nseq nf 0) (zeros F nb (2 * dim)).

(** 817-873 assemble_loc_matrix; the sums over the faces, 843-852, are those of Diffusion up to the
    order of factors. *)
Definition dp_assemble_loc_matrix P : seq F :=
  let D := dp_df P in
  for_ nf (fun i A => for_ nf (fun j A =>
    let vol_integral := df_vol D i j in
    let grad_int_vec := df_grad D i j in
    let st := df_face_loop dim D i j in
    let A := madd nl A (dim * nf + i) (dim * nf + j) (tau * theta * delta_t * st.1) in
    let A := for_ dim (fun d A =>
      let A := madd nl A (d * nf + i) (d * nf + j) vol_integral in
      let A := madd nl A (d * nf + i) (dim * nf + j) (- grad_int_vec d) in
      let A := madd nl A (dim * nf + i) (d * nf + j) (- (theta * delta_t * grad_int_vec d)) in
      madd nl A (dim * nf + i) (d * nf + j) (theta * delta_t * nth 0 st.2 d)) A in
    madd nl A (dim * nf + i) (dim * nf + j) (df_mass D i j)) A)
  (zeros F nl nl).

(** 889-916 assemble_rhs_from_lambda. *)
Definition dp_rhs_lambda_loop P lambda : seq F :=
  let D := dp_df P in
  for_ nf (fun i r => for_ nb (fun j r => for_ (2 * dim) (fun face r =>
    let integral := df_bp D i j face in
    let r := add_at r (dim * nf + i) (tau * theta * delta_t * lambda_at lambda face j * integral) in
    for_ dim (fun d r =>
      add_at r (d * nf + i) (- (df_normal D face d * lambda_at lambda face j * integral))) r) r) r)
  (zeros F nl 1).
Definition dp_rhs_lambda P lambda : outcome (seq F) :=
  if lambda_ok dim poly_deg lambda then Ok (dp_rhs_lambda_loop P lambda) else Abort.

(** 932-974 assemble_rhs_from_global_rhs. *)
Definition dp_rhs_global P S : seq F :=
  let D := dp_df P in
  let r := for_ nf (fun i r =>
    let r := upd r (dim * nf + i) (theta * delta_t * df_src D i) in
    for_ (2 * dim) (fun face r =>
      if ~~ face_dirichlet dirichlet_nodes D face then r else
      let integral := df_dirval D i face in
      let r := add_at r (dim * nf + i) (tau * theta * delta_t * integral +
                                        tau * (1 - theta) * delta_t * dp_dirold P i face) in
      for_ dim (fun d r => add_at r (d * nf + i) (- (df_normal D face d * integral))) r) r)
  (zeros F nl 1) in
  for_ nf (fun i r => add_at r (dim * nf + i)
    (nth 0 (dp_u_old S) i * dp_area P + delta_t * (1 - theta) * nth 0 (dp_flux_old S) i)) r.

(** rhs / assemble_loc_matrix; a LAPACK failure ends in the assertion of the handler, 315-320. *)
Definition dp_divide P rhs : outcome (seq F) :=
  match (solve_const gesv nl 1 rhs (dp_assemble_loc_matrix P)).1 with
  | Throw => Abort
  | r => r
  end.
(** 298-321 solve_local_problem. *)
Definition dp_solve_local_problem P S (solution_type : nat) lambda : outcome (seq F) :=
  obind (if solution_type == 0%N then dp_rhs_lambda P lambda
         else if solution_type == 1%N then
           omap (fun r => mat_add nl 1 1 r (dp_rhs_global P S)) (dp_rhs_lambda P lambda)
         else Abort) (dp_divide P).

(** 1024-1042 primal_at_boundary and 1060-1087 dual_at_boundary compute what Diffusion does. *)
Definition dp_primal P coeffs : seq F := df_primal dim poly_deg (dp_df P) coeffs.
Definition dp_dual P coeffs : seq F := df_dual dim poly_deg (dp_df P) coeffs.
(** duals + tau * primals - tau * lambda * face_area, 473-474, 529-530, 612-613, 738-739. *)
Definition dp_num_flux P coeffs lambda (i j : nat) : F :=
  mget (2 * dim) (dp_dual P coeffs) i j + tau * mget (2 * dim) (dp_primal P coeffs) i j
  - tau * lambda_at lambda i j * df_area (dp_df P) i.

(** 443-479 trace_to_flux. *)
Definition dp_trace_to_flux P S lambda_in lambda_out : outcome (seq (seq F)) :=
  if lambda_ok dim poly_deg lambda_in && lambda_ok dim poly_deg lambda_out then
    obind (dp_solve_local_problem P S 0 lambda_in) (fun coeffs =>
      Ok (df_write dirichlet_nodes (dp_df P) (fun i j => dp_num_flux P coeffs lambda_in i j * theta)
            lambda_out))
  else Abort.
(** 498-537 residual_flux. *)
Definition dp_residual_flux P S lambda_in lambda_out : outcome (seq (seq F)) :=
  if lambda_ok dim poly_deg lambda_in && lambda_ok dim poly_deg lambda_out then
    obind (dp_solve_local_problem P S 1 lambda_in) (fun coeffs =>
      Ok (df_write dirichlet_nodes (dp_df P) (fun i j =>
            dp_num_flux P coeffs lambda_in i j * theta + (1 - theta) * mget nb (dp_bdr_old S) j i)
            lambda_out))
  else Abort.

(** 565-598 and 684-718: the new flux_old from q_components (coefficients of direction dim at
    dim * n_shape_fct_), u_old and lambda; the entry of [flux_old] is overwritten first. *)
Definition dp_fill_flux P coeffs (u_old : seq F) lambda (flux_old : seq F) : seq F :=
  let D := dp_df P in
  for_ nf (fun i v =>
    let v := upd v i (df_src D i) in
    let v := for_ nf (fun j v =>
      let v := for_ dim (fun d v => add_at v i (nth 0 coeffs (d * nf + j) * df_grad D i j d)) v in
      for_ (2 * dim) (fun face v =>
        let helper := df_bb D i j face in
        let v := for_ dim (fun d v =>
          add_at v i (- (nth 0 coeffs (d * nf + j) * df_normal D face d * helper))) v in
        add_at v i (- (tau * nth 0 u_old j * helper))) v) v in
    for_ nb (fun j v => for_ (2 * dim) (fun face v =>
      add_at v i (tau * lambda_at lambda face j * df_bp D i j face)) v) v) flux_old.
(** 604-614 and 730-740: the new boundary_flux_old. *)
Definition dp_fill_bdr P coeffs lambda (bdr : seq F) : seq F :=
  for_ (size lambda) (fun i b => for_ (size (nth [::] lambda i)) (fun j b =>
    upd b (loc nb j i) (if face_dirichlet dirichlet_nodes (dp_df P) i then 0
                        else dp_num_flux P coeffs lambda i j)) b) bdr.

(** 547-615 set_data. *)
Definition dp_set_data P lambda S : outcome (dp_state F) :=
  omap (fun coeffs =>
    let u_old := for_ nf (fun i u => upd u i (nth 0 coeffs (dim * nf + i))) (dp_u_old S) in
    DpState u_old (dp_fill_flux P coeffs u_old lambda (dp_flux_old S))
      (dp_fill_bdr P coeffs lambda (dp_bdr_old S)))
  (dp_solve_local_problem P S 1 lambda).

(** 665-681: q_components of the initial state, each the solution of a system with the mass matrix
    653-660 (no handler: a LAPACK failure is an exception), stored one after another. *)
Definition dp_mass_flux P : seq F :=
  for_ nf (fun i A => for_ nf (fun j A => upd A (loc nf i j) (df_vol (dp_df P) i j)) A) (zeros F nf nf).
Definition dp_init_rhs P (d : nat) (r : seq F) : seq F :=
  for_ nf (fun i r =>
    let r := upd r i (dp_init_der P i d) in
    for_ (2 * dim) (fun face r =>
      add_at r i (- (dp_init_bdr P i face * df_normal (dp_df P) face d))) r) r.
Definition dp_init_q P : outcome (seq F) :=
  omap fst (foro dim (fun d st => let: (q, local_rhs) := st in
    let local_rhs := dp_init_rhs P d local_rhs in
    omap (fun v => (q ++ v, local_rhs)) (solve_const gesv nf 1 local_rhs (dp_mass_flux P)).1)
  ([::], zeros F nf 1)).
(** 627-743 make_initial: the new trace and the new data. *)
Definition dp_make_initial P S lambda : outcome (seq (seq F) * dp_state F) :=
  let lambda := df_write dirichlet_nodes (dp_df P) (fun i j => df_initial (dp_df P) j i) lambda in
  let u_old := for_ nf (fun i u => upd u i (dp_init_phi P i)) (dp_u_old S) in
  omap (fun q =>
    let coeffs := q ++ u_old in
    (lambda, DpState u_old (dp_fill_flux P coeffs u_old lambda (dp_flux_old S))
               (dp_fill_bdr P coeffs lambda (dp_bdr_old S))))
  (dp_init_q P).

(** 754-765 errors: the trace is not used. *)
Definition dp_errors P S lambda : outcome (seq F) := Ok [:: df_diffsq (dp_df P) (dp_u_old S)].
(** 1096-1127 bulk_values. *)
Definition dp_bulk_values P S (abscissas : seq F) lambda : outcome (seq (seq F)) :=
  omap (fun coefficients =>
    mkseq (fun d => mkseq (df_eval (dp_df P) abscissas (mkseq (fun i => nth 0 coefficients (d * nf + i)) nf))
                      (hc_pow dim (size abscissas))) (dim + 1))
    (dp_solve_local_problem P S 1 lambda).
End DiffusionParab.
