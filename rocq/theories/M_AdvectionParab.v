(** Model of include/HyperHDG/local_solver/advection_parab_ldgh.hxx (class AdvectionParab).  The integrals of the
    external library TPP, the geometry and the parameter functions enter through a record, one value per hyperedge
    and time; what the hyperedge stores between calls (hyper_edge.data) is a second record.  The integrals of TPP
    called ..._cutwind and ..._cutdownwind are functions of the numbers of the shape functions and of the face;
    nothing is assumed about the way in which TPP cuts them.  hy_assert is active. *)
From mathcomp Require Import all_ssreflect all_algebra.
From Verif Require Import M_Base M_Index M_DenseLA M_Lapack M_DiffusionUniform M_Diffusion.
Set Implicit Arguments. Unset Strict Implicit. Unset Printing Implicit Defensive.
Local Open Scope ring_scope.

Record ap_data (F : Type) := ApData {
  (** node_descriptor[face], 175, 192. *)
  ap_types : seq nat;
  (** scalar_product(geometry.inner_normal(face), velocity(geometry.face_barycenter(face), time)), 183, 200. *)
  ap_wind : nat -> F;
  (** integrate_vol_phiphi(i, j), 852; integrate_vol_nablaphiphivecfunc<velocity>(i, j), 857. *)
  ap_vol : nat -> nat -> F; ap_adv : nat -> nat -> F;
  (** On a face: integrate_bdr_phiphinuvecfunc_cutwind, 866, integrate_bdr_phiphi_cutwind, 871. *)
  ap_bbn : nat -> nat -> nat -> F; ap_bb : nat -> nat -> nat -> F;
  (** integrate_bdr_phipsinuvecfunc_cutwind, 915, integrate_bdr_phipsi_cutdownwind, 920. *)
  ap_bpn : nat -> nat -> nat -> F; ap_bp : nat -> nat -> nat -> F;
  (** integrate_bdr_psiphinuvecfunc_cutwind, 1010, integrate_bdr_psiphi_cutwind, 1014. *)
  ap_pbn : nat -> nat -> nat -> F; ap_pb : nat -> nat -> nat -> F;
  (** integrate_bdr_psipsinuvecfunc_cutwind, 1033, integrate_bdr_psipsi_cutdownwind, 1037. *)
  ap_ppn : nat -> nat -> nat -> F; ap_pp : nat -> nat -> nat -> F;
  (** integrate_vol_phifunc<right_hand_side>(i), 953;
      integrate_bdr_phifuncnuvecfunc_cutwind<dirichlet_value, velocity>(i, face), 963; geometry.area(), 970. *)
  ap_src : nat -> F; ap_dirval : nat -> nat -> F; ap_area : F;
  (** integrate_bdrUni_psifunc<initial>(j, face), 659; integrate_volUni_phifunc<initial>(i), 667. *)
  ap_init_psi : nat -> nat -> F; ap_init_phi : nat -> F;
  (** integrate_vol_diffsquare_discana<analytic_result>(coefficients), 785; lin_comb_fct_val at a tensorial point, 1089. *)
  ap_diffsq : seq F -> F; ap_eval : seq F -> seq F -> nat -> F }.

(** 357-361 data_type; boundary_flux_old has n_shape_bdr_ rows and 2 * hyEdge_dimT columns. *)
Record ap_state (F : Type) := ApState { ap_u_old : seq F; ap_flux_old : seq F; ap_bdr_old : seq F }.

Section AdvectionParab.
Variable F : realFieldType.
Variable gesv : nat -> nat -> seq F -> seq F -> sv_result F.
(** hyEdge_dimT, poly_deg, parameters::dirichlet_nodes, outflow_nodes, boundary_nodes, tau_, theta_, delta_t_. *)
Variables (dim poly_deg : nat) (dirichlet_nodes outflow_nodes boundary_nodes : seq nat) (tau theta delta_t : F).
Implicit Types (P : ap_data F) (S : ap_state F) (coeffs : seq F) (lambda : seq (seq F)).

(** 127-130 n_glob_dofs_per_node, 146-154 n_shape_fct_, n_shape_bdr_; n_loc_dofs_ is n_shape_fct_. *)
Definition ap_shape_bdr : nat := hc_pow (dim - 1) (poly_deg + 1).
Definition ap_shape_fct : nat := (ap_shape_bdr * (poly_deg + 1))%N.
Local Notation nb := ap_shape_bdr.
Local Notation nf := ap_shape_fct.

(** SmallVec and SmallMat are filled with zeros. *)
Definition ap_state0 : ap_state F := ApState (nseq nf 0) (nseq nf 0) (zeros F nb (2 * dim)).

(** 171-185 is_dirichlet, 188-202 is_outflow. *)
Definition ap_dirichlet P (face : nat) : bool :=
  let node_type := nth 0%N (ap_types P) face in
  if node_type \in dirichlet_nodes then true
  else if node_type \notin boundary_nodes then false
  else (ap_wind P face <= 0)%R.
Definition ap_outflow P (face : nat) : bool :=
  let node_type := nth 0%N (ap_types P) face in
  if node_type \in outflow_nodes then true
  else if node_type \notin boundary_nodes then false
  else (0 < ap_wind P face)%R.

(** 836-879 assemble_loc_matrix. *)
Definition ap_assemble_loc_matrix P : seq F :=
  for_ nf (fun i A => for_ nf (fun j A =>
    let A := madd nf A i j (ap_vol P i j) in
    let A := madd nf A i j (- (theta * delta_t * ap_adv P i j)) in
    for_ (2 * dim) (fun face A =>
      madd nf A i j (theta * delta_t * (ap_bbn P i j face + tau * ap_bb P i j face))) A) A)
  (zeros F nf nf).

(** 902-906: the sizes of arrays of traces. *)
Definition ap_lambda_ok lambda : bool := (size lambda == 2 * dim)%N && all (fun l => size l == nb) lambda.
(** 890-926 assemble_rhs_from_lambda. *)
Definition ap_rhs_lambda_loop P lambda : seq F :=
  for_ nf (fun i r => for_ nb (fun j r => for_ (2 * dim) (fun face r =>
    add_at r i (- (theta * delta_t * lambda_at lambda face j *
      (ap_bpn P i j face - tau * ap_bp P i j face)))) r) r) (zeros F nf 1).
Definition ap_rhs_lambda P lambda : outcome (seq F) :=
  if ap_lambda_ok lambda then Ok (ap_rhs_lambda_loop P lambda) else Abort.
(** 937-974 assemble_rhs_from_global_rhs. *)
Definition ap_rhs_global P S : seq F :=
  let r := for_ nf (fun i r =>
    let r := upd r i (theta * delta_t * ap_src P i) in
    for_ (2 * dim) (fun face r =>
      if ap_dirichlet P face then add_at r i (- (theta * delta_t * ap_dirval P i face)) else r) r)
  (zeros F nf 1) in
  for_ nf (fun i r => add_at r i (nth 0 (ap_u_old S) i * ap_area P +
                                  delta_t * (1 - theta) * nth 0 (ap_flux_old S) i)) r.
(** rhs / assemble_loc_matrix, 320; a LAPACK failure ends in the assertion of the handler, 322-327. *)
Definition ap_divide P rhs : outcome (seq F) :=
  match (solve_const gesv nf 1 rhs (ap_assemble_loc_matrix P)).1 with
  | Throw => Abort
  | r => r
  end.
(** 305-328 solve_local_problem. *)
Definition ap_solve_local_problem P S (solution_type : nat) lambda : outcome (seq F) :=
  obind (if solution_type == 0%N then ap_rhs_lambda P lambda
         else if solution_type == 1%N then
           omap (fun r => mat_add nf 1 1 r (ap_rhs_global P S)) (ap_rhs_lambda P lambda)
         else Abort) (ap_divide P).

(** 985-1057 flux_at_boundary; the array of the faces is stored face by face. *)
Definition ap_flux_loops P lambda coeffs : seq F :=
  let v := for_ nb (fun i v => for_ nf (fun j v => for_ (2 * dim) (fun face v =>
    if ~~ ap_outflow P face then
      add_at v (face * nb + i) (nth 0 coeffs j * (ap_pbn P i j face + tau * ap_pb P i j face))
    else add_at v (face * nb + i) (tau * nth 0 coeffs j * ap_pb P i j face)) v) v) (nseq (2 * dim * nb) 0) in
  for_ nb (fun i v => for_ nb (fun j v => for_ (2 * dim) (fun face v =>
    if ~~ ap_outflow P face then
      add_at v (face * nb + i) (lambda_at lambda face j * (ap_ppn P i j face - tau * ap_pp P i j face))
    else add_at v (face * nb + i) (- (lambda_at lambda face j * tau * ap_pp P i j face))) v) v) v.
Definition ap_flux_at_boundary P S lambda coeffs (residual : bool) : seq F :=
  for_ (2 * dim) (fun face v => for_ nb (fun i v =>
    let v := upd v (face * nb + i) (nth 0 v (face * nb + i) * theta) in
    if residual then add_at v (face * nb + i) ((1 - theta) * mget nb (ap_bdr_old S) i face) else v) v)
  (ap_flux_loops P lambda coeffs).

(** 462-470, 509-518, 652-663: the loops over lambda_values_out, in place. *)
Definition ap_write P (g : nat -> nat -> F) lambda_out : seq (seq F) :=
  for_ (size lambda_out) (fun i out =>
    for_ (size (nth [::] out i)) (fun j out =>
      upd out i (upd (nth [::] out i) j (if ap_dirichlet P i then 0 else g i j))) out)
  lambda_out.
(** 439-472 trace_to_flux. *)
Definition ap_trace_to_flux P S lambda_in lambda_out : outcome (seq (seq F)) :=
  if ap_lambda_ok lambda_in && ap_lambda_ok lambda_out then
    obind (ap_solve_local_problem P S 0 lambda_in) (fun coeffs =>
      let primals := ap_flux_at_boundary P S lambda_in coeffs false in
      Ok (ap_write P (fun i j => nth 0 primals (i * nb + j)) lambda_out))
  else Abort.
(** 488-521 residual_flux. *)
Definition ap_residual_flux P S lambda_in lambda_out : outcome (seq (seq F)) :=
  if ap_lambda_ok lambda_in && ap_lambda_ok lambda_out then
    obind (ap_solve_local_problem P S 1 lambda_in) (fun coeffs =>
      let primals := ap_flux_at_boundary P S lambda_in coeffs true in
      Ok (ap_write P (fun i j => nth 0 primals (i * nb + j)) lambda_out))
  else Abort.

(** 541-589 and 673-721: the new flux_old; the entry of [flux_old] is overwritten first. *)
Definition ap_fill_flux P (u_old : seq F) lambda (flux_old : seq F) : seq F :=
  for_ nf (fun i v =>
    let v := upd v i (ap_src P i) in
    let v := for_ nf (fun j v =>
      let v := add_at v i (ap_adv P i j * nth 0 u_old j) in
      for_ (2 * dim) (fun face v =>
        add_at v i (- (nth 0 u_old j * (ap_bbn P i j face + tau * ap_bb P i j face)))) v) v in
    for_ (2 * dim) (fun face v =>
      if ~~ ap_dirichlet P face then
        for_ nb (fun j v => add_at v i (- (lambda_at lambda face j *
          (ap_bpn P i j face - tau * ap_bp P i j face)))) v
      else add_at v i (- ap_dirval P i face)) v) flux_old.
(** 540, 591-634 and 672, 723-766: the new boundary_flux_old, filled with zeros first. *)
Definition ap_fill_bdr P (u_old : seq F) lambda : seq F :=
  for_ nb (fun i b => for_ (2 * dim) (fun face b =>
    let b := if ~~ ap_outflow P face then
        for_ nf (fun j b => madd nb b i face
          (nth 0 u_old j * (ap_pbn P i j face + tau * ap_pb P i j face))) b
      else for_ nf (fun j b => madd nb b i face (tau * nth 0 u_old j * ap_pb P i j face)) b in
    if ~~ ap_outflow P face then
      for_ nb (fun j b => madd nb b i face
        (lambda_at lambda face j * (ap_ppn P i j face - tau * ap_pp P i j face))) b
    else for_ nb (fun j b => madd nb b i face (- (lambda_at lambda face j * tau * ap_pp P i j face))) b) b)
  (zeros F nb (2 * dim)).
(** 529-635 set_data. *)
Definition ap_set_data P lambda S : outcome (ap_state F) :=
  omap (fun u_old => ApState u_old (ap_fill_flux P u_old lambda (ap_flux_old S)) (ap_fill_bdr P u_old lambda))
    (ap_solve_local_problem P S 1 lambda).
(** 644-769 make_initial: the new trace and the new data; the sizes of lambda_values are not checked. *)
Definition ap_make_initial P S lambda : seq (seq F) * ap_state F :=
  let lambda := ap_write P (fun i j => ap_init_psi P j i) lambda in
  let u_old := for_ nf (fun i u => upd u i (ap_init_phi P i)) (ap_u_old S) in
  (lambda, ApState u_old (ap_fill_flux P u_old lambda (ap_flux_old S)) (ap_fill_bdr P u_old lambda)).

(** 777-789 errors: the trace is not used. *)
Definition ap_errors P S lambda : seq F := [:: ap_diffsq P (ap_u_old S)].
(** 1076-1096 bulk_values: neither is it here. *)
Definition ap_bulk_values P S (abscissas : seq F) lambda : seq (seq F) :=
  mkseq (fun d => mkseq (ap_eval P abscissas (ap_u_old S)) (hc_pow dim (size abscissas))) 1.
End AdvectionParab.
