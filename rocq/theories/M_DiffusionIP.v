(** Model of include/HyperHDG/local_solver/diffusion_ip.hxx (class DiffusionIP), the hybrid interior penalty method:
    the only local unknown is u, with n_shape_fct_ coefficients.  The integrals of the external library TPP, the values
    of the geometry and the user's parameter functions enter through the record [ip_data], one value per hyperedge;
    those that TPP evaluates at a time are functions of the time.  Simplifications: floating point numbers are elements
    of a real field; hy_assert is active.  assemble_rhs_from_coeffs (737-748) is never called and not modelled. *)
From mathcomp Require Import all_ssreflect all_algebra.
From Verif Require Import M_Base M_Index M_DenseLA M_Lapack M_DiffusionUniform.
Set Implicit Arguments. Unset Strict Implicit. Unset Printing Implicit Defensive.
Import GRing.Theory.
Local Open Scope ring_scope.

Record ip_data (F : Type) := IpData {
  (** integrate_vol_nablaphinablaphifunc<diffusion_coeff>(i, j, geometry, time), 623-626. *)
  ip_stiff : F -> nat -> nat -> F;
  (** integrate_bdr_phiphi(i, j, face), 631; integrate_bdr_phipsi(i, j, face), 676, 775. *)
  ip_bb : nat -> nat -> nat -> F; ip_bp : nat -> nat -> nat -> F;
  (** integrate_bdr_nablaphiphinufunc<diffusion_coeff>(i, j, face, geometry, time), 633-636;
      integrate_bdr_nablaphipsinufunc<diffusion_coeff>(i, j, face, geometry, time), 806-809. *)
  ip_nbb : F -> nat -> nat -> nat -> F; ip_nbp : F -> nat -> nat -> nat -> F;
  (** integrate_vol_phifunc<right_hand_side>(i, geometry, time), 705; integrate_bdr_phifunc<dirichlet_value>(i, face,
      geometry, time), 713. *)
  ip_src : F -> nat -> F; ip_dirval : F -> nat -> nat -> F;
  (** geometry.face_area(face). *)
  ip_area : nat -> F;
  (** integrate_vol_diffsquare_discana<analytic_result>(coeffs, geometry, time), 556-559. *)
  ip_diffsq : F -> seq F -> F;
  (** shape_fun_t::lin_comb_fct_val(coeffs, tensorial_pt(pt, abscissas)), 854; abscissas first. *)
  ip_eval : seq F -> seq F -> nat -> F;
  (** node_descriptor[face]. *)
  ip_types : seq nat }.

Section DiffusionIP.
Variable F : realFieldType.
Variable gesv : nat -> nat -> seq F -> seq F -> sv_result F.
(** hyEdge_dimT, poly_deg, parameters::dirichlet_nodes, tau_. *)
Variables (dim poly_deg : nat) (dirichlet_nodes : seq nat) (tau : F).
Implicit Types (P : ip_data F) (time : F) (coeffs : seq F) (lambda : seq (seq F)).

(** 201-209: the numbers of shape functions are those of DiffusionUniform; n_loc_dofs_ = n_shape_fct_. *)
Local Notation nf := (n_shape_fct dim poly_deg).
Local Notation nb := (n_shape_bdr dim poly_deg).

(** 224-231 is_dirichlet. *)
Definition ip_face_dirichlet P face : bool := nth 0%N (ip_types P) face \in dirichlet_nodes.

(** 611-642 assemble_loc_matrix; the integral with the normal derivative is called without the time, 633-636, whose
    default is 0, and with the indices (j, i). *)
Definition ip_assemble_loc_matrix P time : seq F :=
  for_ nf (fun i A => for_ nf (fun j A =>
    let A := madd nf A i j (ip_stiff P time i j) in
    for_ (2 * dim) (fun face A =>
      let A := madd nf A i j (tau * ip_bb P i j face) in
      madd nf A i j (- ip_nbb P 0 j i face)) A) A)
  (zeros F nf nf).

(** 658-681 assemble_rhs_from_lambda. *)
Definition ip_rhs_lambda_loop P lambda : seq F :=
  for_ nf (fun i r => for_ nb (fun j r => for_ (2 * dim) (fun face r =>
    add_at r i (tau * lambda_at lambda face j * ip_bp P i j face)) r) r)
  (zeros F nf 1).
Definition ip_rhs_lambda P lambda : outcome (seq F) :=
  if lambda_ok dim poly_deg lambda then Ok (ip_rhs_lambda_loop P lambda) else Abort.

(** 697-721 assemble_rhs_from_global_rhs. *)
Definition ip_rhs_global P time : seq F :=
  for_ nf (fun i r =>
    let r := upd r i (ip_src P time i) in
    for_ (2 * dim) (fun face r =>
      if ~~ ip_face_dirichlet P face then r else add_at r i (tau * ip_dirval P time i face)) r)
  (zeros F nf 1).

(** rhs / assemble_loc_matrix; a LAPACK failure ends in the assertion of the handler. *)
Definition ip_divide P time rhs : outcome (seq F) :=
  match (solve_const gesv nf 1 rhs (ip_assemble_loc_matrix P time)).1 with
  | Throw => Abort
  | r => r
  end.

(** 345-369 solve_local_problem. *)
Definition ip_solve_local_problem P (solution_type : nat) lambda time : outcome (seq F) :=
  obind (if solution_type == 0%N then ip_rhs_lambda P lambda
         else if solution_type == 1%N then
           omap (fun r => mat_add nf 1 1 r (ip_rhs_global P time)) (ip_rhs_lambda P lambda)
         else Abort) (ip_divide P time).

(** 765-780 primal_at_boundary: a SmallMat with 2*dim rows. *)
Definition ip_primal P coeffs : seq F :=
  for_ nf (fun i t => for_ nb (fun j t => for_ (2 * dim) (fun face t =>
    madd (2 * dim) t face j (nth 0 coeffs i * ip_bp P i j face)) t) t)
  (zeros F (2 * dim) nb).
(** 796-813 dual_at_boundary; the integral is called without the time, 806-809. *)
Definition ip_dual P coeffs : seq F :=
  for_ nf (fun i t => for_ nb (fun j t => for_ (2 * dim) (fun face t =>
    madd (2 * dim) t face j (- (ip_nbp P 0 i j face * nth 0 coeffs i))) t) t)
  (zeros F (2 * dim) nb).

(** 455-463 and 520-530: write [g i j], or 0 on the faces with Dirichlet nodes. *)
Definition ip_write P (g : nat -> nat -> F) lambda_out : seq (seq F) :=
  for_ (size lambda_out) (fun i out =>
    for_ (size (nth [::] out i)) (fun j out =>
      upd out i (upd (nth [::] out i) j (if ip_face_dirichlet P i then 0 else g i j))) out)
  lambda_out.

(** 433-466 trace_to_flux (solution type 0), 497-533 residual_flux (solution type 1). *)
Definition ip_flux P (solution_type : nat) lambda_in lambda_out time : outcome (seq (seq F)) :=
  if lambda_ok dim poly_deg lambda_in && lambda_ok dim poly_deg lambda_out then
    obind (ip_solve_local_problem P solution_type lambda_in time) (fun coeffs =>
      let primals := ip_primal P coeffs in
      let duals := ip_dual P coeffs in
      Ok (ip_write P (fun i j => mget (2 * dim) duals i j + tau * mget (2 * dim) primals i j
                                 - tau * lambda_at lambda_in i j * ip_area P i) lambda_out))
  else Abort.
Definition ip_trace_to_flux P lambda_in lambda_out time := ip_flux P 0 lambda_in lambda_out time.
Definition ip_residual_flux P lambda_in lambda_out time := ip_flux P 1 lambda_in lambda_out time.

(** 471-483 node_types. *)
Definition ip_node_types P : seq nat :=
  for_ (2 * dim) (fun i r => if ip_face_dirichlet P i then upd r i 1%N else r) (nseq (2 * dim) 0%N).

(** 544-560 errors. *)
Definition ip_errors P lambda time : outcome (seq F) :=
  if lambda_ok dim poly_deg lambda then
    omap (fun coeffs => [:: ip_diffsq P time coeffs]) (ip_solve_local_problem P 1 lambda time)
  else Abort.

(** 832-859 bulk_values; system_dim = 1. *)
Definition ip_bulk_values P (abscissas : seq F) lambda time : outcome (seq (seq F)) :=
  omap (fun coefficients =>
    mkseq (fun d => mkseq (ip_eval P abscissas (mkseq (fun i => nth 0 coefficients (d * nf + i)) nf))
                      (hc_pow dim (size abscissas))) 1)
    (ip_solve_local_problem P 1 lambda time).
End DiffusionIP.
