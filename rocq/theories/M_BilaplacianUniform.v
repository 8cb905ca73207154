(** Model of include/HyperHDG/local_solver/bilaplacian_uniform_ldgh.hxx (class BilaplacianUniform): two copies
    of the local solver DiffusionUniform, the second one feeding the first one.  The integrals of the external
    library TPP are parameters; hy_assert is active; the argument time is not used by the class. *)
From mathcomp Require Import all_ssreflect all_algebra.
From Verif Require Import M_Base M_Index M_DenseLA M_Lapack M_DiffusionUniform M_Diffusion.
Set Implicit Arguments. Unset Strict Implicit. Unset Printing Implicit Defensive.
Local Open Scope ring_scope.

Section BilaplacianUniform.
Variable F : realFieldType.
Variable gesv : nat -> nat -> seq F -> seq F -> sv_result F.
(** hyEdge_dimT, poly_deg, the integrator, tau_. *)
Variables (dim poly_deg : nat) (ig : integrator F) (tau : F).
Implicit Types (A rhs coeffs : seq F) (lambda : seq (seq F)).

(** 101-104 n_glob_dofs_per_node, 122-130 n_shape_fct_, n_shape_bdr_, n_loc_dofs_; 363 n_dofs_lap. *)
Definition bu_shape_fct : nat := hc_pow dim (poly_deg + 1).
Definition bu_shape_bdr : nat := hc_pow (dim - 1) (poly_deg + 1).
Definition bu_glob_dofs_per_node : nat := (2 * hc_pow (dim - 1) (poly_deg + 1))%N.
Definition bu_loc_dofs : nat := (2 * (dim + 1) * bu_shape_fct)%N.
Definition bu_dofs_lap : nat := (bu_loc_dofs %/ 2)%N.
Local Notation nf := bu_shape_fct.
Local Notation nb := bu_shape_bdr.
Local Notation nl := bu_loc_dofs.
Local Notation lap := bu_dofs_lap.

(** 355-420 assemble_loc_matrix. *)
Definition bu_assemble_loc_matrix : seq F :=
  for_ nf (fun i A => for_ nf (fun j A =>
    let integral := ig_vol ig i j in
    let A := madd nl A (dim * nf + i) (lap + dim * nf + j) (- integral) in
    let A := for_ dim (fun d A =>
      let A := madd nl A (d * nf + i) (d * nf + j) integral in
      madd nl A (lap + d * nf + i) (lap + d * nf + j) integral) A in
    for_ dim (fun d A =>
      let integral := ig_dvol ig i j d in
      let A := madd nl A (dim * nf + i) (d * nf + j) (- integral) in
      let A := madd nl A (d * nf + i) (dim * nf + j) (- integral) in
      let A := madd nl A (lap + dim * nf + i) (lap + d * nf + j) (- integral) in
      let A := madd nl A (lap + d * nf + i) (lap + dim * nf + j) (- integral) in
      let integral := ig_bb ig i j (2 * d + 1) in
      let A := madd nl A (dim * nf + i) (d * nf + j) integral in
      let A := madd nl A (lap + dim * nf + i) (lap + d * nf + j) integral in
      let A := madd nl A (dim * nf + i) (dim * nf + j) (tau * integral) in
      let A := madd nl A (lap + dim * nf + i) (lap + dim * nf + j) (tau * integral) in
      let integral := ig_bb ig i j (2 * d + 0) in
      let A := madd nl A (dim * nf + i) (d * nf + j) (- integral) in
      let A := madd nl A (lap + dim * nf + i) (lap + d * nf + j) (- integral) in
      let A := madd nl A (dim * nf + i) (dim * nf + j) (tau * integral) in
      madd nl A (lap + dim * nf + i) (lap + dim * nf + j) (tau * integral)) A) A)
  (zeros F nl nl).

(** 266-275, 441-445: the sizes of arrays of traces; n_glob_dofs_per_node() is 2 * n_shape_bdr_. *)
Definition bu_lambda_ok lambda : bool :=
  (size lambda == 2 * dim)%N && all (fun l => size l == (2 * nb)%N) lambda.
(** 426-474 assemble_rhs. *)
Definition bu_rhs_loop lambda : seq F :=
  for_ nf (fun i r => for_ nb (fun j r => for_ dim (fun d r =>
    let integral := ig_bp ig i j (2 * d + 0) in
    let r := add_at r (d * nf + i) (lambda_at lambda (2 * d + 0) j * integral) in
    let r := add_at r (dim * nf + i) (tau * lambda_at lambda (2 * d + 0) j * integral) in
    let r := add_at r (lap + d * nf + i) (lambda_at lambda (2 * d + 0) (nb + j) * integral) in
    let r := add_at r (lap + dim * nf + i) (tau * lambda_at lambda (2 * d + 0) (nb + j) * integral) in
    let integral := ig_bp ig i j (2 * d + 1) in
    let r := add_at r (d * nf + i) (- (lambda_at lambda (2 * d + 1) j * integral)) in
    let r := add_at r (dim * nf + i) (tau * lambda_at lambda (2 * d + 1) j * integral) in
    let r := add_at r (lap + d * nf + i) (- (lambda_at lambda (2 * d + 1) (nb + j) * integral)) in
    add_at r (lap + dim * nf + i) (tau * lambda_at lambda (2 * d + 1) (nb + j) * integral)) r) r)
  (zeros F nl 1).
Definition bu_rhs lambda : outcome (seq F) :=
  if bu_lambda_ok lambda then Ok (bu_rhs_loop lambda) else Abort.

(** 196-211 solve_local_problem: a LAPACK failure ends in the assertion of the handler. *)
Definition bu_solve_local_problem lambda : outcome (seq F) :=
  obind (bu_rhs lambda) (fun rhs =>
    match (solve_const gesv nl 1 rhs bu_assemble_loc_matrix).1 with
    | Throw => Abort
    | r => r
    end).

(** 480-518 primal_at_boundary. *)
Definition bu_primal coeffs : seq (seq F) :=
  for_ nf (fun i t => for_ nb (fun j t => for_ dim (fun d t =>
    let integral := ig_bp ig i j (2 * d + 0) in
    let t := add_at2 t (2 * d + 0) j (nth 0 coeffs (dim * nf + i) * integral) in
    let t := add_at2 t (2 * d + 0) (nb + j) (nth 0 coeffs (lap + dim * nf + i) * integral) in
    let integral := ig_bp ig i j (2 * d + 1) in
    let t := add_at2 t (2 * d + 1) j (nth 0 coeffs (dim * nf + i) * integral) in
    add_at2 t (2 * d + 1) (nb + j) (nth 0 coeffs (lap + dim * nf + i) * integral)) t) t)
  (nseq (2 * dim) (nseq (2 * nb) 0)).
(** 524-562 dual_at_boundary. *)
Definition bu_dual coeffs : seq (seq F) :=
  for_ nf (fun i t => for_ nb (fun j t => for_ dim (fun d t =>
    let integral := ig_bp ig i j (2 * d + 0) in
    let t := add_at2 t (2 * d + 0) j (- (nth 0 coeffs (d * nf + i) * integral)) in
    let t := add_at2 t (2 * d + 0) (nb + j) (- (nth 0 coeffs (lap + d * nf + i) * integral)) in
    let integral := ig_bp ig i j (2 * d + 1) in
    let t := add_at2 t (2 * d + 1) j (nth 0 coeffs (d * nf + i) * integral) in
    add_at2 t (2 * d + 1) (nb + j) (nth 0 coeffs (lap + d * nf + i) * integral)) t) t)
  (nseq (2 * dim) (nseq (2 * nb) 0)).

(** 263-288 trace_to_flux; 299-305 residual_flux calls it with the same arguments. *)
Definition bu_trace_to_flux lambda_in lambda_out : outcome (seq (seq F)) :=
  if bu_lambda_ok lambda_in && bu_lambda_ok lambda_out then
    obind (bu_solve_local_problem lambda_in) (fun coeffs =>
      let primals := bu_primal coeffs in
      let duals := bu_dual coeffs in
      Ok (for_ (size lambda_out) (fun i out =>
            for_ (size (nth [::] out i)) (fun j out =>
              upd out i (upd (nth [::] out i) j
                (nth 0 (nth [::] duals i) j +
                 tau * (nth 0 (nth [::] primals i) j - lambda_at lambda_in i j)))) out)
          lambda_out))
  else Abort.
Definition bu_residual_flux lambda_in lambda_out : outcome (seq (seq F)) :=
  bu_trace_to_flux lambda_in lambda_out.

(** 313-317 errors. *)
Definition bu_errors : seq F := [:: 0].

(** 565-598 bulk_values; [eval] is lin_comb_fct_val at the points tensorial_pt(pt, abscissas), and
    system_dim = hyEdge_dimT + 1 components are returned. *)
Definition bu_bulk_values (eval : seq F -> seq F -> nat -> F) (abscissas : seq F) lambda : outcome (seq (seq F)) :=
  omap (fun coefficients =>
    mkseq (fun d => let coeffs := mkseq (fun i => nth 0 coefficients (d * nf + i)) nf in
      mkseq (eval abscissas coeffs) (hc_pow dim (size abscissas))) (dim + 1))
  (bu_solve_local_problem lambda).
End BilaplacianUniform.
