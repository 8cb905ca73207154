(** Model of include/HyperHDG/local_solver/diffusion_uniform_ldgh.hxx (class DiffusionUniform).
    The integrals of the external library TPP are parameters.  Floating point numbers are elements
    of a real field; hy_assert is active. *)
From mathcomp Require Import all_ssreflect all_algebra.
From Verif Require Import M_Base M_Index M_DenseLA M_Lapack.
Set Implicit Arguments. Unset Strict Implicit. Unset Printing Implicit Defensive.
Local Open Scope ring_scope.

(** [a[i][j] += v] on an array of arrays. *)
Definition add_at2 (R : ringType) (a : seq (seq R)) (i j : nat) (v : R) : seq (seq R) :=
  upd a i (add_at (nth [::] a i) j v).
(** [A(i, j) += v] on a SmallMat with nr rows. *)
Definition madd (R : ringType) (nr : nat) (A : seq R) (i j : nat) (v : R) : seq R :=
  add_at A (loc nr i j) v.

(** TPP::Quadrature::Tensorial: integrate_vol_phiphi(i,j), integrate_vol_Dphiphi(i,j,dim),
    integrate_bdr_phiphi(i,j,face), integrate_bdr_phipsi(i,j,face). *)
Record integrator (F : Type) := Integrator {
  ig_vol : nat -> nat -> F; ig_dvol : nat -> nat -> nat -> F;
  ig_bb : nat -> nat -> nat -> F; ig_bp : nat -> nat -> nat -> F }.

Section DiffusionUniform.
Variable F : realFieldType.
Variable gesv : nat -> nat -> seq F -> seq F -> sv_result F.
(** hyEdge_dimT, poly_deg, the integrator, tau_. *)
Variables (dim poly_deg : nat) (ig : integrator F) (tau : F).
Implicit Types (A rhs coeffs : seq F) (lambda : seq (seq F)).

(** 110-113 n_glob_dofs_per_node, 132-140 n_shape_fct_, n_shape_bdr_, n_loc_dofs_. *)
Definition n_glob_dofs_per_node : nat := hc_pow (dim - 1) (poly_deg + 1).
Definition n_shape_fct : nat := (n_glob_dofs_per_node * (poly_deg + 1))%N.
Definition n_shape_bdr : nat := n_glob_dofs_per_node.
Definition n_loc_dofs : nat := ((dim + 1) * n_shape_fct)%N.
Local Notation nf := n_shape_fct.
Local Notation nb := n_shape_bdr.
Local Notation nl := n_loc_dofs.

(** 371-410 assemble_loc_matrix. *)
Definition assemble_loc_matrix : seq F :=
  for_ nf (fun i A => for_ nf (fun j A =>
    let integral := ig_vol ig i j in
    let A := for_ dim (fun d A => madd nl A (d * nf + i) (d * nf + j) integral) A in
    for_ dim (fun d A =>
      let integral := ig_dvol ig i j d in
      let A := madd nl A (dim * nf + i) (d * nf + j) (- integral) in
      let A := madd nl A (d * nf + i) (dim * nf + j) (- integral) in
      let integral := ig_bb ig i j (2 * d + 1) in
      let A := madd nl A (dim * nf + i) (d * nf + j) integral in
      let A := madd nl A (dim * nf + i) (dim * nf + j) (tau * integral) in
      let integral := ig_bb ig i j (2 * d + 0) in
      let A := madd nl A (dim * nf + i) (d * nf + j) (- integral) in
      madd nl A (dim * nf + i) (dim * nf + j) (tau * integral)) A) A)
  (zeros F nl nl).

(** 423-456 assemble_rhs, without its assertions (they are checked by the callers below). *)
Definition lambda_at lambda f j : F := nth 0 (nth [::] lambda f) j.
Definition assemble_rhs_loop lambda : seq F :=
  for_ nf (fun i r => for_ nb (fun j r => for_ dim (fun d r =>
    let integral := ig_bp ig i j (2 * d + 0) in
    let r := add_at r (d * nf + i) (lambda_at lambda (2 * d + 0) j * integral) in
    let r := add_at r (dim * nf + i) (tau * lambda_at lambda (2 * d + 0) j * integral) in
    let integral := ig_bp ig i j (2 * d + 1) in
    let r := add_at r (d * nf + i) (- (lambda_at lambda (2 * d + 1) j * integral)) in
    add_at r (dim * nf + i) (tau * lambda_at lambda (2 * d + 1) j * integral)) r) r)
  (zeros F nl 1).
(** 435-439: the assertions. *)
Definition lambda_ok lambda : bool :=
  (size lambda == 2 * dim)%N && all (fun l => size l == nb) lambda.
Definition assemble_rhs lambda : outcome (seq F) :=
  if lambda_ok lambda then Ok (assemble_rhs_loop lambda) else Abort.

(** 203-218 solve_local_problem: a LAPACK failure ends in the assertion of the handler. *)
Definition solve_local_problem lambda : outcome (seq F) :=
  obind (assemble_rhs lambda) (fun rhs =>
    match (solve_const gesv nl 1 rhs assemble_loc_matrix).1 with
    | Throw => Abort
    | r => r
    end).

(** 470-495 primal_at_boundary. *)
Definition primal_at_boundary coeffs : seq (seq F) :=
  for_ nf (fun i t => for_ nb (fun j t => for_ dim (fun d t =>
    let integral := ig_bp ig i j (2 * d + 0) in
    let t := add_at2 t (2 * d + 0) j (nth 0 coeffs (dim * nf + i) * integral) in
    let integral := ig_bp ig i j (2 * d + 1) in
    add_at2 t (2 * d + 1) j (nth 0 coeffs (dim * nf + i) * integral)) t) t)
  (nseq (2 * dim) (nseq nb 0)).
(** 509-534 dual_at_boundary. *)
Definition dual_at_boundary coeffs : seq (seq F) :=
  for_ nf (fun i t => for_ nb (fun j t => for_ dim (fun d t =>
    let integral := ig_bp ig i j (2 * d + 0) in
    let t := add_at2 t (2 * d + 0) j (- (nth 0 coeffs (d * nf + i) * integral)) in
    let integral := ig_bp ig i j (2 * d + 1) in
    add_at2 t (2 * d + 1) j (nth 0 coeffs (d * nf + i) * integral)) t) t)
  (nseq (2 * dim) (nseq nb 0)).

(** 273-298 trace_to_flux; 309-315 residual_flux is the same function. *)
Definition trace_to_flux lambda_in lambda_out : outcome (seq (seq F)) :=
  if lambda_ok lambda_in && lambda_ok lambda_out then
    obind (solve_local_problem lambda_in) (fun coeffs =>
      let primals := primal_at_boundary coeffs in
      let duals := dual_at_boundary coeffs in
      Ok (for_ (size lambda_out) (fun i out =>
            for_ (size (nth [::] out i)) (fun j out =>
              upd out i (upd (nth [::] out i) j
                (nth 0 (nth [::] duals i) j +
                 tau * (nth 0 (nth [::] primals i) j - lambda_at lambda_in i j)))) out)
          lambda_out))
  else Abort.
Definition residual_flux lambda_in lambda_out : outcome (seq (seq F)) :=
  trace_to_flux lambda_in lambda_out.

(** 323-327 errors. *)
Definition uniform_errors : seq F := [:: 0].
End DiffusionUniform.
