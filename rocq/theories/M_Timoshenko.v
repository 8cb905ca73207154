(** Model of include/HyperHDG/local_solver/timoshenko_network.hxx (class TimoshenkoBeam).  The integrals of the
    external library TPP, the geometry and the parameter functions enter through a record, one value per hyperedge.
    hyEdge_dimT = 1 and space_dim = 3 are fixed: line 520 converts an array of 6 numbers per face to the type of the
    traces, which compiles only if 2 * space_dim * (poly_deg + 1)^(hyEdge_dimT - 1) = 2 * space_dim, line 390 asserts
    2 * space_dim == 6, and lines 741-744 initialise space_dim numbers with three.  So a face has one shape function
    (n_shape_bdr_ = 1, its number j is 0) and n_shape_fct_ = poly_deg + 1.  The time is not used: line 462 converts
    it to the unused parameter dim of assemble_rhs_from_global_rhs (a negative time would be undefined behaviour),
    and all integrals are taken at time 0.  Numbers are exact; a quotient by a structural constant 0 (infinite in
    the code) is 0.  hy_assert is active. *)
From mathcomp Require Import all_ssreflect all_algebra.
From Verif Require Import M_Base M_Index M_DenseLA M_Lapack M_DiffusionUniform.
Set Implicit Arguments. Unset Strict Implicit. Unset Printing Implicit Defensive.
Import Num.Theory.
Local Open Scope ring_scope.

Record tb_data (F : Type) := TbData {
  (** node_descriptor[face], 546, 581, 929. *)
  tb_types : seq nat;
  (** geometry.inner_normal(0)[dim], 395, 425, 690; geometry.outer_normal(ind)[dim], 406, 436, 695, 700. *)
  tb_tangent : nat -> F; tb_outer : nat -> nat -> F;
  (** geometry.extra_data() if geometry.has_extra_data(), 735-737. *)
  tb_extra : option (seq F);
  (** integrate_vol_phiphi(i, j), 775; integrate_vol_nablaphiphi(i, j)[0], 778-780. *)
  tb_vol : nat -> nat -> F; tb_grad : nat -> nat -> F;
  (** integrate_bdr_phiphi(i, j, face), 786; integrate_bdr_phipsi(i, 0, face), 488, 854; local_normal(face)[0]. *)
  tb_bb : nat -> nat -> nat -> F; tb_bp : nat -> nat -> F; tb_normal : nat -> F;
  (** integrate_vol_phivecfunccomp<right_hand_side_n or right_hand_side_m>(i, comp), 894-925; the component is
      numbered 0, 1, 2 for the arguments comp = 1, -1, -2; the components of the moment follow as 3, 4, 5. *)
  tb_load : nat -> nat -> F;
  (** integrate_bdr_phivecfunccomp<dirichlet_value_u or dirichlet_value_phi>(i, face, comp), 931-977. *)
  tb_dirval : nat -> nat -> nat -> F;
  (** integrate_vol_diffsquare_discanacomp<analytic_result_u>(coeffs, comp), 616-635;
      lin_comb_fct_val(coeffs, tensorial_pt(pt, abscissas)), 685-686. *)
  tb_diffsq : nat -> seq F -> F; tb_eval : seq F -> seq F -> nat -> F }.

Section Timoshenko.
Variable F : realFieldType.
Variable gesv : nat -> nat -> seq F -> seq F -> sv_result F.
(** poly_deg, parameters::dirichlet_nodes, tau_. *)
Variables (poly_deg : nat) (dirichlet_nodes : seq nat) (tau : F).
Implicit Types (D : tb_data F) (coeffs : seq F) (lambda : seq (seq F)).

(** 321-329 n_shape_fct_, n_loc_dofs_. *)
Definition tb_shape_fct : nat := hc_pow 1 (poly_deg + 1).
Definition tb_loc_dofs : nat := (4 * 3 * tb_shape_fct)%N.
Local Notation nf := tb_shape_fct.
Local Notation nl := tb_loc_dofs.

(** 306-311 is_dirichlet. *)
Definition tb_dirichlet D (face : nat) : bool := nth 0%N (tb_types D) face \in dirichlet_nodes.

(** 381-417 node_dof_to_edge_dof. *)
Definition tb_node_to_edge D lambda : seq (seq F) :=
  let loc := nseq 2 (nseq 6 0) in
  let loc := for_ 2 (fun i loc => for_ 3 (fun d loc =>
    let loc := add_at2 loc i 0 (tb_tangent D d * lambda_at lambda i d) in
    add_at2 loc i 3 (tb_tangent D d * lambda_at lambda i (d + 3))) loc) loc in
  for_ 2 (fun ind loc => for_ 2 (fun i loc => for_ 3 (fun d loc =>
    let loc := add_at2 loc i (1 + ind) (tb_outer D ind d * lambda_at lambda i d) in
    add_at2 loc i (1 + ind + 3) (tb_outer D ind d * lambda_at lambda i (3 + d))) loc) loc) loc.
(** 419-447 edge_dof_to_node_dof: adds to glob_lambda. *)
Definition tb_edge_to_node D loc lambda : seq (seq F) :=
  let lambda := for_ 2 (fun i lambda => for_ 3 (fun d lambda =>
    let lambda := add_at2 lambda i d (tb_tangent D d * lambda_at loc i 0) in
    add_at2 lambda i (d + 3) (tb_tangent D d * lambda_at loc i 3)) lambda) lambda in
  for_ 2 (fun ind lambda => for_ 2 (fun i lambda => for_ 3 (fun d lambda =>
    let lambda := add_at2 lambda i d (tb_outer D ind d * lambda_at loc i (1 + ind)) in
    add_at2 lambda i (d + 3) (tb_outer D ind d * lambda_at loc i (1 + ind + 3))) lambda) lambda) lambda.

(** 733-766 extra_coeffs. *)
Definition tb_scalar (v : nat -> F) (e : seq F) (k : nat) : F :=
  for_ 3 (fun d s => s + v d * nth 0 e (k + d)) 0.
Definition tb_coeffs D : seq F :=
  let c := match tb_extra D with
    | None => nseq 6 1
    | Some e =>
      let o ind k := tb_scalar (tb_outer D ind) e k in
      let c := [:: nth 0 e 0;
                   nth 0 e 1 * o 0%N 6%N + nth 0 e 2 * o 0%N 9%N;
                   nth 0 e 1 * o 1%N 6%N + nth 0 e 2 * o 1%N 9%N;
                   nth 0 e 3;
                   nth 0 e 4 * o 0%N 6%N + nth 0 e 5 * o 0%N 9%N;
                   nth 0 e 4 * o 1%N 6%N + nth 0 e 5 * o 1%N 9%N] in
      let c := for_ 3 (fun i c => upd c i (nth 0 c i * 10%:R ^+ 4)) c in
      for_ 3 (fun i c => upd c (3 + i) (nth 0 c (3 + i) * 10%:R ^+ 12)) c
    end in
  for_ 6 (fun i c => upd c i `|nth 0 c i|) c.
(** extra_data[11] is read, 744. *)
Definition tb_extra_fits D : bool := if tb_extra D is Some e then (11 < size e)%N else true.

(** 782-790: face_integral and normal_int_vec[0]. *)
Definition tb_face_loop D i j : F * F :=
  for_ 2 (fun face st => let helper := tb_bb D i j face in
    (st.1 + helper, st.2 + helper * tb_normal D face)) (0, 0).
(** 712-813 assemble_loc_matrix. *)
Definition tb_assemble_loc_matrix D : seq F :=
  let extra := tb_coeffs D in
  for_ nf (fun i A => for_ nf (fun j A =>
    let vol := tb_vol D i j in
    let grad := tb_grad D i j in
    let st := tb_face_loop D i j in
    let A := for_ 6 (fun d A =>
      let A := madd nl A (d * nf + i) (d * nf + j) (vol / nth 0 extra d) in
      let A := madd nl A (d * nf + i) ((6 + d) * nf + j) (- grad) in
      let A := madd nl A ((6 + d) * nf + i) (d * nf + j) (st.2 - grad) in
      madd nl A ((6 + d) * nf + i) ((6 + d) * nf + j) (tau * st.1)) A in
    let A := madd nl A (2 * nf + i) (10 * nf + j) (- vol) in
    let A := madd nl A (1 * nf + i) (11 * nf + j) vol in
    let A := madd nl A (11 * nf + i) (1 * nf + j) (- vol) in
    madd nl A (10 * nf + i) (2 * nf + j) vol) A)
  (zeros F nl nl).

(** 831-869 assemble_rhs_from_lambda; [lambda] has been converted, so its size is right. *)
Definition tb_rhs_lambda D lambda : seq F :=
  for_ nf (fun i r => for_ 1 (fun j r => for_ 2 (fun face r =>
    let integral := tb_bp D i face in
    for_ 6 (fun d r =>
      let r := add_at r ((6 + d) * nf + i) (tau * lambda_at lambda face (j + d) * integral) in
      add_at r (d * nf + i) (- (tb_normal D face * lambda_at lambda face (j + d) * integral))) r) r) r)
  (zeros F nl 1).
(** 886-982 assemble_rhs_from_global_rhs. *)
Definition tb_rhs_global D : seq F :=
  for_ nf (fun i r =>
    let r := for_ 6 (fun c r => upd r ((6 + c) * nf + i) (tb_load D c i)) r in
    for_ 2 (fun face r =>
      if tb_dirichlet D face then
        for_ 6 (fun c r => let integral := tb_dirval D c i face in
          let r := add_at r (c * nf + i) (- (tb_normal D face * integral)) in
          add_at r ((6 + c) * nf + i) (tau * integral)) r
      else r) r)
  (zeros F nl 1).
(** rhs / assemble_loc_matrix, 465; a LAPACK failure ends in the assertion of the handler, 467-473. *)
Definition tb_divide D rhs : outcome (seq F) :=
  if tb_extra_fits D then
    match (solve_const gesv nl 1 rhs (tb_assemble_loc_matrix D)).1 with
    | Throw => Abort
    | r => r
    end
  else UB.
(** 449-474 solve_local_problem. *)
Definition tb_solve_local_problem D (solution_type : nat) lambda : outcome (seq F) :=
  obind (if solution_type == 0%N then Ok (tb_rhs_lambda D lambda)
         else if solution_type == 1%N then Ok (mat_add nl 1 1 (tb_rhs_lambda D lambda) (tb_rhs_global D))
         else Abort) (tb_divide D).

(** 476-498 extract_fluxes_from_coeffs: a matrix with 2 rows and 6 columns. *)
Definition tb_extract D coeffs : seq F :=
  for_ nf (fun i t => for_ 1 (fun j t => for_ 2 (fun face t =>
    let integral := tb_bp D i face in
    for_ 6 (fun d t => madd 2 t face (j + d)
      (tb_normal D face * integral * nth 0 coeffs (d * nf + i) +
       tau * nth 0 coeffs ((6 + d) * nf + i) * integral)) t) t) t)
  (zeros F 2 6).
(** 506-514 and 558-566. *)
Definition tb_lambda_ok lambda : bool := (size lambda == 2)%N && all (fun l => size l == 6)%N lambda.
(** 500-550 trace_to_flux and 552-586 residual_flux. *)
Definition tb_flux D (solution_type : nat) lambda_in lambda_out : outcome (seq (seq F)) :=
  if tb_lambda_ok lambda_in && tb_lambda_ok lambda_out then
    let loc := tb_node_to_edge D lambda_in in
    obind (tb_solve_local_problem D solution_type loc) (fun coeffs =>
    let result := tb_extract D coeffs in
    let loc := for_ 2 (fun i loc => for_ 6 (fun j loc =>
      upd loc i (upd (nth [::] loc i) j (mget 2 result i j - tau * lambda_at loc i j))) loc) loc in
    let out := tb_edge_to_node D loc lambda_out in
    Ok (for_ 2 (fun i out => if tb_dirichlet D i then upd out i (nseq (size (nth [::] out i)) 0) else out) out))
  else Abort.
Definition tb_trace_to_flux D lambda_in lambda_out := tb_flux D 0 lambda_in lambda_out.
Definition tb_residual_flux D lambda_in lambda_out := tb_flux D 1 lambda_in lambda_out.

(** The coefficients of displacement [c], 614-615, 683. *)
Definition tb_coeffs_of coeffs (c : nat) : seq F :=
  for_ nf (fun i v => upd v i (nth 0 coeffs ((6 + c) * nf + i))) (nseq nf 0).
(** 596-641 errors. *)
Definition tb_errors D lambda : outcome (seq F) :=
  if tb_lambda_ok lambda then
    omap (fun coeffs => [:: for_ 3 (fun c error => error + tb_diffsq D c (tb_coeffs_of coeffs c)) 0])
      (tb_solve_local_problem D 1 (tb_node_to_edge D lambda))
  else Abort.
(** 655-705 bulk_values. *)
Definition tb_bulk_values D (abscissas : seq F) lambda : outcome (seq (seq F)) :=
  omap (fun coeffs =>
    let n := hc_pow 1 (size abscissas) in
    let vals := mkseq (fun c => mkseq (tb_eval D abscissas (tb_coeffs_of coeffs c)) n) 3 in
    let add c (v : nat -> F) res := for_ 3 (fun d res => for_ n (fun q res =>
      add_at2 res d q (nth 0 (nth [::] vals c) q * v d)) res) res in
    let res := for_ 3 (fun d res => for_ n (fun q res =>
      upd res d (upd (nth [::] res d) q (nth 0 (nth [::] vals 0) q * tb_tangent D d))) res) (nseq 3 (nseq n 0)) in
    add 2%N (tb_outer D 1) (add 1%N (tb_outer D 0) res))
  (tb_solve_local_problem D 1 (tb_node_to_edge D lambda)).
End Timoshenko.
