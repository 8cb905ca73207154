(** Properties C45, C46, C63: the local solver DiffusionUniform and its global operator.  The integrals of TPP and the LAPACK
    solver enter with the contracts of S_Tpp and S_LocalSolver.  Statements only; proofs are in
    L_DiffusionUniform2 and L_GlobalUniform. *)
From mathcomp Require Import all_ssreflect all_algebra.
From Verif Require Import M_Base M_Lapack S_Hdg S_Tpp L_Poly M_DiffusionUniform S_LocalSolver L_DiffusionUniform2.
From Verif Require Import M_Global S_Global L_GlobalUniform L_Diffusion3.
Set Implicit Arguments. Unset Strict Implicit. Unset Printing Implicit Defensive.
Local Open Scope ring_scope.

(** * C45 linear, symmetric, negative semidefinite *)
(** The result is the numerical flux of the solution of the local HDG problem. *)
Theorem C45_flux (F : realFieldType) (dim p : nat) (b : nat -> {poly F})
    (gesv : nat -> nat -> seq F -> seq F -> sv_result F) (tau : F) (x out : seq (seq F)) :
  let nb := ((p + 1) ^ (dim - 1))%N in
  (0 < dim)%N -> orthonormal_basis (p + 1) b -> gesv_correct gesv -> 0 < tau ->
  is_trace (2 * dim) nb x -> is_trace (2 * dim) nb out ->
  exists2 y, trace_to_flux gesv dim p (tpp_integrator b dim p) tau x out = Ok y
    & flux_of (cube_hdg b dim p) tau x y.
Proof. by move=> nb d0 hb hg t0 hx ho; exact: (uniform_flux d0 hb hg t0 hx ho). Qed.
Print Assumptions C45_flux.

Theorem C45_linear (F : realFieldType) (dim p : nat) (b : nat -> {poly F})
    (gesv : nat -> nat -> seq F -> seq F -> sv_result F) (tau c : F) (x x' out out' out'' : seq (seq F)) :
  let nb := ((p + 1) ^ (dim - 1))%N in
  let f := trace_to_flux gesv dim p (tpp_integrator b dim p) tau in
  (0 < dim)%N -> orthonormal_basis (p + 1) b -> gesv_correct gesv -> 0 < tau ->
  is_trace (2 * dim) nb x -> is_trace (2 * dim) nb x' -> is_trace (2 * dim) nb out ->
  is_trace (2 * dim) nb out' -> is_trace (2 * dim) nb out'' ->
  exists y y', [/\ f x out = Ok y, f x' out' = Ok y' &
    f (comb_trace c (2 * dim) nb x x') out'' = Ok (comb_trace c (2 * dim) nb y y')].
Proof. by move=> nb f d0 hb hg t0; exact: (uniform_linear d0 hb hg t0 c). Qed.
Print Assumptions C45_linear.

Theorem C45_symmetric (F : realFieldType) (dim p : nat) (b : nat -> {poly F})
    (gesv : nat -> nat -> seq F -> seq F -> sv_result F) (tau : F) (x x' out out' : seq (seq F)) :
  let nb := ((p + 1) ^ (dim - 1))%N in
  let f := trace_to_flux gesv dim p (tpp_integrator b dim p) tau in
  (0 < dim)%N -> orthonormal_basis (p + 1) b -> gesv_correct gesv -> 0 < tau ->
  is_trace (2 * dim) nb x -> is_trace (2 * dim) nb x' -> is_trace (2 * dim) nb out ->
  is_trace (2 * dim) nb out' ->
  exists y y', [/\ f x out = Ok y, f x' out' = Ok y' &
    pairing (2 * dim) nb x' y = pairing (2 * dim) nb x y'].
Proof. by move=> nb f d0 hb hg t0; exact: (uniform_symmetric d0 hb hg t0). Qed.
Print Assumptions C45_symmetric.

Theorem C45_negative (F : realFieldType) (dim p : nat) (b : nat -> {poly F})
    (gesv : nat -> nat -> seq F -> seq F -> sv_result F) (tau : F) (x out : seq (seq F)) :
  let nb := ((p + 1) ^ (dim - 1))%N in
  (0 < dim)%N -> orthonormal_basis (p + 1) b -> gesv_correct gesv -> 0 < tau ->
  is_trace (2 * dim) nb x -> is_trace (2 * dim) nb out ->
  exists2 y, trace_to_flux gesv dim p (tpp_integrator b dim p) tau x out = Ok y
    & pairing (2 * dim) nb x y <= 0.
Proof. by move=> nb d0 hb hg t0; exact: (uniform_negative d0 hb hg t0). Qed.
Print Assumptions C45_negative.

(** Traces of the wrong size and LAPACK failures end in an assertion. *)
Theorem C45_checked (F : realFieldType) (dim p : nat) (ig : integrator F)
    (gesv : nat -> nat -> seq F -> seq F -> sv_result F) (tau : F) (x out : seq (seq F)) :
  let nb := ((p + 1) ^ (dim - 1))%N in
  ~ is_trace (2 * dim) nb x \/ ~ is_trace (2 * dim) nb out ->
  trace_to_flux gesv dim p ig tau x out = Abort.
Proof. exact: uniform_checked. Qed.
Print Assumptions C45_checked.
Theorem C45_lapack (F : realFieldType) (dim p : nat) (ig : integrator F)
    (gesv : nat -> nat -> seq F -> seq F -> sv_result F) (tau : F) (x out : seq (seq F)) :
  (forall n nc A b, ~~ sv_info (gesv n nc A b)) -> trace_to_flux gesv dim p ig tau x out = Abort.
Proof. exact: uniform_lapack. Qed.
Print Assumptions C45_lapack.

(** The contracts are satisfiable for every degree. *)
Example C45_example (F : rcfType) (p : nat) :
  (exists b : nat -> {poly F}, orthonormal_basis (p + 1) b) /\ gesv_correct (@inv_gesv F).
Proof. by split; [rewrite addn1; exact: orthonormal_exists | exact: inv_gesv_correct]. Qed.

(** * C46 constants and conservation *)
Theorem C46_constant (F : realFieldType) (dim p : nat) (b : nat -> {poly F})
    (gesv : nat -> nat -> seq F -> seq F -> sv_result F) (tau c : F) (out : seq (seq F)) :
  let nb := ((p + 1) ^ (dim - 1))%N in
  (0 < dim)%N -> orthonormal_basis (p + 1) b -> gesv_correct gesv -> 0 < tau ->
  is_trace (2 * dim) nb out ->
  trace_to_flux gesv dim p (tpp_integrator b dim p) tau (const_trace c (2 * dim) nb) out =
  Ok (nseq (2 * dim) (nseq nb 0)).
Proof. by move=> nb d0 hb hg t0; exact: (uniform_const d0 hb hg t0). Qed.
Print Assumptions C46_constant.

Theorem C46_conserved (F : realFieldType) (dim p : nat) (b : nat -> {poly F})
    (gesv : nat -> nat -> seq F -> seq F -> sv_result F) (tau : F) (x out : seq (seq F)) :
  let nb := ((p + 1) ^ (dim - 1))%N in
  (0 < dim)%N -> orthonormal_basis (p + 1) b -> gesv_correct gesv -> 0 < tau ->
  is_trace (2 * dim) nb x -> is_trace (2 * dim) nb out ->
  exists2 y, trace_to_flux gesv dim p (tpp_integrator b dim p) tau x out = Ok y
    & \sum_(f < 2 * dim) nth 0 (nth [::] y f) 0 = 0.
Proof. by move=> nb d0 hb hg t0; exact: (uniform_conserved d0 hb hg t0). Qed.
Print Assumptions C46_conserved.

(** Only constants have zero energy. *)
Theorem C46_kernel (F : realFieldType) (dim p : nat) (b : nat -> {poly F})
    (gesv : nat -> nat -> seq F -> seq F -> sv_result F) (tau : F) (x out : seq (seq F)) :
  let nb := ((p + 1) ^ (dim - 1))%N in
  (0 < dim)%N -> orthonormal_basis (p + 1) b -> gesv_correct gesv -> 0 < tau ->
  is_trace (2 * dim) nb x -> is_trace (2 * dim) nb out ->
  exists2 y, trace_to_flux gesv dim p (tpp_integrator b dim p) tau x out = Ok y
    & pairing (2 * dim) nb x y = 0 -> exists c, x = const_trace c (2 * dim) nb.
Proof. by move=> nb d0 hb hg t0; exact: (uniform_kernel d0 hb hg t0). Qed.
Print Assumptions C46_kernel.
Example C46_example : is_trace 4 2 (const_trace (2%:R : rat) 4 2).
Proof. by split. Qed.

(** * C63 the global system of uniform diffusion *)
Theorem C63_symmetric (F : realFieldType) (E : Type) (dim p : nat) (b : nat -> {poly F})
    (gesv : nat -> nat -> seq F -> seq F -> sv_result F) (tau : F) (n_nodes : nat)
    (edges : seq (seq nat * E)) (junk : seq (seq F)) (dir : seq nat) (x y : seq F) :
  let nb := ((p + 1) ^ (dim - 1))%N in let N := (n_nodes * nb)%N in
  let op := elliptic_flux nb N dir junk edges
              (fun _ : E => trace_to_flux gesv dim p (tpp_integrator b dim p) tau) in
  (0 < dim)%N -> orthonormal_basis (p + 1) b -> gesv_correct gesv -> 0 < tau ->
  valid_graph dim n_nodes edges -> size junk = (2 * dim)%N -> all (fun i => i < N)%N dir ->
  size x = N -> size y = N -> (forall d, d \in dir -> nth 0 x d = 0) ->
  (forall d, d \in dir -> nth 0 y d = 0) ->
  exists u v, [/\ op x = Ok u, op y = Ok v & vdot N y u = vdot N x v].
Proof.
by move=> nb N op d0 hb hg t0 hv hj hd; exact: (global_uniform_symmetric d0 hb hg t0 hv hj hd).
Qed.
Print Assumptions C63_symmetric.

(** If every hypernode is connected to one that is fixed, the operator is negative definite ... *)
Theorem C63_definite (F : realFieldType) (E : Type) (dim p : nat) (b : nat -> {poly F})
    (gesv : nat -> nat -> seq F -> seq F -> sv_result F) (tau : F) (n_nodes : nat)
    (edges : seq (seq nat * E)) (junk : seq (seq F)) (dir : seq nat) (x : seq F) :
  let nb := ((p + 1) ^ (dim - 1))%N in let N := (n_nodes * nb)%N in
  let op := elliptic_flux nb N dir junk edges
              (fun _ : E => trace_to_flux gesv dim p (tpp_integrator b dim p) tau) in
  (0 < dim)%N -> orthonormal_basis (p + 1) b -> gesv_correct gesv -> 0 < tau ->
  valid_graph dim n_nodes edges -> size junk = (2 * dim)%N -> all (fun i => i < N)%N dir ->
  (forall v, (v < n_nodes)%N -> anchored edges (fixed_node nb dir) v) ->
  size x = N -> (forall d, d \in dir -> nth 0 x d = 0) ->
  exists u, [/\ op x = Ok u, vdot N x u <= 0 & vdot N x u = 0 -> x = nseq N 0].
Proof.
by move=> nb N op d0 hb hg t0 hv hj hd; exact: (global_uniform_definite d0 hb hg t0 hv hj hd).
Qed.
Print Assumptions C63_definite.

(** ... and the system has exactly one solution for every right-hand side. *)
Theorem C63_solvable (F : realFieldType) (E : Type) (dim p : nat) (b : nat -> {poly F})
    (gesv : nat -> nat -> seq F -> seq F -> sv_result F) (tau : F) (n_nodes : nat)
    (edges : seq (seq nat * E)) (junk : seq (seq F)) (dir : seq nat) (r : seq F) :
  let nb := ((p + 1) ^ (dim - 1))%N in let N := (n_nodes * nb)%N in
  let op := elliptic_flux nb N dir junk edges
              (fun _ : E => trace_to_flux gesv dim p (tpp_integrator b dim p) tau) in
  let off_dir z := forall d, d \in dir -> nth 0 z d = 0 in
  (0 < dim)%N -> orthonormal_basis (p + 1) b -> gesv_correct gesv -> 0 < tau ->
  valid_graph dim n_nodes edges -> size junk = (2 * dim)%N -> all (fun i => i < N)%N dir ->
  (forall v, (v < n_nodes)%N -> anchored edges (fixed_node nb dir) v) ->
  size r = N -> off_dir r ->
  exists x, [/\ size x = N, off_dir x, op x = Ok r &
    forall x', size x' = N -> off_dir x' -> op x' = Ok r -> x' = x].
Proof.
by move=> nb N op off d0 hb hg t0 hv hj hd; exact: (global_uniform_solvable d0 hb hg t0 hv hj hd).
Qed.
Print Assumptions C63_solvable.

(** Constants are in the kernel for every choice of Dirichlet rows. *)
Theorem C63_constant (F : realFieldType) (E : Type) (dim p : nat) (b : nat -> {poly F})
    (gesv : nat -> nat -> seq F -> seq F -> sv_result F) (tau c : F) (n_nodes : nat)
    (edges : seq (seq nat * E)) (junk : seq (seq F)) (dir : seq nat) :
  let nb := ((p + 1) ^ (dim - 1))%N in let N := (n_nodes * nb)%N in
  (0 < dim)%N -> orthonormal_basis (p + 1) b -> gesv_correct gesv -> 0 < tau ->
  valid_graph dim n_nodes edges -> size junk = (2 * dim)%N -> all (fun i => i < N)%N dir ->
  elliptic_flux nb N dir junk edges
    (fun _ : E => trace_to_flux gesv dim p (tpp_integrator b dim p) tau)
    (flatten (nseq n_nodes (mkseq (fun j => if j == 0%N then c else 0) nb))) = Ok (nseq N 0).
Proof.
by move=> nb N d0 hb hg t0 hv hj hd; exact: (global_uniform_constant d0 hb hg t0 hv hj hd c).
Qed.
Print Assumptions C63_constant.

(** Without Dirichlet rows the first coefficients of the result sum to zero. *)
Theorem C63_conserved (F : realFieldType) (E : Type) (dim p : nat) (b : nat -> {poly F})
    (gesv : nat -> nat -> seq F -> seq F -> sv_result F) (tau : F) (n_nodes : nat)
    (edges : seq (seq nat * E)) (junk : seq (seq F)) (x : seq F) :
  let nb := ((p + 1) ^ (dim - 1))%N in
  (0 < dim)%N -> orthonormal_basis (p + 1) b -> gesv_correct gesv -> 0 < tau ->
  valid_graph dim n_nodes edges -> size junk = (2 * dim)%N -> size x = (n_nodes * nb)%N ->
  exists u, [/\ mat_vec nb junk edges
      (fun _ : E => trace_to_flux gesv dim p (tpp_integrator b dim p) tau) x = Ok u,
    size u = size x & \sum_(v < n_nodes) nth 0 u (v * nb) = 0].
Proof. exact: global_uniform_conserved. Qed.
Print Assumptions C63_conserved.
Example C63_example : let edges := [:: ([:: 0; 1], tt); ([:: 1; 2], tt)]%N in
  valid_graph 1 3 edges /\ forall v, (v < 3)%N -> anchored edges (fixed_node 1 [:: 0%N]) v.
Proof.
split=> // v hv.
have h0 : anchored [:: ([:: 0; 1], tt); ([:: 1; 2], tt)]%N (fixed_node 1 [:: 0%N]) 0.
  by apply: anchored_fixed => -[].
have h1 : anchored [:: ([:: 0; 1], tt); ([:: 1; 2], tt)]%N (fixed_node 1 [:: 0%N]) 1.
  by apply: (anchored_step (e := ([:: 0; 1]%N, tt)) _ _ _ h0); first by left.
have h2 : anchored [:: ([:: 0; 1], tt); ([:: 1; 2], tt)]%N (fixed_node 1 [:: 0%N]) 2.
  by apply: (anchored_step (e := ([:: 1; 2]%N, tt)) _ _ _ h1); first by right; left.
by case: v hv => [|[|[|]]].
Qed.
