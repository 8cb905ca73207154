(** Property C87: the local solver BilaplacianUniform.  The integrals of TPP and the LAPACK solver enter with the
    contracts of S_Tpp and S_LocalSolver.  Statements only; proofs are in L_BilaplacianUniform2. *)
From mathcomp Require Import all_ssreflect all_algebra.
From Verif Require Import M_Base M_Lapack S_Lapack S_Hdg S_Tpp L_Poly M_DiffusionUniform S_LocalSolver L_DiffusionUniform2.
From Verif Require Import S_Diffusion S_Bilaplacian M_BilaplacianUniform S_BilaplacianUniform L_BilaplacianUniform2.
Set Implicit Arguments. Unset Strict Implicit. Unset Printing Implicit Defensive.
Local Open Scope ring_scope.

Section Uniform.
Variables (F : realFieldType) (gesv : nat -> nat -> seq F -> seq F -> sv_result F).
Variables (dim p : nat) (b : nat -> {poly F}) (tau : F).
Hypotheses (dim0 : (0 < dim)%N) (hb : orthonormal_basis (p + 1) b) (hg : gesv_correct gesv) (tau0 : 0 < tau).
Let nb := ((p + 1) ^ (dim - 1))%N.
Let nF := (2 * dim)%N.
Let flux := bu_trace_to_flux gesv dim p (tpp_integrator b dim p) tau.
Let is_tr := is_trace (F := F) nF (2 * nb).
Let solves := bu_solution b dim p tau.
Let pair := pairing (F := F) nF (2 * nb).
Implicit Types (x out : seq (seq F)).

(** * C87 *)
Theorem C87_flux x out : is_tr x -> is_tr out ->
  exists2 y, flux x out = Ok y & exists q u r w, solves x q u r w /\ bu_fluxes b dim p tau x q u r w y.
Proof. exact: bu_flux. Qed.
Theorem C87_unique x q u r w q' u' r' w' : solves x q u r w -> solves x q' u' r' w' ->
  [/\ forall d, q d = q' d, u = u', forall d, r d = r' d & w = w'].
Proof. exact: bu_uniq. Qed.
Theorem C87_linear c x x' out out' out'' : is_tr x -> is_tr x' -> is_tr out -> is_tr out' -> is_tr out'' ->
  exists y y', [/\ flux x out = Ok y, flux x' out' = Ok y' &
    flux (comb_trace c nF (2 * nb) x x') out'' = Ok (comb_trace c nF (2 * nb) y y')].
Proof. exact: bu_linear. Qed.
(** The second half is what DiffusionUniform computes, and so is the first one if there is no trace of w. *)
Theorem C87_second x out out' : is_tr x -> is_tr out -> is_trace nF nb out' ->
  exists2 y, flux x out = Ok y &
    trace_to_flux gesv dim p (tpp_integrator b dim p) tau (upper nb x) out' = Ok (upper nb y).
Proof. exact: bu_second. Qed.
Theorem C87_first x out out' : is_tr x -> is_tr out -> is_trace nF nb out' ->
  (forall f j, (f < nF)%N -> (j < nb)%N -> nth 0 (nth [::] x f) (nb + j) = 0) ->
  exists2 y, flux x out = Ok y &
    trace_to_flux gesv dim p (tpp_integrator b dim p) tau (lower nb x) out' = Ok (lower nb y).
Proof. exact: bu_first. Qed.
(** The fluxes of w sum up to zero, those of u to the integral of w. *)
Theorem C87_conserved x out : is_tr x -> is_tr out ->
  exists y q u r w, [/\ flux x out = Ok y, solves x q u r w,
    \sum_(f < nF) nth 0 (nth [::] y f) nb = 0 &
    \sum_(f < nF) nth 0 (nth [::] y f) 0 = w (Ordinal (nf1 dim p)) 0].
Proof. exact: bu_conserved. Qed.
(** The operator becomes symmetric when the halves of the result are exchanged, as Bilaplacian does, but is not
    symmetric as it is returned. *)
Theorem C87_symmetric x x' out out' : is_tr x -> is_tr x' -> is_tr out -> is_tr out' ->
  exists y y', [/\ flux x out = Ok y, flux x' out' = Ok y' &
    pair (exchange dim p x') y = pair (exchange dim p x) y'].
Proof. exact: bu_symmetric. Qed.
Theorem C87_symmetric_refuted : exists x x', [/\ is_tr x, is_tr x' & forall out out', is_tr out -> is_tr out' ->
  exists y y', [/\ flux x out = Ok y, flux x' out' = Ok y' & pair x' y <> pair x y']].
Proof. exact: bu_not_symmetric. Qed.
(** Values of the flux and of u at the tensor product of the abscissas. *)
Theorem C87_bulk x eval absc : is_tr x -> exists q u r w, solves x q u r w /\
  bu_bulk_values gesv dim p (tpp_integrator b dim p) tau eval absc x =
  Ok (rcons [seq mkseq (eval absc (coeffs_of (q d))) (size absc ^ dim) | d <- enum 'I_dim]
            (mkseq (eval absc (coeffs_of u)) (size absc ^ dim))).
Proof. exact: bu_bulk. Qed.
End Uniform.
Print Assumptions C87_flux.
Print Assumptions C87_unique.
Print Assumptions C87_linear.
Print Assumptions C87_second.
Print Assumptions C87_first.
Print Assumptions C87_conserved.
Print Assumptions C87_symmetric.
Print Assumptions C87_symmetric_refuted.
Print Assumptions C87_bulk.

(** Traces of the wrong size and LAPACK failures end in an assertion; the residual is the flux; no errors are
    computed. *)
Theorem C87_checked (F : realFieldType) (gesv : nat -> nat -> seq F -> seq F -> sv_result F) (dim p : nat)
    (ig : integrator F) (tau : F) (x out : seq (seq F)) : let nb := ((p + 1) ^ (dim - 1))%N in
  ~ is_trace (2 * dim) (2 * nb) x \/ ~ is_trace (2 * dim) (2 * nb) out ->
  bu_trace_to_flux gesv dim p ig tau x out = Abort.
Proof. exact: bu_checked. Qed.
Theorem C87_lapack (F : realFieldType) (gesv : nat -> nat -> seq F -> seq F -> sv_result F) (dim p : nat)
    (ig : integrator F) (tau : F) (x out : seq (seq F)) : (forall n nc A b, ~~ sv_info (gesv n nc A b)) ->
  bu_trace_to_flux gesv dim p ig tau x out = Abort.
Proof. exact: bu_lapack. Qed.
Theorem C87_residual (F : realFieldType) (gesv : nat -> nat -> seq F -> seq F -> sv_result F) (dim p : nat)
    (ig : integrator F) (tau : F) (x out : seq (seq F)) :
  bu_residual_flux gesv dim p ig tau x out = bu_trace_to_flux gesv dim p ig tau x out /\ bu_errors F = [:: 0].
Proof. by split. Qed.
Print Assumptions C87_checked.
Print Assumptions C87_lapack.
Print Assumptions C87_residual.
(** The contracts are satisfiable for every degree. *)
Example C87_example (F : rcfType) (p : nat) :
  [/\ exists b : nat -> {poly F}, orthonormal_basis (p + 1) b, gesv_correct (@inv_gesv F)
    & is_trace (F := F) 4 4 (nseq 4 [:: 1; 2%:R; 0; -1])].
Proof. by split; [rewrite addn1; exact: orthonormal_exists | exact: inv_gesv_correct | split]. Qed.
