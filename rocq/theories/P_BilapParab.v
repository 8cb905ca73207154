(** Properties C112-C114: the local solver BilaplacianParab and its global steps.  The integrals of TPP and the
    LAPACK solver enter with the contracts of S_TppGeo and S_LocalSolver.
    Statements only; proofs are in L_BiReact to L_BiFlux, L_BilapParab to L_BilapParabEx and L_GlobalBilapParab. *)
From mathcomp Require Import all_ssreflect all_algebra.
From Verif Require Import M_Base M_Lapack S_Lapack S_Hdg S_Tpp M_DiffusionUniform M_Diffusion.
From Verif Require Import S_LocalSolver S_Diffusion S_TppGeo M_Global S_Global M_Bilaplacian S_Bilaplacian.
From Verif Require Import M_BilapParab S_BiReact S_BilapParab.
From Verif Require Import L_DiffusionUniform2 L_BiFlux L_BilapParab2 L_BilapParab3 L_BilapParabEx L_GlobalBilapParab.
Set Implicit Arguments. Unset Strict Implicit. Unset Printing Implicit Defensive.
Import Order.TTheory GRing.Theory Num.Theory.
Local Open Scope ring_scope.

Section Local.
Variables (F : realFieldType) (gesv : nat -> nat -> seq F -> seq F -> sv_result F).
Variables (dim p : nat) (dirs laps : seq nat) (tau theta dt : F) (P : bp_data F).
Let B := bp_bl P.
Let D := bl_df B.
Hypotheses (dim0 : (0 < dim)%N) (hP : diffusion_data dim p (bl_df (bp_bl P))) (hg : gesv_correct gesv) (tau0 : 0 < tau).
Hypothesis k0 : 0 < theta * dt.
Let nF := (2 * dim)%N.
Let nf := ((p + 1) ^ dim)%N.
Let nb := ((p + 1) ^ (dim - 1))%N.
Let is_tr := is_trace (F := F) nF (2 * nb).
(** Traces of u and of w. *)
Let lo x : 'I_nF -> 'cV[F]_nb := tr nb (lower nb x).
Let hi x : 'I_nF -> 'cV[F]_nb := tr nb (upper nb x).
Let zt := zero_trace F nF (2 * nb).
Let pair := pairing (F := F) nF (2 * nb).
(** Zero in the halves that belong to boundary conditions. *)
Let off (x : seq (seq F)) := bi_vanishes dim p dirs laps B x.
(** Steps without and with data; the latter from the given u. *)
Let hom := step_hom dim p tau theta dt P.
Let full := step_full dim p dirs laps tau theta dt P.
Let fluxes := bi_flux dim p dirs laps tau B.
Let M := df_mass_mx dim p D.
Let W := bl_coef dim p B.
Let u_of (X : seq F) : 'cV[F]_nf := bp_block dim p X dim.
Let mask (f : nat) : bool := nth 0%N (df_types D) f \in dirs.
Let mask2 (f : nat) : bool := nth 0%N (df_types D) f \in laps.

Section Flux.
Variable old : seq F.
Let flux := bp_trace_to_flux gesv dim p dirs laps tau theta dt P old.
Let residual := bp_residual_flux gesv dim p dirs laps tau theta dt P old.
(** * C112 trace_to_flux *)
Theorem C112_flux x out : is_tr x -> is_tr out -> exists2 y, flux x out = Ok y &
  exists q u r w, hom x q u r w /\ fluxes q u r w (lo x) (hi x) y.
Proof. exact: parab_flux_. Qed.
Theorem C112_unique uo x q u r w q' u' r' w' : full uo x q u r w -> full uo x q' u' r' w' ->
  [/\ forall d, q d = q' d, u = u', forall d, r d = r' d & w = w'].
Proof. exact: parab_unique. Qed.
Theorem C112_linear c x x' out out' out'' : is_tr x -> is_tr x' -> is_tr out -> is_tr out' -> is_tr out'' ->
  exists y y', [/\ flux x out = Ok y, flux x' out' = Ok y' &
    flux (comb_trace c nF (2 * nb) x x') out'' = Ok (comb_trace c nF (2 * nb) y y')].
Proof. exact: (flux_linear (step_regular dim0 hP tau0 k0) (fun x out => @parab_flux_ F gesv dim p dirs laps tau theta dt P dim0 hP hg tau0 k0 old x out)). Qed.
Theorem C112_dirichlet x out : is_tr x -> is_tr out -> exists2 y, flux x out = Ok y & is_tr y /\ off y.
Proof. exact: (flux_dirichlet (fun x out => @parab_flux_ F gesv dim p dirs laps tau theta dt P dim0 hP hg tau0 k0 old x out)). Qed.
Theorem C112_symmetric x x' out out' : is_tr x -> is_tr x' -> is_tr out -> is_tr out' -> off x -> off x' ->
  exists y y', [/\ flux x out = Ok y, flux x' out' = Ok y' & pair x' y = pair x y'].
Proof. exact: (flux_symmetric dim0 hP (fun x out => @parab_flux_ F gesv dim p dirs laps tau theta dt P dim0 hP hg tau0 k0 old x out)). Qed.
(** With the sign of the trace of w changed the form is negative: the mass of u and the weighted square of w. *)
Theorem C112_energy x out : is_tr x -> is_tr out -> off x ->
  exists y q u r w, [/\ flux x out = Ok y, hom x q u r w &
    pairing nF nb (lower nb x) (lower nb y) - pairing nF nb (upper nb x) (upper nb y) =
    - (theta * dt)^-1 * dotv u (M *m u) - dotv w (W *m w)].
Proof. exact: (flux_energy dim0 hP (fun x out => @parab_flux_ F gesv dim p dirs laps tau theta dt P dim0 hP hg tau0 k0 old x out)). Qed.
(** Only the product of theta and the step enters; the stored state does not. *)
Theorem C112_euler theta' dt' old' x out out' : theta' * dt' = theta * dt -> is_tr x -> is_tr out -> is_tr out' ->
  bp_trace_to_flux gesv dim p dirs laps tau theta' dt' P old' x out' = flux x out.
Proof. exact: parab_euler. Qed.

(** * C113 residuals, stored coefficients *)
(** trace_to_flux plus the residual at zero is the step from the stored u with the data. *)
Theorem C113_superposition x out out' : is_tr x -> is_tr out -> is_tr out' ->
  exists y y0 q u r w, [/\ flux x out = Ok y, residual zt out' = Ok y0, full (u_of old) x q u r w &
    fluxes q u r w (lo x) (hi x) (comb_trace 1 nF (2 * nb) y y0)].
Proof. exact: parab_superpose. Qed.
Theorem C113_residual x out : is_tr x -> is_tr out -> exists2 y, residual x out = Ok y &
  exists q u r w, full (u_of old) x q u r w /\ fluxes q u r w (hi x) (lo x) y.
Proof. exact: parab_residual_. Qed.
Theorem C113_difference x out out' out'' : is_tr x -> is_tr out -> is_tr out' -> is_tr out'' ->
  exists y y0 z, [/\ flux x out = Ok y, residual zt out' = Ok y0, residual x out'' = Ok z, is_tr z &
    forall f j, (f < nF)%N -> (j < nb)%N ->
      nth 0 (nth [::] z f) j = nth 0 (nth [::] y f) j + nth 0 (nth [::] y0 f) j +
        (if mask f then 0 else tau * df_area D f * (nth 0 (nth [::] x f) (nb + j) - nth 0 (nth [::] x f) j)) /\
      nth 0 (nth [::] z f) (nb + j) = nth 0 (nth [::] y f) (nb + j) + nth 0 (nth [::] y0 f) (nb + j) +
        (if mask2 f then 0 else tau * df_area D f * (nth 0 (nth [::] x f) j - nth 0 (nth [::] x f) (nb + j)))].
Proof. exact: parab_residual_value. Qed.
Theorem C113_affine_refuted x f j : is_tr x -> (f < nF)%N -> (j < nb)%N -> ~~ mask f ->
  nth 0 (nth [::] x f) j != nth 0 (nth [::] x f) (nb + j) ->
  forall out out' out'', is_tr out -> is_tr out' -> is_tr out'' ->
  exists y y0 z, [/\ flux x out = Ok y, residual zt out' = Ok y0, residual x out'' = Ok z &
    nth 0 (nth [::] z f) j != nth 0 (nth [::] y f) j + nth 0 (nth [::] y0 f) j].
Proof. exact: parab_not_affine. Qed.
End Flux.

Let set := bp_set_data gesv dim p dirs laps tau theta dt P.
Theorem C113_set_data old x : is_tr x -> exists2 X, set x old = Ok X &
  size X = (2 * (dim + 1) * nf)%N /\ bp_step dim p dirs laps tau theta dt P old x X.
Proof. exact: parab_set_data_. Qed.
(** make_initial writes the traces and the moments of the initial value into block u; face and face function are
    exchanged in the calls, and both halves look at the same types. *)
Theorem C113_initial old x : is_tr x -> size old = (2 * (dim + 1) * nf)%N ->
  exists x' X, [/\ bp_make_initial dim p dirs P x old = (x', X), size X = size old,
    x' = mkseq (fun f => mkseq (fun j => if mask f then 0
                                  else if (j < nb)%N then df_initial D f j else bl_initlap B f j) (2 * nb)) nF,
    u_of X = \col_i bp_init_phi P i & forall k, k != dim -> bp_block dim p X k = bp_block dim p old k].
Proof. exact: (parab_initial_ dirs P dim0 tau0 k0). Qed.
(** errors and bulk_values solve a step from the stored u. *)
Theorem C113_errors old x : is_tr x -> exists q u r w, full (u_of old) x q u r w /\
  bp_errors gesv dim p dirs laps tau theta dt P old x =
  if 0 <= df_diffsq D (coeffs_of u) then Ok [:: df_diffsq D (coeffs_of u)] else Abort.
Proof. exact: parab_errors_. Qed.
Theorem C113_bulk old x absc : is_tr x -> exists q u r w, full (u_of old) x q u r w /\
  bp_bulk_values gesv dim p dirs laps tau theta dt P old absc x =
  Ok (rcons [seq mkseq (df_eval D absc (coeffs_of (q d))) (size absc ^ dim) | d <- enum 'I_dim]
            (mkseq (df_eval D absc (coeffs_of u)) (size absc ^ dim))).
Proof. exact: parab_bulk_. Qed.
(** Hence after set_data they show one step more. *)
Theorem C113_again_refuted old : bp_no_data dim p P -> u_of old != 0 -> exists X q u r w,
  [/\ set zt old = Ok X, full (u_of X) zt q u r w, u <> u_of X &
    bp_errors gesv dim p dirs laps tau theta dt P X zt =
    if 0 <= df_diffsq D (coeffs_of u) then Ok [:: df_diffsq D (coeffs_of u)] else Abort].
Proof. exact: parab_again. Qed.
(** With theta = 1 a solution of the stationary problem stays; with other theta and a source it does not. *)
Theorem C113_steady old x q u r w : theta = 1 -> is_tr x -> bi_full dim p dirs laps tau B x q u r w -> u_of old = u ->
  exists2 X, set x old = Ok X & [/\ forall d : 'I_dim, bp_block dim p X d = q d, u_of X = u,
    forall d : 'I_dim, bp_block dim p X (dim + 1 + d) = r d & bp_block dim p X (dim + 1 + dim) = w].
Proof. exact: parab_steady_. Qed.
Theorem C113_steady_refuted old x q u r w i : theta != 1 -> is_tr x -> bi_full dim p dirs laps tau B x q u r w ->
  u_of old = u -> (forall i, (i < nf)%N -> bp_src_old P i = df_src D i) -> (i < nf)%N -> df_src D i != 0 ->
  exists2 X, set x old = Ok X & u_of X <> u.
Proof. exact: parab_unsteady. Qed.
End Local.
Print Assumptions C112_flux.
Print Assumptions C112_unique.
Print Assumptions C112_linear.
Print Assumptions C112_dirichlet.
Print Assumptions C112_symmetric.
Print Assumptions C112_energy.
Print Assumptions C112_euler.
Print Assumptions C113_superposition.
Print Assumptions C113_residual.
Print Assumptions C113_difference.
Print Assumptions C113_affine_refuted.
Print Assumptions C113_set_data.
Print Assumptions C113_initial.
Print Assumptions C113_errors.
Print Assumptions C113_bulk.
Print Assumptions C113_again_refuted.
Print Assumptions C113_steady.
Print Assumptions C113_steady_refuted.

Section Checks.
Variables (F : realFieldType) (gesv : nat -> nat -> seq F -> seq F -> sv_result F).
Variables (dim p : nat) (dirs laps : seq nat) (tau theta dt : F) (P : bp_data F) (old : seq F).
Let nb := ((p + 1) ^ (dim - 1))%N.
Let flux := bp_trace_to_flux gesv dim p dirs laps tau theta dt P old.
Let residual := bp_residual_flux gesv dim p dirs laps tau theta dt P old.
Let set := bp_set_data gesv dim p dirs laps tau theta dt P.
Theorem C112_checked (x out : seq (seq F)) : ~ is_trace (2 * dim) (2 * nb) x \/ ~ is_trace (2 * dim) (2 * nb) out ->
  flux x out = Abort /\ residual x out = Abort.
Proof. exact: bp_checked. Qed.
Theorem C113_checked (x : seq (seq F)) : ~ is_trace (2 * dim) (2 * nb) x -> set x old = Abort.
Proof. exact: bp_set_checked. Qed.
Theorem C112_lapack (x out : seq (seq F)) : (forall n nc A b, ~~ sv_info (gesv n nc A b)) ->
  [/\ flux x out = Abort, residual x out = Abort & set x old = Abort].
Proof. exact: bp_lapack. Qed.
End Checks.
Print Assumptions C112_checked.
Print Assumptions C113_checked.
Print Assumptions C112_lapack.
(** Contracts that can be met, with any sources and types of the nodes. *)
Example C112_example (F : rcfType) (dim : nat) (types : seq nat) (src srco : nat -> F) :
  gesv_correct (@inv_gesv F) /\
  exists P : bp_data F, [/\ diffusion_data dim 1 (bl_df (bp_bl P)), df_types (bl_df (bp_bl P)) = types,
    df_src (bl_df (bp_bl P)) = src, bp_src_old P = srco &
    (forall i, src i = 0) -> (forall i, srco i = 0) -> bp_no_data dim 1 P].
Proof. exact: parab_example. Qed.
Print Assumptions C112_example.

(** * C114 global steps *)
Section Global.
Variables (F : realFieldType) (E : Type) (gesv : nat -> nat -> seq F -> seq F -> sv_result F).
Variables (dim p : nat) (dirs laps : seq nat) (tau theta dt : F) (dat : E -> bp_data F) (old : E -> seq F).
Hypotheses (dim0 : (0 < dim)%N) (hD : forall e, diffusion_data dim p (bl_df (bp_bl (dat e)))).
Hypotheses (hg : gesv_correct gesv) (tau0 : 0 < tau) (k0 : 0 < theta * dt).
Variables (n_nodes : nat) (edges : seq (seq nat * E)) (junk : seq (seq F)) (nt : nat -> nat).
Let nb := ((p + 1) ^ (dim - 1))%N.
Let N := (n_nodes * (2 * nb))%N.
Hypotheses (hv : valid_graph dim n_nodes edges) (hj : size junk = (2 * dim)%N).
Hypothesis ht : types_agree (fun e => bl_df (bp_bl (dat e))) nt edges.
Let op := elliptic_flux (2 * nb) N [::] junk edges (fun e => bp_trace_to_flux gesv dim p dirs laps tau theta dt (dat e) (old e)).
Let rop := elliptic_flux (2 * nb) N [::] junk edges (fun e => bp_residual_flux gesv dim p dirs laps tau theta dt (dat e) (old e)).
(** Zero where the trace of u or of w is given. *)
Let off (x : seq F) := forall v j, (v < n_nodes)%N -> (j < nb)%N ->
  (nt v \in dirs -> nth 0 x (v * (2 * nb) + j) = 0) /\ (nt v \in laps -> nth 0 x (v * (2 * nb) + (nb + j)) = 0).

Theorem C114_symmetric x y : size x = N -> size y = N -> off x -> off y ->
  exists u v, [/\ op x = Ok u, op y = Ok v & vdot N y u = vdot N x v].
Proof. exact: par_symmetric. Qed.
Theorem C114_range x : size x = N -> exists z z', [/\ op x = Ok z, rop x = Ok z', size z = N /\ size z' = N, off z & off z'].
Proof. exact: par_ranges. Qed.
(** The same nodes for both boundary conditions; every other node belongs to a hyperedge. *)
Theorem C114_solvable_partial r :
  (forall v, (v < n_nodes)%N -> (nt v \in dirs) = (nt v \in laps)) ->
  (forall v, (v < n_nodes)%N -> (nt v \in dirs) || has (fun e => v \in e.1) edges) -> size r = N -> off r ->
  exists x, [/\ size x = N, off x, op x = Ok r & forall x', size x' = N -> off x' -> op x' = Ok r -> x' = x].
Proof. move=> h1 h2; exact: par_solvable. Qed.
Theorem C114_solution_partial :
  (forall v, (v < n_nodes)%N -> (nt v \in dirs) = (nt v \in laps)) ->
  (forall v, (v < n_nodes)%N -> (nt v \in dirs) || has (fun e => v \in e.1) edges) ->
  exists r0 x, [/\ rop (nseq N 0) = Ok r0, size x = N, off x, op x = Ok (map -%R r0) &
    forall x', size x' = N -> off x' -> op x' = Ok (map -%R r0) -> x' = x].
Proof. exact: par_solution. Qed.
(** Without sources and boundary values: set_data with a solution of the system of the drivers. *)
Let M e := df_mass_mx dim p (bl_df (bp_bl (dat e))).
Let W e := bl_coef dim p (bp_bl (dat e)).
Let u_of (X : seq F) := bp_block dim p X dim.
Let w_of (X : seq F) := bp_block dim p X (dim + 1 + dim).
Theorem C114_energy r0 x : (forall e, bp_no_data dim p (dat e)) ->
  rop (nseq N 0) = Ok r0 -> size x = N -> off x -> op x = Ok (map -%R r0) ->
  exists X : seq nat * E -> seq F,
  (forall e, bp_set_data gesv dim p dirs laps tau theta dt (dat e.2) (node_values dim (2 * nb) x e.1) (old e.2) = Ok (X e)) /\
  \sum_(e <- edges) (sqnorm (M e.2) (u_of (X e)) + sqnorm (M e.2) (u_of (X e) - u_of (old e.2)) +
    2%:R * (theta * dt) * sqnorm (W e.2) (w_of (X e))) = \sum_(e <- edges) sqnorm (M e.2) (u_of (old e.2)).
Proof. move=> h1; exact: par_energy_. Qed.
Theorem C114_stable r0 x : (forall e, bp_no_data dim p (dat e)) ->
  rop (nseq N 0) = Ok r0 -> size x = N -> off x -> op x = Ok (map -%R r0) ->
  exists X : seq nat * E -> seq F,
  (forall e, bp_set_data gesv dim p dirs laps tau theta dt (dat e.2) (node_values dim (2 * nb) x e.1) (old e.2) = Ok (X e)) /\
  \sum_(e <- edges) sqnorm (M e.2) (u_of (X e)) <= \sum_(e <- edges) sqnorm (M e.2) (u_of (old e.2)).
Proof. move=> h1; exact: par_stable_. Qed.
End Global.
Print Assumptions C114_symmetric.
Print Assumptions C114_range.
Print Assumptions C114_solvable_partial.
Print Assumptions C114_solution_partial.
Print Assumptions C114_energy.
Print Assumptions C114_stable.
(** Two edges in a row, the first node of type 1, which stands for both conditions. *)
Example C114_example (F : rcfType) : let edges := [:: ([:: 0; 1], false); ([:: 1; 2], true)]%N in
  let nt v := if v == 0%N then 1%N else 0%N in
  exists dat : bool -> bp_data F, [/\ forall e, diffusion_data 1 1 (bl_df (bp_bl (dat e))), valid_graph 1 3 edges,
    types_agree (fun e => bl_df (bp_bl (dat e))) nt edges, forall e, bp_no_data 1 1 (dat e) &
    forall v, (v < 3)%N -> (nt v \in [:: 1%N]) || has (fun e => v \in e.1) edges].
Proof. exact: parab_row. Qed.
Print Assumptions C114_example.
