(** Properties C80-C86: the local solver Bilaplacian and its global system.  The integrals of TPP and the LAPACK
    solver enter with the contracts of S_TppGeo and S_LocalSolver.
    Statements only; proofs are in L_Bilaplacian to L_Bilaplacian7 and L_GlobalBilaplacian. *)
From mathcomp Require Import all_ssreflect all_algebra.
From Verif Require Import M_Base M_Lapack S_Lapack S_Hdg S_Tpp M_DiffusionUniform M_Diffusion.
From Verif Require Import S_LocalSolver S_Diffusion S_TppGeo M_Global S_Global M_Bilaplacian S_Bilaplacian.
From Verif Require Import L_DiffusionUniform2 L_Bilaplacian3 L_Bilaplacian4 L_Bilaplacian5 L_Bilaplacian6 L_Bilaplacian7 L_GlobalBilaplacian.
Set Implicit Arguments. Unset Strict Implicit. Unset Printing Implicit Defensive.
Import Order.TTheory GRing.Theory Num.Theory.
Local Open Scope ring_scope.

Section Local.
Variable F : realFieldType.
Variables (gesv : nat -> nat -> seq F -> seq F -> sv_result F).
Variables (dim p : nat) (dirs laps : seq nat) (tau : F) (P : bl_data F).
Hypotheses (dim0 : (0 < dim)%N) (hP : diffusion_data dim p (bl_df P)) (hg : gesv_correct gesv) (tau0 : 0 < tau).
Let nF := (2 * dim)%N.
Let nb := ((p + 1) ^ (dim - 1))%N.
Let flux := bl_trace_to_flux gesv dim p dirs laps tau P.
Let residual := bl_residual_flux gesv dim p dirs laps tau P.
Let mass_flux := bl_trace_to_mass_flux gesv dim p dirs laps tau P.
Let is_tr := is_trace (F := F) nF (2 * nb).
(** Traces of u and of w. *)
Let lo x : 'I_nF -> 'cV[F]_nb := tr nb (lower nb x).
Let hi x : 'I_nF -> 'cV[F]_nb := tr nb (upper nb x).
Let pair := pairing (F := F) nF (2 * nb).
(** Zero in the halves that belong to boundary conditions. *)
Let off (x : seq (seq F)) := bi_vanishes dim p dirs laps P x.
Let hom := bi_hom dim p tau P.
Let full := bi_full dim p dirs laps tau P.
Let fluxes := bi_flux dim p dirs laps tau P.
Let mask (f : nat) : bool := nth 0%N (df_types (bl_df P)) f \in dirs.
Let mask2 (f : nat) : bool := nth 0%N (df_types (bl_df P)) f \in laps.

(** * C80 trace_to_flux *)
(** The fluxes of the two coupled local problems, that of w first. *)
Theorem C80_flux x out : is_tr x -> is_tr out -> exists2 y, flux x out = Ok y &
  exists q u r w, hom x q u r w /\ fluxes q u r w (lo x) (hi x) y.
Proof. exact: bilap_flux. Qed.
Theorem C80_unique x : is_tr x -> exists q u r w, full x q u r w /\
  forall q' u' r' w', full x q' u' r' w' -> [/\ forall d, q' d = q d, u' = u, forall d, r' d = r d & w' = w].
Proof. exact: (bilap_unique (gesv := gesv)). Qed.
Theorem C80_linear c x x' out out' out'' : is_tr x -> is_tr x' -> is_tr out -> is_tr out' -> is_tr out'' ->
  exists y y', [/\ flux x out = Ok y, flux x' out' = Ok y' &
    flux (comb_trace c nF (2 * nb) x x') out'' = Ok (comb_trace c nF (2 * nb) y y')].
Proof. exact: bilap_linear. Qed.
Theorem C80_dirichlet x out : is_tr x -> is_tr out -> exists2 y, flux x out = Ok y & is_tr y /\ off y.
Proof. exact: bilap_dirichlet. Qed.
(** Constant u and w = 0 cause no flux. *)
Theorem C80_constant c out : is_tr out ->
  flux (glue nF (const_trace c nF nb) (zero_trace F nF nb)) out = Ok (zero_trace F nF (2 * nb)).
Proof. exact: bilap_constant. Qed.
(** The fluxes of w balance; those of u balance with the integral of w. *)
Theorem C80_conserved x out : is_tr x -> is_tr out ->
  exists y q u r w, [/\ flux x out = Ok y, hom x q u r w,
    (forall f, (f < nF)%N -> ~~ mask f) -> \sum_(f < nF) nth 0 (nth [::] y f) 0 = 0 &
    (forall f, (f < nF)%N -> ~~ mask2 f) ->
      \sum_(f < nF) nth 0 (nth [::] y f) nb = \sum_(k < (p + 1) ^ dim) df_vol (bl_df P) 0 k * w k 0].
Proof. exact: bilap_conserved_sum. Qed.
Theorem C80_source out : is_tr out -> (forall f, (f < nF)%N -> ~~ mask f /\ ~~ mask2 f) ->
  exists2 y, residual (zero_trace F nF (2 * nb)) out = Ok y & \sum_(f < nF) nth 0 (nth [::] y f) 0 = df_src (bl_df P) 0.
Proof. exact: bilap_source. Qed.

(** * C81 the form of the operator *)
Theorem C81_symmetric x x' out out' : is_tr x -> is_tr x' -> is_tr out -> is_tr out' -> off x -> off x' ->
  exists y y', [/\ flux x out = Ok y, flux x' out' = Ok y' & pair x' y = pair x y'].
Proof. exact: bilap_symmetric. Qed.
(** Twice the product of the trace of u and the flux of w, plus the square of w weighted by the inverse
    diffusion coefficient. *)
Theorem C81_form x out : is_tr x -> is_tr out -> off x ->
  exists y q u r w, [/\ flux x out = Ok y, hom x q u r w &
    pair x y = 2%:R * (\sum_f dotv (lo x f) (num_flux (bl_hdg dim p P) tau r w (hi x) f)) + dotv w (bl_coef dim p P *m w)].
Proof. exact: bilap_form. Qed.
Theorem C81_isotropic x out : is_tr x -> is_tr out -> off x ->
  (forall f j, (f < nF)%N -> (j < nb)%N -> nth 0 (nth [::] x f) (nb + j) = 0) ->
  exists2 y, flux x out = Ok y & pair x y = 0.
Proof. exact: bilap_isotropic. Qed.
(** The form takes both signs. *)
Theorem C81_definite_refuted (z : seq (seq F)) : is_trace nF nb z -> vanishes mask nF nb z -> vanishes mask2 nF nb z ->
  (forall c, z <> const_trace c nF nb) -> exists x x', [/\ is_tr x, is_tr x', off x & off x'] /\
  forall out out', is_tr out -> is_tr out' ->
  exists y y', [/\ flux x out = Ok y, flux x' out' = Ok y', pair x y < 0 & 0 < pair x' y'].
Proof. exact: bilap_indefinite. Qed.

(** * C82 residual_flux *)
(** trace_to_flux plus the residual at zero is the discretisation of the problem with data. *)
Theorem C82_superposition x out out' : is_tr x -> is_tr out -> is_tr out' ->
  exists y y0 q u r w, [/\ flux x out = Ok y, residual (zero_trace F nF (2 * nb)) out' = Ok y0, full x q u r w &
    fluxes q u r w (lo x) (hi x) (comb_trace 1 nF (2 * nb) y y0)].
Proof. exact: bilap_superpose. Qed.
(** residual_flux itself stabilises w with the trace of u and u with the trace of w. *)
Theorem C82_residual x out : is_tr x -> is_tr out -> exists2 y, residual x out = Ok y &
  exists q u r w, full x q u r w /\ fluxes q u r w (hi x) (lo x) y.
Proof. exact: bilap_residual. Qed.
Theorem C82_difference x out out' out'' : is_tr x -> is_tr out -> is_tr out' -> is_tr out'' ->
  exists y y0 z, [/\ flux x out = Ok y, residual (zero_trace F nF (2 * nb)) out' = Ok y0, residual x out'' = Ok z, is_tr z &
    forall f j, (f < nF)%N -> (j < nb)%N ->
      nth 0 (nth [::] z f) j = nth 0 (nth [::] y f) j + nth 0 (nth [::] y0 f) j +
        (if mask f then 0 else tau * df_area (bl_df P) f * (nth 0 (nth [::] x f) (nb + j) - nth 0 (nth [::] x f) j)) /\
      nth 0 (nth [::] z f) (nb + j) = nth 0 (nth [::] y f) (nb + j) + nth 0 (nth [::] y0 f) (nb + j) +
        (if mask2 f then 0 else tau * df_area (bl_df P) f * (nth 0 (nth [::] x f) j - nth 0 (nth [::] x f) (nb + j)))].
Proof. exact: bilap_residual_value. Qed.
Theorem C82_affine_refuted x f j : is_tr x -> (f < nF)%N -> (j < nb)%N -> ~~ mask f ->
  nth 0 (nth [::] x f) j != nth 0 (nth [::] x f) (nb + j) ->
  forall out out' out'', is_tr out -> is_tr out' -> is_tr out'' ->
  exists y y0 z, [/\ flux x out = Ok y, residual (zero_trace F nF (2 * nb)) out' = Ok y0, residual x out'' = Ok z &
    nth 0 (nth [::] z f) j != nth 0 (nth [::] y f) j + nth 0 (nth [::] y0 f) j].
Proof. exact: bilap_not_affine. Qed.

(** * C84 mass fluxes *)
(** Local solution u, then fluxes of the coupled problem with source u and zero traces. *)
Theorem C84_mass x out : is_tr x -> is_tr out -> exists2 y, mass_flux x out = Ok y &
  exists q u r w q' u' r' w', [/\ hom x q u r w,
    bi_loc dim p tau P q' u' r' w' (fun=> 0) (fun=> 0) (fun=> 0) 0 (fun=> 0) (df_mass_mx dim p (bl_df P) *m u) &
    fluxes q' u' r' w' (fun=> 0) (fun=> 0) y].
Proof. exact: bilap_mass. Qed.
Theorem C84_total x out : is_tr x -> is_tr out ->
  exists2 y, bl_total_numerical_flux_mass gesv dim p dirs laps tau P x out = Ok y &
  exists q u r w q' u' r' w', [/\ full x q u r w,
    bi_loc dim p tau P q' u' r' w' (fun=> 0) (fun=> 0) (fun=> 0) 0 (fun=> 0) (df_mass_mx dim p (bl_df P) *m u) &
    fluxes q' u' r' w' (fun=> 0) (fun=> 0) y].
Proof. exact: bilap_mass_total. Qed.
(** The L2 product of the functions u of the two traces. *)
Theorem C84_form x x' out : is_tr x -> is_tr x' -> is_tr out -> off x' ->
  exists y q u r w q' u' r' w', [/\ mass_flux x out = Ok y, hom x q u r w, hom x' q' u' r' w' &
    pair x' y = dotv u' (df_mass_mx dim p (bl_df P) *m u)].
Proof. exact: bilap_mass_form. Qed.
Theorem C84_symmetric x x' out out' : is_tr x -> is_tr x' -> is_tr out -> is_tr out' -> off x -> off x' ->
  exists y y', [/\ mass_flux x out = Ok y, mass_flux x' out' = Ok y', pair x' y = pair x y' & 0 <= pair x y].
Proof. exact: bilap_mass_sym. Qed.

(** * C85 errors and values in the bulk *)
Theorem C85_errors x : is_tr x -> exists q u r w, full x q u r w /\
  bl_errors gesv dim p dirs laps tau P x =
  if 0 <= df_diffsq (bl_df P) (coeffs_of u) then Ok [:: df_diffsq (bl_df P) (coeffs_of u)] else Abort.
Proof. exact: bilap_errors. Qed.
Theorem C85_bulk x absc : is_tr x -> exists q u r w, full x q u r w /\
  bl_bulk_values gesv dim p dirs laps tau P absc x =
  Ok (rcons [seq mkseq (df_eval (bl_df P) absc (coeffs_of (q d))) (size absc ^ dim) | d <- enum 'I_dim]
            (mkseq (df_eval (bl_df P) absc (coeffs_of u)) (size absc ^ dim))).
Proof. exact: bilap_bulk. Qed.
(** errors_temp solves with the difference quotient of the two local solutions as additional source. *)
Theorem C85_errors_temp Po dt x xo : diffusion_data dim p (bl_df Po) -> dt != 0 -> is_tr x -> is_tr xo ->
  exists q u r w qo uo ro wo q' u' r' w', [/\ full x q u r w, bi_full dim p dirs laps tau Po xo qo uo ro wo,
    bi_loc dim p tau P q' u' r' w' (lo x) (hi x)
      (df_rq p (u_problem P) (face_dirichlet dirs (bl_df P))) (df_ru dim p (u_problem P) tau (face_dirichlet dirs (bl_df P)))
      (df_rq p (w_problem P) (face_dirichlet laps (bl_df P)))
      (df_ru dim p (w_problem P) tau (face_dirichlet laps (bl_df P)) + df_mass_mx dim p (bl_df P) *m (dt^-1 *: (uo - u))) &
    bl_errors_temp gesv dim p dirs laps tau P Po dt x xo = Ok (df_diffsq (bl_df P) (coeffs_of u'))].
Proof. exact: bilap_errors_temp. Qed.
End Local.
Print Assumptions C80_flux.
Print Assumptions C80_unique.
Print Assumptions C80_linear.
Print Assumptions C80_dirichlet.
Print Assumptions C80_constant.
Print Assumptions C80_conserved.
Print Assumptions C80_source.
Print Assumptions C81_symmetric.
Print Assumptions C81_form.
Print Assumptions C81_isotropic.
Print Assumptions C81_definite_refuted.
Print Assumptions C82_superposition.
Print Assumptions C82_residual.
Print Assumptions C82_difference.
Print Assumptions C82_affine_refuted.
Print Assumptions C84_mass.
Print Assumptions C84_total.
Print Assumptions C84_form.
Print Assumptions C84_symmetric.
Print Assumptions C85_errors.
Print Assumptions C85_bulk.
Print Assumptions C85_errors_temp.

Section Checks.
Variables (F : realFieldType) (gesv : nat -> nat -> seq F -> seq F -> sv_result F).
Variables (dim p : nat) (dirs laps : seq nat) (tau : F) (P : bl_data F).
Let nb := ((p + 1) ^ (dim - 1))%N.
Theorem C80_checked st (x out : seq (seq F)) : (0 < dim)%N ->
  ~ is_trace (2 * dim) (2 * nb) x \/ ~ is_trace (2 * dim) (2 * nb) out ->
  [/\ bl_trace_to_flux gesv dim p dirs laps tau P x out = Abort,
      bl_residual_flux gesv dim p dirs laps tau P x out = Abort
    & bl_mass_flux gesv dim p dirs laps tau P st x out = Abort].
Proof. move=> dim0; exact: bilap_checked. Qed.
Theorem C80_lapack st (x out : seq (seq F)) : (forall n nc A b, ~~ sv_info (gesv n nc A b)) ->
  [/\ bl_trace_to_flux gesv dim p dirs laps tau P x out = Abort,
      bl_residual_flux gesv dim p dirs laps tau P x out = Abort
    & bl_mass_flux gesv dim p dirs laps tau P st x out = Abort].
Proof. exact: bilap_lapack. Qed.
Theorem C80_node_types : bl_node_types dim dirs (bl_df P) =
  mkseq (fun f => if nth 0%N (df_types (bl_df P)) f \in dirs then 1%N else 0%N) (2 * dim).
Proof. exact: bilap_node_types. Qed.

(** * C83 make_initial *)
(** The first argument of df_initial is the face function, the second one the face: the call has them exchanged. *)
Theorem C83_initial (out : seq (seq F)) : is_trace (2 * dim) (2 * nb) out ->
  bl_make_initial dirs P out =
  mkseq (fun f => mkseq (fun j => if nth 0%N (df_types (bl_df P)) f \in dirs then 0
                                  else if (j < nb)%N then df_initial (bl_df P) f j else bl_initlap P f j)
                    (2 * nb)) (2 * dim).
Proof. exact: bilap_initial. Qed.
End Checks.
Print Assumptions C80_checked.
Print Assumptions C80_lapack.
Print Assumptions C80_node_types.
Print Assumptions C83_initial.
(** The coefficients on a face are not those of the face. *)
Theorem C83_faces_refuted (F : rcfType) : exists P : bl_data F, diffusion_data 2 1 (bl_df P) /\
  forall out, is_trace 4 4 out -> exists f j, [/\ (f < 4)%N, (j < 2)%N &
    nth 0 (nth [::] (bl_make_initial [::] P out) f) j != df_initial (bl_df P) j f].
Proof. exact: bilap_initial_wrong. Qed.
Print Assumptions C83_faces_refuted.
(** Contracts of the integrals and of LAPACK that can be met, with any types of the nodes. *)
Example C80_example (F : rcfType) (dim : nat) (types : seq nat) (init initlap : nat -> nat -> F) :
  gesv_correct (@inv_gesv F) /\
  exists P : bl_data F, [/\ diffusion_data dim 1 (bl_df P), df_types (bl_df P) = types,
    df_initial (bl_df P) = init & bl_initlap P = initlap].
Proof. exact: bilap_example. Qed.
Print Assumptions C80_example.

(** * C86 the global system *)
Section Global.
Variables (F : realFieldType) (E : Type) (dim p : nat) (dat : E -> bl_data F).
Variables (gesv : nat -> nat -> seq F -> seq F -> sv_result F) (tau : F).
Hypotheses (dim0 : (0 < dim)%N) (hD : forall e, diffusion_data dim p (bl_df (dat e))).
Hypotheses (hg : gesv_correct gesv) (tau0 : 0 < tau).
Variables (dirs laps : seq nat) (n_nodes : nat) (edges : seq (seq nat * E)) (junk : seq (seq F)) (nt : nat -> nat).
Let nb := ((p + 1) ^ (dim - 1))%N.
Let N := (n_nodes * (2 * nb))%N.
Hypotheses (hv : valid_graph dim n_nodes edges) (hj : size junk = (2 * dim)%N).
Hypothesis ht : types_agree (fun e => bl_df (dat e)) nt edges.
Let op := elliptic_flux (2 * nb) N [::] junk edges (fun e => bl_trace_to_flux gesv dim p dirs laps tau (dat e)).
Let rop := elliptic_flux (2 * nb) N [::] junk edges (fun e => bl_residual_flux gesv dim p dirs laps tau (dat e)).
(** Zero where the trace of u or of w is given. *)
Let off (x : seq F) := forall v j, (v < n_nodes)%N -> (j < nb)%N ->
  (nt v \in dirs -> nth 0 x (v * (2 * nb) + j) = 0) /\ (nt v \in laps -> nth 0 x (v * (2 * nb) + (nb + j)) = 0).

Theorem C86_symmetric x y : size x = N -> size y = N -> off x -> off y ->
  exists u v, [/\ op x = Ok u, op y = Ok v & vdot N y u = vdot N x v].
Proof. exact: global_bilap_symmetric. Qed.
Theorem C86_range x : size x = N -> exists z, [/\ op x = Ok z, size z = N & off z].
Proof. exact: global_bilap_range. Qed.
(** With the same nodes for both boundary conditions, and chains of hyperedges to them. *)
Hypothesis hsame : forall v, (v < n_nodes)%N -> (nt v \in dirs) = (nt v \in laps).
Hypothesis hc : forall v, (v < n_nodes)%N -> anchored edges (fun v => nt v \in dirs) v.
Hypothesis hc2 : forall v, (v < n_nodes)%N -> anchored edges (fun v => nt v \in laps) v.
Theorem C86_solvable_partial r : size r = N -> off r ->
  exists x, [/\ size x = N, off x, op x = Ok r & forall x', size x' = N -> off x' -> op x' = Ok r -> x' = x].
Proof. exact: global_bilap_solvable. Qed.
(** The system of the drivers. *)
Theorem C86_solution_partial : exists r0 x, [/\ rop (nseq N 0) = Ok r0, size x = N, off x, op x = Ok (map -%R r0) &
  forall x', size x' = N -> off x' -> op x' = Ok (map -%R r0) -> x' = x].
Proof. exact: global_bilap_solution. Qed.
End Global.
Print Assumptions C86_symmetric.
Print Assumptions C86_range.
Print Assumptions C86_solvable_partial.
Print Assumptions C86_solution_partial.
(** Two edges in a row, the first node of type 1, which stands for both conditions. *)
Example C86_example (F : rcfType) : let edges := [:: ([:: 0; 1], false); ([:: 1; 2], true)]%N in
  let nt v := if v == 0%N then 1%N else 0%N in
  exists dat : bool -> bl_data F, [/\ forall e, diffusion_data 1 1 (bl_df (dat e)), valid_graph 1 3 edges,
    types_agree (fun e => bl_df (dat e)) nt edges & forall v, (v < 3)%N -> anchored edges (fun v => nt v \in [:: 1%N]) v].
Proof. exact: bilap_row. Qed.
Print Assumptions C86_example.
