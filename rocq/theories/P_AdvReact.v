(** Properties C98-C103: the local solver DiffusionAdvectionReaction and its global system.  The integrals of TPP and
    the LAPACK solver enter with the contracts of S_AdvReact and S_Lapack.  Statements only; proofs are in
    L_AdvReact2, L_AdvReact4, L_AdvReact5, L_AdvReactEx and L_GlobalAdvReact. *)
From mathcomp Require Import all_ssreflect all_algebra.
From Verif Require Import M_Base M_Lapack S_Lapack S_Hdg M_DiffusionUniform M_Diffusion S_Tpp S_LocalSolver S_Diffusion S_TppGeo.
From Verif Require Import S_DiffusionEigs M_Global S_Global S_GlobalParab M_AdvReact S_AdvReact.
From Verif Require Import L_Lapack L_DiffusionUniform2 L_DiffusionEx L_ParabEx L_AdvReact2 L_AdvReact4 L_AdvReact5 L_AdvReactEx L_GlobalAdvReact.
Set Implicit Arguments. Unset Strict Implicit. Unset Printing Implicit Defensive.
Import Order.TTheory GRing.Theory Num.Theory.
Local Open Scope ring_scope.

(** * C98 the local problem *)
Section Checks.
Variable F : realFieldType.
Variable gesv : nat -> nat -> seq F -> seq F -> sv_result F.
Variables (dim p : nat) (dirs : seq nat) (tau : F) (P : ar_data F).
Let nb := ((p + 1) ^ (dim - 1))%N.
(** Traces of the wrong size, failures of LAPACK and singular local problems end in an assertion (st is 0 for the
    matrix-vector product, 1 for the residual). *)
Theorem C98_checked st x out t : ~ is_trace (2 * dim) nb x \/ ~ is_trace (2 * dim) nb out ->
  ar_flux gesv dim p dirs tau P st x out t = Abort /\ ar_mass_flux gesv dim p dirs tau P st x out t = Abort.
Proof. exact: ar_checked. Qed.
Theorem C98_checked_errors x t : ~ is_trace (2 * dim) nb x ->
  ar_errors gesv dim p dirs tau P x t = Abort /\ ar_make_initial dim p dirs P x t = Abort.
Proof. exact: ar_checked_errors. Qed.
Theorem C98_lapack st x out t : (forall n nc A b, ~~ sv_info (gesv n nc A b)) ->
  ar_flux gesv dim p dirs tau P st x out t = Abort /\ ar_mass_flux gesv dim p dirs tau P st x out t = Abort.
Proof. exact: ar_lapack. Qed.
Theorem C98_singular st x out t : (0 < dim)%N -> gesv_detects gesv -> ~ ar_regular dim p tau P t ->
  ar_flux gesv dim p dirs tau P st x out t = Abort /\ ar_mass_flux gesv dim p dirs tau P st x out t = Abort.
Proof. exact: ar_singular. Qed.
End Checks.

Section Local.
Variable F : realFieldType.
Variable gesv : nat -> nat -> seq F -> seq F -> sv_result F.
Variables (dim p : nat) (dirs : seq nat) (tau : F) (P : ar_data F) (t : F).
Hypotheses (dim0 : (0 < dim)%N) (hg : gesv_correct gesv) (hreg : ar_regular dim p tau P t).
Let nf := ((p + 1) ^ dim)%N.
Let nb := ((p + 1) ^ (dim - 1))%N.
Let zero := fun _ : 'I_dim => 0 : 'cV[F]_((p + 1) ^ dim).
Let mass := df_mass_mx dim p (ar_df P t).
Let mask := ar_mask dirs P t.
Let flux x out := ar_trace_to_flux gesv dim p dirs tau P x out t.
Let residual x out := ar_residual_flux gesv dim p dirs tau P x out t.
Let massflux x out := ar_trace_to_mass_flux gesv dim p dirs tau P x out t.
Let is_tr : seq (seq F) -> Prop := is_trace (2 * dim) nb.
Let zt := zero_trace F (2 * dim) nb.
Let eqs q u x := ar_loc dim p tau P t q u (tr nb x).

(** The fluxes are the numerical fluxes of the discrete equations; Dirichlet faces report nothing. *)
Theorem C98_flux x out : is_tr x -> is_tr out -> exists y q u,
  [/\ flux x out = Ok y, eqs q u x zero 0 & ar_flux_of dim p dirs tau P t x q u y].
Proof. exact: ar_fluxP. Qed.
(** With the source and the boundary values. *)
Theorem C98_residual x out : is_tr x -> is_tr out -> exists y q u,
  [/\ residual x out = Ok y, ar_full dim p dirs tau P t x q u & ar_flux_of dim p dirs tau P t x q u y].
Proof. exact: ar_residualP. Qed.
Theorem C98_unique q u q' u' (x : 'I_(2 * dim) -> 'cV[F]_nb) rq ru : ar_loc dim p tau P t q u x rq ru ->
  ar_loc dim p tau P t q' u' x rq ru -> (forall d, q d = q' d) /\ u = u'.
Proof. exact: ar_unique. Qed.
Theorem C98_linear c x x' out out' out'' : is_tr x -> is_tr x' -> is_tr out -> is_tr out' -> is_tr out'' ->
  exists y y', [/\ flux x out = Ok y, flux x' out' = Ok y' &
    flux (comb_trace c (2 * dim) nb x x') out'' = Ok (comb_trace c (2 * dim) nb y y')].
Proof. exact: ar_linear. Qed.
Theorem C98_affine x out out' out'' : is_tr x -> is_tr out -> is_tr out' -> is_tr out'' ->
  exists y y0, [/\ flux x out = Ok y, residual zt out' = Ok y0 & residual x out'' = Ok (comb_trace 1 (2 * dim) nb y y0)].
Proof. exact: ar_affine. Qed.
(** The mass flux: the local problem with u as source, zero traces. *)
Theorem C98_mass x out : is_tr x -> is_tr out -> exists y q u q' u',
  [/\ massflux x out = Ok y, eqs q u x zero 0, eqs q' u' zt zero (mass *m u) & ar_flux_of dim p dirs tau P t zt q' u' y].
Proof.
move=> hx ho; have [y [q [u [q' [u' [h1 h2 h3 h4]]]]]] := ar_massP dirs dim0 hg hreg hx ho.
by exists y, q, u, q', u'; split=> //; exact: ar_zero_trace h3.
Qed.
Theorem C98_total x out : is_tr x -> is_tr out -> exists y q u q' u',
  [/\ ar_total_numerical_flux_mass gesv dim p dirs tau P x out t = Ok y, ar_full dim p dirs tau P t x q u,
      eqs q' u' zt zero (mass *m u) & ar_flux_of dim p dirs tau P t zt q' u' y].
Proof.
move=> hx ho; have [y [q [u [q' [u' [h1 h2 h3 h4]]]]]] := ar_totalP dirs dim0 hg hreg hx ho.
by exists y, q, u, q', u'; split=> //; exact: ar_zero_trace h3.
Qed.
Theorem C98_mass_linear c x x' out out' out'' : is_tr x -> is_tr x' -> is_tr out -> is_tr out' -> is_tr out'' ->
  exists y y', [/\ massflux x out = Ok y, massflux x' out' = Ok y' &
    massflux (comb_trace c (2 * dim) nb x x') out'' = Ok (comb_trace c (2 * dim) nb y y')].
Proof. exact: ar_mass_linear. Qed.

(** * C102 post-processing *)
Theorem C102_errors x : is_tr x -> exists q u, ar_full dim p dirs tau P t x q u /\
  ar_errors gesv dim p dirs tau P x t = Ok [:: df_diffsq (ar_df P t) (coeffs_of u)].
Proof. exact: ar_errorsP. Qed.
Theorem C102_bulk x absc : is_tr x -> exists q u, ar_full dim p dirs tau P t x q u /\
  ar_bulk_values gesv dim p dirs tau P absc x t =
  Ok (rcons [seq mkseq (df_eval (ar_df P t) absc (coeffs_of (q d))) (size absc ^ dim) | d <- enum 'I_dim]
            (mkseq (df_eval (ar_df P t) absc (coeffs_of u)) (size absc ^ dim))).
Proof. exact: ar_bulkP. Qed.
(** errors_temp solves with the difference quotient of old and new solution as source. *)
Theorem C102_errors_temp dt x xo : ar_regular dim p tau P (t - dt) -> is_tr x -> is_tr xo ->
  exists q u qo uo q' u', [/\ ar_full dim p dirs tau P t x q u, ar_full dim p dirs tau P (t - dt) xo qo uo,
    eqs q' u' x (df_rq p (ar_df P t) mask) (df_ru dim p (ar_df P t) tau mask + mass *m (dt^-1 *: (uo - u))) &
    ar_errors_temp gesv dim p dirs tau P dt x xo t = Ok (df_diffsq (ar_df P t) (coeffs_of u'))].
Proof. exact: ar_errors_tempP. Qed.

(** * C100 conservation on a hyperedge: what leaves through the faces is the source minus the reaction. *)
Theorem C100_balance x out : diffusion_data dim p (ar_df P t) -> is_tr x -> is_tr out ->
  (forall f, (f < 2 * dim)%N -> ~~ mask f) -> exists y q u,
  [/\ residual x out = Ok y, ar_full dim p dirs tau P t x q u &
    \sum_(f < 2 * dim) nth 0 (nth [::] y f) 0 =
    df_src (ar_df P t) 0 - \sum_(j < nf) ar_react P t 0 j * u j 0].
Proof. by move=> hD; exact: ar_conserved. Qed.
End Local.
Print Assumptions C98_checked.
Print Assumptions C98_checked_errors.
Print Assumptions C98_lapack.
Print Assumptions C98_singular.
Print Assumptions C98_flux.
Print Assumptions C98_residual.
Print Assumptions C98_unique.
Print Assumptions C98_linear.
Print Assumptions C98_affine.
Print Assumptions C98_mass.
Print Assumptions C98_total.
Print Assumptions C98_mass_linear.
Print Assumptions C102_errors.
Print Assumptions C102_bulk.
Print Assumptions C102_errors_temp.
Print Assumptions C100_balance.

(** * C102 the velocity is the one at time 0, whatever the time. *)
Section Velocity.
Variable F : realFieldType.
Variable gesv : nat -> nat -> seq F -> seq F -> sv_result F.
Variables (dim p : nat) (dirs : seq nat) (tau : F) (P P' : ar_data F).
Theorem C102_velocity_refuted st x out absc t : ar_df P = ar_df P' -> ar_react P = ar_react P' -> ar_adv P 0 = ar_adv P' 0 ->
  [/\ ar_flux gesv dim p dirs tau P st x out t = ar_flux gesv dim p dirs tau P' st x out t,
      ar_errors gesv dim p dirs tau P x t = ar_errors gesv dim p dirs tau P' x t &
      ar_bulk_values gesv dim p dirs tau P absc x t = ar_bulk_values gesv dim p dirs tau P' absc x t].
Proof.
by move=> h1 h2 h3; have [h4 h5] := velocity_errors gesv dim p dirs tau h1 h2 h3 x absc t; split=> //; exact: velocity_flux.
Qed.
(** Without velocity and reaction the solver is Diffusion. *)
Theorem C102_diffusion x out t : (0 < dim)%N -> gesv_correct gesv -> 0 < tau -> diffusion_data dim p (ar_df P t) ->
  (forall i j, (i < (p + 1) ^ dim)%N -> (j < (p + 1) ^ dim)%N -> ar_react P t i j = 0) ->
  (forall i j d, (i < (p + 1) ^ dim)%N -> (j < (p + 1) ^ dim)%N -> (d < dim)%N -> ar_adv P 0 i j d = 0) ->
  is_trace (2 * dim) ((p + 1) ^ (dim - 1)) x -> is_trace (2 * dim) ((p + 1) ^ (dim - 1)) out ->
  ar_trace_to_flux gesv dim p dirs tau P x out t = df_trace_to_flux gesv dim p dirs tau (ar_df P t) x out /\
  ar_residual_flux gesv dim p dirs tau P x out t = df_residual_flux gesv dim p dirs tau (ar_df P t) x out.
Proof. by move=> *; apply: ar_reduces. Qed.
End Velocity.
Print Assumptions C102_velocity_refuted.
Print Assumptions C102_diffusion.

(** * C99 stability *)
Section Stable.
Variable F : realFieldType.
Variable gesv : nat -> nat -> seq F -> seq F -> sv_result F.
Variables (dim p : nat) (dirs : seq nat) (tau : F) (P : ar_data F) (t : F).
Hypotheses (dim0 : (0 < dim)%N) (hg : gesv_correct gesv).
Let nb := ((p + 1) ^ (dim - 1))%N.
Let H := ar_hdg dim p P t.
Let is_tr : seq (seq F) -> Prop := is_trace (2 * dim) nb.
Let pair : seq (seq F) -> seq (seq F) -> F := pairing (2 * dim) nb.
Let off : seq (seq F) -> Prop := vanishes (ar_mask dirs P t) (2 * dim) nb.
Let flux x out := ar_trace_to_flux gesv dim p dirs tau P x out t.
(** The local problem is regular if at each point the velocity is small against diffusion and reaction, or if there
    is a steady wind and tau exceeds half of its inflow. *)
Theorem C99_regular w : ar_stable dim p tau w P t -> ar_regular dim p tau P t.
Proof. exact: ar_stable_regular. Qed.
(** The work of the fluxes on the traces. *)
Theorem C99_energy x out : ar_regular dim p tau P t -> diffusion_data dim p (ar_df P t) -> is_tr x -> is_tr out -> off x ->
  exists y q u, [/\ flux x out = Ok y, ar_loc dim p tau P t q u (tr nb x) (fun=> 0) 0 &
    pair x y = - (bulk_form H (@ar_A F dim p P) (ar_R dim p P t) q u + tau * trace_jump H u (tr nb x))].
Proof. exact: ar_energy. Qed.
(** That work is at most half of what the wind carries out of the hyperedge, and equal only for constant traces,
    without reaction. *)
Theorem C99_stable w x out : ar_stable dim p tau w P t -> is_tr x -> is_tr out -> off x ->
  exists2 y, flux x out = Ok y &
    let half := (\sum_(f < 2 * dim) face_outflow dim w P t f * (\sum_(j < nb) nth 0 (nth [::] x f) j ^+ 2)) / 2%:R in
    pair x y <= half /\
    (pair x y = half -> exists c, x = const_trace c (2 * dim) nb /\ (ar_react P t 0 0 != 0 -> c = 0)).
Proof. exact: ar_stableP. Qed.

(** * C103 the wind carries constants out, and the flux is not symmetric *)
Section Wind.
Variable w : nat -> F.
Hypothesis hw : ar_wind dim p tau w P t.
Hypothesis hR : forall i j, (i < (p + 1) ^ dim)%N -> (j < (p + 1) ^ dim)%N -> ar_react P t i j = 0.
Theorem C103_constant c out : is_tr out -> flux (const_trace c (2 * dim) nb) out =
  Ok (mkseq (fun f => mkseq (fun j => if (j == 0)%N && ~~ ar_mask dirs P t f then c * face_outflow dim w P t f else 0) nb)
        (2 * dim)).
Proof. exact: ar_constant. Qed.
Theorem C103_asymmetric f out out' : (forall f, (f < 2 * dim)%N -> ~~ ar_mask dirs P t f) -> is_tr out -> is_tr out' ->
  (f < 2 * dim)%N -> face_outflow dim w P t f != 0 ->
  exists x x' y y', [/\ is_tr x, is_tr x', flux x out = Ok y, flux x' out' = Ok y' & pair x' y != pair x y'].
Proof. exact: ar_asymmetric. Qed.
End Wind.
End Stable.
Print Assumptions C99_regular.
Print Assumptions C99_energy.
Print Assumptions C99_stable.
Print Assumptions C103_constant.
Print Assumptions C103_asymmetric.

(** The property as a user of a symmetric Krylov method needs it fails. *)
Theorem C103_refuted (F : rcfType) dim : (0 < dim)%N -> exists (P : ar_data F) (gesv : nat -> nat -> seq F -> seq F -> sv_result F),
  gesv_correct gesv /\ forall t, ar_stable dim 1 1 (fun=> 1) P t /\
  exists x x' y y', [/\ is_trace (2 * dim) (2 ^ (dim - 1)) x /\ is_trace (2 * dim) (2 ^ (dim - 1)) x',
    ar_trace_to_flux gesv dim 1 [::] 1 P x (zero_trace F (2 * dim) (2 ^ (dim - 1))) t = Ok y,
    ar_trace_to_flux gesv dim 1 [::] 1 P x' (zero_trace F (2 * dim) (2 ^ (dim - 1))) t = Ok y' &
    pairing (2 * dim) (2 ^ (dim - 1)) x' y != pairing (2 * dim) (2 ^ (dim - 1)) x y'].
Proof. exact: ar_symmetry_fails. Qed.
Print Assumptions C103_refuted.

(** The hypotheses are met in every dimension, with any sources and boundary values. *)
Example C98_example (F : rcfType) dim src dirval types : exists P : ar_data F, forall t,
  [/\ ar_small dim 1 P t, df_src (ar_df P t) = src, df_dirval (ar_df P t) = dirval & df_types (ar_df P t) = types].
Proof. exact: ar_small_exists. Qed.
Example C99_example (F : rcfType) dim src dirval types : exists P : ar_data F, forall t,
  [/\ ar_wind dim 1 1 (fun=> 1) P t, df_src (ar_df P t) = src, df_dirval (ar_df P t) = dirval & df_types (ar_df P t) = types]
  /\ (forall i j, ar_react P t i j = 0) /\ (forall f, (f < 2 * dim)%N -> face_outflow dim (fun=> 1) P t f = if odd f then 1 else -1).
Proof. exact: ar_wind_exists. Qed.

(** * C101 the global system *)
Section Global.
Variables (F : realFieldType) (E : Type) (dim p : nat) (dat : E -> ar_data F) (w : E -> nat -> F) (t : F).
Variables (gesv : nat -> nat -> seq F -> seq F -> sv_result F) (tau : F) (dirs : seq nat).
Hypotheses (dim0 : (0 < dim)%N) (hg : gesv_correct gesv).
(** Each hyperedge is stable; types of hypernodes agree; at no free hypernode do the winds bring in more than they
    take away; every hypernode is connected to a Dirichlet node or to a hyperedge with reaction. *)
Hypothesis hD : forall e, ar_stable dim p tau (w e) (dat e) t.
Variables (n_nodes : nat) (edges : seq (seq nat * E)) (junk : seq (seq F)) (nt : nat -> nat).
Hypotheses (hv : valid_graph dim n_nodes edges) (hj : size junk = (2 * dim)%N).
Hypothesis ht : types_agree (fun e => ar_df (dat e) t) nt edges.
Hypothesis net : forall v, (v < n_nodes)%N -> nt v \notin dirs ->
  \sum_(e <- edges) \sum_(k < 2 * dim | nth 0%N e.1 k == v) face_outflow dim (w e.2) (dat e.2) t k <= 0.
Hypothesis conn : forall v, (v < n_nodes)%N -> anchored edges (fun v => (nt v \in dirs) ||
  has (fun e => (ar_react (dat e.2) t 0 0 != 0) && (v \in e.1)) edges) v.
Let nb := ((p + 1) ^ (dim - 1))%N.
Let N := (n_nodes * nb)%N.
Let off x := forall d, (d < N)%N -> nt (d %/ nb)%N \in dirs -> nth 0 x d = 0 :> F.
Let op x := elliptic_flux nb N [::] junk edges (fun e y out => ar_trace_to_flux gesv dim p dirs tau (dat e) y out t) x.
Let res x := elliptic_flux nb N [::] junk edges (fun e y out => ar_residual_flux gesv dim p dirs tau (dat e) y out t) x.
Theorem C101_definite x : size x = N -> off x ->
  exists u, [/\ op x = Ok u, vdot N x u <= 0 & vdot N x u = 0 -> x = nseq N 0].
Proof. exact: (global_ar_definite dim0 hD hg hv hj ht net conn). Qed.
Theorem C101_solvable r : size r = N -> off r ->
  exists x, [/\ size x = N, off x, op x = Ok r & forall x', size x' = N -> off x' -> op x' = Ok r -> x' = x].
Proof. exact: (global_ar_solvable dim0 hD hg hv hj ht net conn). Qed.
Theorem C101_solution : exists x, [/\ size x = N, off x, res x = Ok (nseq N 0) &
    forall x', size x' = N -> off x' -> res x' = Ok (nseq N 0) -> x' = x].
Proof. exact: (global_ar_solution dim0 hD hg hv hj ht net conn). Qed.
End Global.
Print Assumptions C101_definite.
Print Assumptions C101_solvable.
Print Assumptions C101_solution.
Example C101_example (F : rcfType) (t : F) : exists P : nat -> ar_data F, (forall i, ar_stable 1 1 1 (fun=> 1) (P i) t) /\
  [/\ valid_graph 1 3 (indexed row_nodes), types_agree (fun i => ar_df (P i) t) ends_type (indexed row_nodes),
      forall v, (v < 3)%N -> ends_type v \notin [:: 1%N] -> \sum_(e <- indexed row_nodes)
        \sum_(k < 2 * 1 | nth 0%N e.1 k == v) face_outflow 1 (fun=> 1) (P e.2) t k <= 0 &
      forall v, (v < 3)%N -> anchored (indexed row_nodes) (fun v => ends_type v \in [:: 1%N]) v].
Proof. exact: ar_row_ok. Qed.
