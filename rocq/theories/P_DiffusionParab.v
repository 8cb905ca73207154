(** Properties C71-C76: the local solver DiffusionParab, its time steps and its global system.  The integrals
    of TPP and the LAPACK solver enter with the contracts of S_DiffusionParab and S_LocalSolver.  Statements
    only; proofs are in L_DiffusionParab2 to L_DiffusionParab5 and L_GlobalParab. *)
From mathcomp Require Import all_ssreflect all_algebra.
From Verif Require Import M_Base M_Index M_DenseLA S_DenseLA M_Lapack S_Lapack S_Hdg S_Tpp M_DiffusionUniform M_Diffusion.
From Verif Require Import S_LocalSolver S_Diffusion S_TppGeo M_Global S_Global M_DiffusionParab S_DiffusionParab S_GlobalParab.
From Verif Require Import L_DiffusionUniform2 L_Lapack L_DiffusionParab2 L_DiffusionParab3 L_DiffusionParab4 L_DiffusionParab5.
From Verif Require Import L_GlobalParab L_ParabEx.
From Verif Require Import L_FluxChecks.
Set Implicit Arguments. Unset Strict Implicit. Unset Printing Implicit Defensive.
Import Order.TTheory GRing.Theory Num.Theory.
Local Open Scope ring_scope.

Section Local.
Variable F : realFieldType.
Variables (gesv : nat -> nat -> seq F -> seq F -> sv_result F).
Variables (dim p : nat) (dirs : seq nat) (tau theta dt : F) (P : dp_data F).
Hypotheses (dim0 : (0 < dim)%N) (hP : parab_data dim p P) (hg : gesv_correct gesv).
Hypotheses (tau0 : 0 <= tau) (c0 : 0 <= theta * dt).
Let nF := (2 * dim)%N.
Let nb := ((p + 1) ^ (dim - 1))%N.
Let nf := ((p + 1) ^ dim)%N.
Let flux := dp_trace_to_flux gesv dim p dirs tau theta dt P.
Let residual := dp_residual_flux gesv dim p dirs tau theta dt P.
Let set_data := dp_set_data gesv dim p dirs tau theta dt P.
Let mask (f : nat) : bool := nth 0%N (df_types (dp_df P)) f \in dirs.

(** * C71 trace_to_flux and residual_flux *)
(** The fluxes are theta times the numerical fluxes of a step from zero ... *)
Theorem C71_flux S x out : is_trace nF nb x -> is_trace nF nb out -> exists y q u,
  [/\ flux S x out = Ok y, hom_step dim p tau theta dt P x q u & flux_of dim p dirs tau theta P x q u y].
Proof. exact: parab_flux. Qed.
(** ... and the residual mixes the fluxes of the step from the stored state with the stored fluxes. *)
Theorem C71_residual S x out : is_trace nF nb x -> is_trace nF nb out -> exists y q u,
  [/\ residual S x out = Ok y, step_of dim p dirs tau theta dt P S x q u
    & mixed_flux_of dim p dirs tau theta P S x q u y].
Proof. exact: parab_residual. Qed.
(** There is exactly one step. *)
(** Traces of the wrong size end in an assertion. *)
Theorem C71_checked S x out : ~ is_trace nF nb x \/ ~ is_trace nF nb out ->
  flux S x out = Abort /\ residual S x out = Abort.
Proof. exact: parab_checked. Qed.
Theorem C71_unique S x q u q' u' : step_of dim p dirs tau theta dt P S x q u ->
  step_of dim p dirs tau theta dt P S x q' u' -> (forall d, q d = q' d) /\ u = u'.
Proof. exact: step_of_unique. Qed.
Theorem C71_linear S c x x' out out' out'' : is_trace nF nb x -> is_trace nF nb x' ->
  is_trace nF nb out -> is_trace nF nb out' -> is_trace nF nb out'' ->
  exists y y', [/\ flux S x out = Ok y, flux S x' out' = Ok y' &
    flux S (comb_trace c nF nb x x') out'' = Ok (comb_trace c nF nb y y')].
Proof. exact: parab_linear. Qed.
Theorem C71_affine S x out out' out'' : is_trace nF nb x -> is_trace nF nb out -> is_trace nF nb out' ->
  is_trace nF nb out'' -> exists y y0, [/\ flux S x out = Ok y,
    residual S (nseq nF (nseq nb 0)) out' = Ok y0 & residual S x out'' = Ok (comb_trace 1 nF nb y y0)].
Proof. exact: parab_affine. Qed.
Theorem C71_dirichlet S x out : is_trace nF nb x -> is_trace nF nb out -> exists y r,
  [/\ flux S x out = Ok y, residual S x out = Ok r, vanishes mask nF nb y & vanishes mask nF nb r].
Proof. exact: parab_dirichlet. Qed.
(** The explicit scheme has a zero matrix: the traces are not determined. *)
Theorem C71_explicit_refuted S x out : theta = 0 -> is_trace nF nb x -> is_trace nF nb out ->
  flux S x out = Ok (nseq nF (nseq nb 0)).
Proof. exact: parab_explicit. Qed.

(** * C72 time steps *)
(** set_data stores the step from the stored state. *)
Theorem C72_step S x : is_trace nF nb x -> state_ok dim p S -> exists S' q u,
  [/\ set_data x S = Ok S', step_of dim p dirs tau theta dt P S x q u & stored dim p dirs tau P x q u S'].
Proof. exact: parab_set_data. Qed.
(** If the state was stored for the data P0 of the old time, this is the one-step theta scheme: the
    mean of the rates of the two times, with the Dirichlet values of the two times. *)
Theorem C72_scheme P0 x0 q0 u0 S x : dp_mask dirs P0 =1 mask ->
  (forall i f, (i < nf)%N -> (f < nF)%N -> dp_dirold P i f = df_dirval (dp_df P0) i f) ->
  stored dim p dirs tau P0 x0 q0 u0 S -> is_trace nF nb x ->
  exists S' q u, [/\ set_data x S = Ok S', stored dim p dirs tau P x q u S',
    grad_eq (dp_hdg dim p P) q u (tr nb x) (df_rq p (dp_df P) mask)
  & dp_area P *: (u - u0) = dt *:
     (theta *: rate (dp_hdg dim p P) tau q u (tr nb x) (df_ru dim p (dp_df P) tau mask) +
      (1 - theta) *: rate (dp_hdg dim p P0) tau q0 u0 (tr nb x0) (df_ru dim p (dp_df P0) tau (dp_mask dirs P0)))].
Proof. exact: parab_chain. Qed.
(** The mean of u changes by the sources minus the residual fluxes. *)
Theorem C72_balance P0 x0 q0 u0 S x out : parab_data dim p P0 ->
  (forall f, (f < nF)%N -> ~~ dp_mask dirs P0 f) -> (forall f, (f < nF)%N -> ~~ mask f) ->
  stored dim p dirs tau P0 x0 q0 u0 S ->
  grad_eq (dp_hdg dim p P0) q0 u0 (tr nb x0) (df_rq p (dp_df P0) (dp_mask dirs P0)) ->
  is_trace nF nb x -> is_trace nF nb out ->
  exists S' y, [/\ set_data x S = Ok S', residual S x out = Ok y
  & dp_area P * (nth 0 (dp_u_old S') 0 - nth 0 (dp_u_old S) 0) =
    dt * (theta * df_src (dp_df P) 0 + (1 - theta) * df_src (dp_df P0) 0 - \sum_(f < nF) nth 0 (nth [::] y f) 0)].
Proof. exact: parab_balance. Qed.
(** A solution of the stationary problem is kept, with its fluxes as residual. *)
Theorem C72_steady P0 x q u S : dp_df P0 = dp_df P ->
  (forall i f, (i < nf)%N -> (f < nF)%N -> dp_dirold P i f = df_dirval (dp_df P) i f) ->
  stored dim p dirs tau P0 x q u S -> is_trace nF nb x ->
  loc_src (dp_hdg dim p P) tau q u (tr nb x) (df_rq p (dp_df P) mask) (df_ru dim p (dp_df P) tau mask) ->
  exists S', [/\ set_data x S = Ok S', stored dim p dirs tau P x q u S'
    & forall out, is_trace nF nb out -> exists2 y, residual S x out = Ok y & is_trace nF nb y /\
        forall f : 'I_nF, tr nb y f = if mask f then 0 else num_flux (dp_hdg dim p P) tau q u (tr nb x) f].
Proof. exact: parab_steady. Qed.

(** * C74 what is evaluated *)
(** errors compares the stored u with the reference; the trace is not used. *)
Theorem C74_errors S x x' P' : is_trace nF nb x -> state_ok dim p S -> exists S' q u,
  [/\ set_data x S = Ok S', step_of dim p dirs tau theta dt P S x q u &
      dp_errors P' S' x' = Ok [:: df_diffsq (dp_df P') (coeffs_of u)]].
Proof. exact: parab_errors. Qed.
(** bulk_values shows the step from the stored state: what the next set_data will store. *)
Theorem C74_bulk_partial S x absc : is_trace nF nb x -> exists q u,
  step_of dim p dirs tau theta dt P S x q u /\
  dp_bulk_values gesv dim p dirs tau theta dt P S absc x =
  Ok (rcons [seq mkseq (df_eval (dp_df P) absc (coeffs_of (q d))) (hc_pow dim (size absc)) | d <- enum 'I_dim]
            (mkseq (df_eval (dp_df P) absc (coeffs_of u)) (hc_pow dim (size absc)))).
Proof. exact: parab_shown. Qed.
(** * C76 make_initial *)
Theorem C76_initial S x : is_trace nF nb x -> state_ok dim p S -> exists x' S' q,
  [/\ dp_make_initial gesv dim p dirs tau P S x = Ok (x', S'), is_trace nF nb x',
      forall f : 'I_nF, tr nb x' f = if mask f then 0 else \col_j df_initial (dp_df P) j f,
      init_flux P q & stored dim p dirs tau P x' q (\col_i dp_init_phi P i) S'].
Proof. exact: parab_initial. Qed.
(** For an initial value in the discrete space with the Dirichlet values the flux is that of the first
    equation. *)
Theorem C76_discrete x q u : init_flux P q ->
  (forall f : 'I_nF, mask f -> tr nb x f = 0) ->
  (forall (i : 'I_nf) (d : 'I_dim), dp_init_der P i d = (hD (dp_hdg dim p P) d *m u) i 0) ->
  (forall (i : 'I_nf) (f : 'I_nF), dp_init_bdr P i f =
     if mask f then df_dirval (dp_df P) i f else (hE (dp_hdg dim p P) f *m tr nb x f) i 0) ->
  grad_eq (dp_hdg dim p P) q u (tr nb x) (df_rq p (dp_df P) mask).
Proof. exact: initial_grad. Qed.
(** The states with which a data container starts. *)
Theorem C76_fresh : state_ok dim p (dp_state0 F dim p).
Proof. exact: state0_ok. Qed.
End Local.
Print Assumptions C71_flux.
Print Assumptions C71_residual.
Print Assumptions C71_checked.
Print Assumptions C71_unique.
Print Assumptions C71_linear.
Print Assumptions C71_affine.
Print Assumptions C71_dirichlet.
Print Assumptions C71_explicit_refuted.
Print Assumptions C72_step.
Print Assumptions C72_scheme.
Print Assumptions C72_balance.
Print Assumptions C72_steady.
Print Assumptions C74_errors.
Print Assumptions C74_bulk_partial.
Print Assumptions C76_initial.
Print Assumptions C76_discrete.
Print Assumptions C76_fresh.

Section Positive.
Variable F : realFieldType.
Variables (gesv : nat -> nat -> seq F -> seq F -> sv_result F).
Variables (dim p : nat) (dirs : seq nat) (tau theta dt : F) (P : dp_data F).
Hypotheses (dim0 : (0 < dim)%N) (hP : parab_data dim p P) (hg : gesv_correct gesv).
Hypotheses (tau0 : 0 < tau) (th0 : 0 < theta) (dt0 : 0 < dt).
Let nF := (2 * dim)%N.
Let nb := ((p + 1) ^ (dim - 1))%N.
Let nf := ((p + 1) ^ dim)%N.
Let flux := dp_trace_to_flux gesv dim p dirs tau theta dt P.
Let mask (f : nat) : bool := nth 0%N (df_types (dp_df P)) f \in dirs.
Theorem C71_symmetric S x x' out out' : is_trace nF nb x -> is_trace nF nb x' -> is_trace nF nb out ->
  is_trace nF nb out' -> vanishes mask nF nb x -> vanishes mask nF nb x' ->
  exists y y', [/\ flux S x out = Ok y, flux S x' out' = Ok y' & pairing nF nb x' y = pairing nF nb x y'].
Proof. exact: parab_symmetric. Qed.
(** Definite on every hyperedge, also without Dirichlet faces. *)
Theorem C71_definite S x out : is_trace nF nb x -> is_trace nF nb out -> vanishes mask nF nb x ->
  exists2 y, flux S x out = Ok y & pairing nF nb x y <= 0 /\ (pairing nF nb x y = 0 -> x = zero_trace F nF nb).
Proof. exact: parab_negative. Qed.
(** REFUTED: after set_data, bulk_values for the same traces does not show what was stored, but one more
    step: here with the implicit scheme, no source and zero traces. *)
Theorem C74_plot_refuted S absc : (forall i, (i < nf)%N -> df_src (dp_df P) i = 0) -> state_ok dim p S ->
  old_u dim p S != 0 ->
  exists S' (q : 'I_dim -> 'cV[F]_nf) (u : 'cV[F]_nf), [/\
    dp_set_data gesv dim p [::] tau 1 dt P (zero_trace F nF nb) S = Ok S', u != old_u dim p S' &
    dp_bulk_values gesv dim p [::] tau 1 dt P S' absc (zero_trace F nF nb) =
    Ok (rcons [seq mkseq (df_eval (dp_df P) absc (coeffs_of (q d))) (hc_pow dim (size absc)) | d <- enum 'I_dim]
              (mkseq (df_eval (dp_df P) absc (coeffs_of u)) (hc_pow dim (size absc))))].
Proof. exact: parab_plot_refuted. Qed.
End Positive.
Print Assumptions C71_symmetric.
Print Assumptions C71_definite.
Print Assumptions C74_plot_refuted.

(** The hypotheses can be met: hyperedges of any dimension, with any data. *)
Example C71_example (F : rcfType) (dim : nat) (src : nat -> F) (dirval dirold : nat -> nat -> F) (types : seq nat) :
  gesv_correct (@inv_gesv F) /\ exists P : dp_data F, [/\ parab_data dim 1 P, df_src (dp_df P) = src,
    df_dirval (dp_df P) = dirval, dp_dirold P = dirold & df_types (dp_df P) = types].
Proof.
split; first exact: inv_gesv_correct.
have [P hP] := parab_data_exists dim (fun=> src) (fun=> dirval) (fun=> dirold) (fun=> dirold) (fun=> src)
  (fun=> dirold) (fun=> dirold) (fun=> types).
by exists (P 0%N); have [[h1 h2 h3 h4 h5] [h6 _ _ _]] := hP 0%N.
Qed.
Print Assumptions C71_example.

Section Global.
Variables (F : realFieldType) (gesv : nat -> nat -> seq F -> seq F -> sv_result F).
Variables (dim p : nat) (dirs : seq nat) (tau theta dt : F).
Variables (nodes : seq (seq nat)) (n_nodes : nat) (nt : nat -> nat) (junk : seq (seq F)).
Variables (P : nat -> dp_data F).
Hypotheses (dim0 : (0 < dim)%N) (hP : forall i, parab_data dim p (P i)) (hg : gesv_correct gesv).
Hypotheses (tau0 : 0 < tau) (th0 : 0 < theta) (dt0 : 0 < dt).
Hypotheses (hv : valid_graph dim n_nodes (indexed nodes)) (hj : size junk = (2 * dim)%N).
Hypothesis (ht : face_types dim nodes nt P).
Let N := (n_nodes * (p + 1) ^ (dim - 1))%N.
Let free := dir_free (F := F) dim p dirs n_nodes nt.
Let op := glob_op gesv dim p dirs tau theta dt nodes n_nodes junk P.
Let res := glob_res gesv dim p dirs tau theta dt nodes n_nodes junk P.
Let step := time_step gesv dim p dirs tau theta dt nodes n_nodes nt junk P.
Let norm2 := energy dim p nodes P.

(** * C75 the global system of one step *)
Theorem C75_symmetric data x y : size x = N -> size y = N -> free x -> free y ->
  exists u v, [/\ op data x = Ok u, op data y = Ok v & vdot N y u = vdot N x v].
Proof. exact: glob_symmetric. Qed.
Theorem C75_definite data x : covered dirs nodes n_nodes nt -> size x = N -> free x ->
  exists u, [/\ op data x = Ok u, vdot N x u <= 0 & vdot N x u = 0 -> x = nseq N 0].
Proof. by move=> cov; exact: glob_definite. Qed.
(** Exactly one trace makes the residuals of all hyperedges cancel ... *)
Theorem C75_solution data : covered dirs nodes n_nodes nt ->
  exists x, [/\ size x = N, free x, res data x = Ok (nseq N 0) &
    forall x', size x' = N -> free x' -> res data x' = Ok (nseq N 0) -> x' = x].
Proof. by move=> cov; exact: glob_solution. Qed.
(** ... namely the solution of the system of trace_to_flux and the residual of zero. *)
Theorem C75_system data x : size x = N -> exists r0, res data (nseq N 0) = Ok r0 /\
  (res data x = Ok (nseq N 0) <-> op data x = Ok [seq - a | a <- r0]).
Proof. by move=> sx; have := glob_system dirs dim0 hP hg tau0 th0 dt0 hv hj ht data sx. Qed.
(** set_data then stores the step on every hyperedge. *)
Theorem C75_stored data x : size x = N -> states_ok dim p nodes data -> exists data',
  [/\ glob_set gesv dim p dirs tau theta dt nodes junk P x data = Ok data', size data' = size nodes &
    forall i, (i < size nodes)%N -> exists q u,
      step_of dim p dirs tau theta dt (P i) (nth (dp_state0 F dim p) data i) (local_dofs dim p nodes x i) q u /\
      stored dim p dirs tau (P i) (local_dofs dim p nodes x i) q u (nth (dp_state0 F dim p) data' i)].
Proof. exact: glob_step. Qed.
(** A step can be made from any states. *)
Theorem C75_step data : covered dirs nodes n_nodes nt -> states_ok dim p nodes data ->
  exists x data', step data x data' /\ states_ok dim p nodes data'.
Proof. by move=> cov; exact: step_exists. Qed.

(** * C73 stability without sources and Dirichlet values *)
Section Stable.
Hypothesis zd : zero_data dim p nodes P.
(** Implicit scheme: from any state. *)
Theorem C73_implicit data x data' : theta = 1 -> states_ok dim p nodes data -> step data x data' ->
  norm2 data' <= norm2 data.
Proof. exact: stable_euler. Qed.
(** theta at least 1/2: from states that hold the local solutions. *)
Theorem C73_theta data x0 x data' : 1 <= 2%:R * theta ->
  settled dim p dirs tau nodes n_nodes nt P x0 data -> step data x data' -> norm2 data' <= norm2 data.
Proof. exact: stable_settled. Qed.
(** Runs of any length: after the first step the norm never grows. *)
Theorem C73_run n (xs : nat -> seq F) (ds : nat -> seq (dp_state F)) : 1 <= 2%:R * theta ->
  states_ok dim p nodes (ds 0%N) -> (forall k, (k < n)%N -> step (ds k) (xs k) (ds k.+1)) ->
  forall k l, (0 < k)%N -> (k <= l)%N -> (l <= n)%N -> norm2 (ds l) <= norm2 (ds k).
Proof. exact: stable_run. Qed.
End Stable.
End Global.
Print Assumptions C75_symmetric.
Print Assumptions C75_definite.
Print Assumptions C75_solution.
Print Assumptions C75_system.
Print Assumptions C75_stored.
Print Assumptions C75_step.
Print Assumptions C73_implicit.
Print Assumptions C73_theta.
Print Assumptions C73_run.

(** Two hyperedges in a row, one Dirichlet node, no sources: all hypotheses hold. *)
Example C75_example (F : rcfType) : [/\ valid_graph 1 3 (indexed row_nodes),
  covered [:: 1%N] row_nodes 3 row_type & exists P : nat -> dp_data F, (forall i, parab_data 1 1 (P i)) /\
    face_types 1 row_nodes row_type P /\ zero_data 1 1 row_nodes P].
Proof. exact: row_ok. Qed.
Print Assumptions C75_example.
