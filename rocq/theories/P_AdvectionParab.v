(** Properties C88-C92: the local solver AdvectionParab, its time steps and its global system.  The integrals of
    TPP and the LAPACK solver enter with the contracts of S_AdvectionParab and S_Lapack.  Statements only; proofs
    are in L_AdvectionParab2, L_AdvectionParab3, L_GlobalAdvection and L_AdvectionEx. *)
From mathcomp Require Import all_ssreflect all_algebra.
From Verif Require Import M_Base M_Index M_DenseLA M_Lapack S_Lapack S_Hdg S_Tpp M_DiffusionUniform M_Diffusion.
From Verif Require Import S_LocalSolver S_Diffusion M_Global S_Global S_GlobalParab.
From Verif Require Import M_AdvectionParab S_AdvectionParab S_GlobalAdvection.
From Verif Require Import L_Poly L_Lapack L_DiffusionUniform2 L_AdvectionParab2 L_AdvectionParab3 L_GlobalAdvection L_AdvectionEx.
Set Implicit Arguments. Unset Strict Implicit. Unset Printing Implicit Defensive.
Import Order.TTheory GRing.Theory Num.Theory.
Local Open Scope ring_scope.

Section Local.
Variable F : realFieldType.
Variables (gesv : nat -> nat -> seq F -> seq F -> sv_result F).
Variables (dim p : nat) (dirs outs bnds : seq nat) (tau theta dt : F) (P : ap_data F).
Let nF := (2 * dim)%N.
Let nb := ((p + 1) ^ (dim - 1))%N.
Let nf := (nb * (p + 1))%N.
Let flux := ap_trace_to_flux gesv dim p dirs outs bnds tau theta dt P.
Let residual := ap_residual_flux gesv dim p dirs outs bnds tau theta dt P.
Let set_data := ap_set_data gesv dim p dirs outs bnds tau theta dt P.

(** * C88 what does not depend on the integrals *)
(** Traces of the wrong size end in an assertion, as does a failure of LAPACK. *)
Theorem C88_checked S x out : ~ is_trace nF nb x \/ ~ is_trace nF nb out ->
  flux S x out = Abort /\ residual S x out = Abort.
Proof. exact: adv_checked. Qed.
Theorem C88_set_checked S x : ~ is_trace nF nb x -> set_data x S = Abort.
Proof. exact: adv_set_checked. Qed.
Theorem C88_lapack S x out : (forall n nc (A b : seq F), sv_info (gesv n nc A b) = false) ->
  is_trace nF nb x -> is_trace nF nb out ->
  [/\ flux S x out = Abort, residual S x out = Abort & set_data x S = Abort].
Proof. exact: adv_lapack. Qed.
(** The states with which a data container starts. *)
Theorem C88_fresh : adv_state_ok dim nb nf (ap_state0 F dim p).
Proof. exact: adv_state0. Qed.
(** make_initial stores the initial value with its rate and fluxes. *)
Theorem C88_initial S x : is_trace nF nb x -> adv_state_ok dim nb nf S ->
  let: (x', S') := ap_make_initial dim p dirs outs bnds tau P S x in
  [/\ is_trace nF nb x', in_free dim nb dirs bnds P x',
      forall f : 'I_nF, tr nb x' f = if inflow_face dirs bnds P f then 0 else \col_j ap_init_psi P j f
    & adv_stored dim nb dirs outs bnds tau P x' (col_of nf (ap_init_phi P)) S'].
Proof. exact: adv_initial. Qed.

Section Contract.
Hypotheses (hP : adv_data dim nb nf P) (hg : gesv_correct gesv) (tau0 : 0 <= tau) (c0 : 0 <= theta * dt).
(** The fluxes are theta times the numerical fluxes of a step from zero ... *)
Theorem C88_flux S x out : is_trace nF nb x -> is_trace nF nb out -> exists y (u : 'cV[F]_nf),
  [/\ flux S x out = Ok y, hom_adv_step dim nb tau theta dt P x u & adv_flux_of dim nb dirs outs bnds tau theta P x u y].
Proof. exact: adv_trace_to_flux. Qed.
(** ... and the residual mixes the fluxes of the step from the stored state with the stored fluxes. *)
Theorem C88_residual S x out : is_trace nF nb x -> is_trace nF nb out -> exists y (u : 'cV[F]_nf),
  [/\ residual S x out = Ok y, adv_step dim nb dirs bnds tau theta dt P S x u
    & adv_mixed_flux_of dim nb dirs outs bnds tau theta P S x u y].
Proof. exact: adv_residual. Qed.
Theorem C88_unique S x (u v : 'cV[F]_nf) : adv_step dim nb dirs bnds tau theta dt P S x u ->
  adv_step dim nb dirs bnds tau theta dt P S x v -> u = v.
Proof. exact: adv_unique. Qed.
Theorem C88_linear S c x x' out out' out'' : is_trace nF nb x -> is_trace nF nb x' ->
  is_trace nF nb out -> is_trace nF nb out' -> is_trace nF nb out'' ->
  exists y y', [/\ flux S x out = Ok y, flux S x' out' = Ok y' &
    flux S (comb_trace c nF nb x x') out'' = Ok (comb_trace c nF nb y y')].
Proof. exact: adv_linear. Qed.
Theorem C88_affine S x out out' out'' : is_trace nF nb x -> is_trace nF nb out -> is_trace nF nb out' ->
  is_trace nF nb out'' -> exists y y0, [/\ flux S x out = Ok y,
    residual S (nseq nF (nseq nb 0)) out' = Ok y0 & residual S x out'' = Ok (comb_trace 1 nF nb y y0)].
Proof. exact: adv_affine. Qed.
(** Nothing is reported where values are given. *)
Theorem C88_inflow S x out : is_trace nF nb x -> is_trace nF nb out -> exists y r,
  [/\ flux S x out = Ok y, residual S x out = Ok r, vanishes (inflow_face dirs bnds P) nF nb y
    & vanishes (inflow_face dirs bnds P) nF nb r].
Proof. exact: adv_inflow. Qed.
(** set_data stores the step from the stored state; the rate it stores leaves out the traces at faces where values
    are given. *)
Theorem C88_set S x : is_trace nF nb x -> adv_state_ok dim nb nf S -> exists S' (u : 'cV[F]_nf),
  [/\ set_data x S = Ok S', adv_step dim nb dirs bnds tau theta dt P S x u
  & [/\ adv_state_ok dim nb nf S', adv_u nf S' = u,
        adv_old_rate nf S' = adv_rate dim nb dirs bnds tau P x u + \sum_(f < nF | inflow_face dirs bnds P f)
          mat_of nf nb (fun i j => ap_bpn P i j f - tau * ap_bp P i j f) *m tr nb x f
      & forall f : 'I_nF, adv_old_flux nb S' f = adv_flux dim nb outs bnds tau P x u f]].
Proof. exact: adv_set. Qed.
(** From a state stored for the data P0 of the old time this is the one-step theta scheme, in the volume and in
    the fluxes. *)
Theorem C88_scheme P0 x0 (u0 : 'cV[F]_nf) S x out : adv_stored dim nb dirs outs bnds tau P0 x0 u0 S ->
  is_trace nF nb x -> in_free dim nb dirs bnds P x -> is_trace nF nb out ->
  exists S' (u : 'cV[F]_nf) y, [/\ set_data x S = Ok S', adv_stored dim nb dirs outs bnds tau P x u S',
    ap_area P *: (u - u0) = dt *: (theta *: adv_rate dim nb dirs bnds tau P x u +
                                   (1 - theta) *: adv_rate dim nb dirs bnds tau P0 x0 u0),
    residual S x out = Ok y
  & is_trace nF nb y /\ forall f : 'I_nF, tr nb y f = if inflow_face dirs bnds P f then 0 else
      theta *: adv_flux dim nb outs bnds tau P x u f + (1 - theta) *: adv_flux dim nb outs bnds tau P0 x0 u0 f].
Proof. exact: adv_chain. Qed.
(** States whose rate vanishes are kept. *)
Theorem C88_steady P0 x (u : 'cV[F]_nf) S out : adv_stored dim nb dirs outs bnds tau P0 x u S ->
  adv_rate dim nb dirs bnds tau P x u = 0 -> adv_rate dim nb dirs bnds tau P0 x u = 0 ->
  is_trace nF nb x -> in_free dim nb dirs bnds P x -> is_trace nF nb out ->
  exists S', [/\ set_data x S = Ok S', adv_stored dim nb dirs outs bnds tau P x u S'
  & (forall f : 'I_nF, adv_flux dim nb outs bnds tau P0 x u f = adv_flux dim nb outs bnds tau P x u f) ->
    exists2 y, residual S x out = Ok y & is_trace nF nb y /\ forall f : 'I_nF, tr nb y f =
      if inflow_face dirs bnds P f then 0 else adv_flux dim nb outs bnds tau P x u f].
Proof. exact: adv_steady. Qed.
(** errors and bulk_values show what set_data stored. *)
Theorem C88_shown S x x' Q absc : is_trace nF nb x -> adv_state_ok dim nb nf S -> exists S' (u : 'cV[F]_nf),
  [/\ set_data x S = Ok S', adv_step dim nb dirs bnds tau theta dt P S x u,
      ap_errors Q S' x' = [:: ap_diffsq Q (coeffs_of u)]
    & ap_bulk_values dim Q S' absc x' = [:: mkseq (ap_eval Q absc (coeffs_of u)) (hc_pow dim (size absc))]].
Proof. exact: adv_shown. Qed.
(** The explicit scheme has a zero matrix: the traces are not determined. *)
Theorem C88_explicit_refuted S x out : theta = 0 -> is_trace nF nb x -> is_trace nF nb out ->
  flux S x out = Ok (nseq nF (nseq nb 0)).
Proof. exact: adv_explicit. Qed.

(** * C89 balance of one hyperedge *)
(** The mean value changes by the sources minus the fluxes through the faces of both times. *)
Theorem C89_balance P0 x0 (u0 : 'cV[F]_nf) S x : adv_data dim nb nf P0 ->
  adv_stored dim nb dirs outs bnds tau P0 x0 u0 S -> is_trace nF nb x -> in_free dim nb dirs bnds P x ->
  exists S' (u : 'cV[F]_nf), [/\ set_data x S = Ok S', adv_u nf S' = u
  & forall (i0 : 'I_nf) (j0 : 'I_nb), i0 = 0%N :> nat -> j0 = 0%N :> nat ->
    ap_area P * (u i0 0 - u0 i0 0) = dt *
      (theta * (ap_src P 0 - \sum_(f < nF) full_flux dim nb tau P x u f j0 0 -
                \sum_(f < nF | inflow_face dirs bnds P f) ap_dirval P 0 f) +
       (1 - theta) * (ap_src P0 0 - \sum_(f < nF) full_flux dim nb tau P0 x0 u0 f j0 0 -
                \sum_(f < nF | inflow_face dirs bnds P0 f) ap_dirval P0 0 f))].
Proof. exact: adv_balance. Qed.

(** * C91 faces with free outflow, without stabilisation *)
(** Nothing is reported there ... *)
Theorem C91_rows S x out : tau = 0 -> is_trace nF nb x -> is_trace nF nb out -> exists2 y, flux S x out = Ok y &
  vanishes (outflow_face outs bnds P) nF nb y.
Proof. exact: adv_outflow. Qed.
(** ... and where the wind leaves the traces have no effect. *)
Theorem C91_columns W S x x' out out' : upwind_contract dim nb nf W P -> tau = 0 -> is_trace nF nb x ->
  is_trace nF nb x' -> is_trace nF nb out -> is_trace nF nb out' ->
  (forall f : 'I_nF, tr nb x f = tr nb x' f \/
     outflow_face outs bnds P f /\ forall s, (s < up_n W f)%N -> 0 <= up_w W f s) ->
  exists2 y, flux S x out = Ok y & flux S x' out' = Ok y.
Proof. exact: adv_unseen. Qed.
End Contract.

(** * C90 kinds of faces *)
(** A face of a boundary type is of exactly one kind, according to the wind at its centre; listed types are as
    listed; all other faces are inner. *)
Theorem C90_kinds f : let t := nth 0%N (ap_types P) f in
  [/\ t \in dirs -> ap_dirichlet dirs bnds P f, t \in outs -> ap_outflow outs bnds P f,
      t \in bnds -> t \notin dirs -> t \notin outs ->
        ap_dirichlet dirs bnds P f = (ap_wind P f <= 0) /\ ap_outflow outs bnds P f = ~~ ap_dirichlet dirs bnds P f
    & t \notin dirs -> t \notin outs -> t \notin bnds -> ~~ ap_dirichlet dirs bnds P f /\ ~~ ap_outflow outs bnds P f].
Proof. exact: adv_kinds. Qed.
(** No face is of both kinds, if the lists have no common types. *)
Theorem C90_disjoint f : (forall t, t \in dirs -> (t \notin outs) && (t \notin bnds)) -> (forall t, t \in outs -> t \notin bnds) ->
  ~~ (ap_dirichlet dirs bnds P f && ap_outflow outs bnds P f).
Proof. exact: adv_disjoint. Qed.
End Local.
Print Assumptions C88_checked.
Print Assumptions C88_set_checked.
Print Assumptions C88_lapack.
Print Assumptions C88_fresh.
Print Assumptions C88_initial.
Print Assumptions C88_flux.
Print Assumptions C88_residual.
Print Assumptions C88_unique.
Print Assumptions C88_linear.
Print Assumptions C88_affine.
Print Assumptions C88_inflow.
Print Assumptions C88_set.
Print Assumptions C88_scheme.
Print Assumptions C88_steady.
Print Assumptions C88_shown.
Print Assumptions C88_explicit_refuted.
Print Assumptions C89_balance.
Print Assumptions C91_rows.
Print Assumptions C91_columns.
Print Assumptions C90_kinds.
Print Assumptions C90_disjoint.

(** The contract of the integrals can be met: unit hypercubes of every dimension and degree, with every constant
    velocity. *)
Theorem C88_satisfiable (F : rcfType) dim p (v : nat -> F) types src dirval ipsi iphi : (0 < dim)%N -> exists P : ap_data F,
  [/\ adv_data dim ((p + 1) ^ (dim - 1)) ((p + 1) ^ (dim - 1) * (p + 1)) P, ap_types P = types, ap_src P = src,
      ap_dirval P = dirval & ap_init_psi P = ipsi /\ ap_init_phi P = iphi].
Proof. exact: adv_data_exists. Qed.
Print Assumptions C88_satisfiable.
(** A concrete case of the hypotheses of the section Local: the line, linear functions, velocity 1, step of the
    midpoint rule. *)
Example C88_case (F : rcfType) : exists P : ap_data F,
  [/\ adv_data 1 ((1 + 1) ^ (1 - 1)) ((1 + 1) ^ (1 - 1) * (1 + 1)) P, gesv_correct (@inv_gesv F), 0 <= (0 : F),
      0 <= 2%:R^-1 * (1 : F) & is_trace (2 * 1) ((1 + 1) ^ (1 - 1)) [:: [:: 1 : F]; [:: 2%:R]]].
Proof.
have [P [h _ _ _ _]] := @adv_data_exists F 1 1 (fun=> 1) [::] (fun=> 0) (fun _ _ => 0) (fun _ _ => 0) (fun=> 0) isT.
by exists P; split=> //; [exact: inv_gesv_correct | rewrite mulr1 invr_ge0 ler0n].
Qed.

Section Global.
Variables (F : realFieldType) (gesv : nat -> nat -> seq F -> seq F -> sv_result F).
Variables (dim p : nat) (dirs outs bnds : seq nat) (tau theta dt : F).
Variables (nodes : seq (seq nat)) (n_nodes : nat) (junk : seq (seq F)) (fin fout : nat -> bool).
Variables (P : nat -> ap_data F) (W : nat -> upwind_data F).
Let nb := ((p + 1) ^ (dim - 1))%N.
Let nf := (nb * (p + 1))%N.
Let N := (n_nodes * nb)%N.
Hypotheses (hW : forall i, upwind_contract dim nb nf (W i) (P i)) (hg : gesv_correct gesv).
Hypotheses (tau0 : tau = 0) (th0 : 0 < theta) (dt0 : 0 < dt).
Hypotheses (hv : valid_graph dim n_nodes (indexed nodes)) (hj : size junk = (2 * dim)%N).
Hypothesis (hc : adv_classes dim dirs outs bnds nodes fin fout P).
Let time_step := adv_time_step gesv dim p dirs outs bnds tau theta dt nodes n_nodes junk fin P.
Let residual := glob_adv_res gesv dim p dirs outs bnds tau theta dt nodes n_nodes junk P.
Let settled := adv_settled dim p dirs outs bnds tau nodes n_nodes fin P.
Let energy := adv_energy dim p nodes P.

(** * C89 balance on the hypergraph *)
(** What is inside changes by the sources minus what leaves through the boundary; inner hypernodes add nothing. *)
Theorem C89_global (P0 : nat -> ap_data F) data x0 x data' : (forall i, adv_data dim nb nf (P0 i)) ->
  adv_classes dim dirs outs bnds nodes fin fout P0 ->
  adv_settled dim p dirs outs bnds tau nodes n_nodes fin P0 x0 data -> time_step data x data' ->
  adv_mass dim p nodes P data' - adv_mass dim p nodes P data = dt *
    (theta * (adv_sources nodes P - adv_leaving dim p tau nodes fin fout P x data') +
     (1 - theta) * (adv_sources nodes P0 - adv_leaving dim p tau nodes fin fout P0 x0 data)).
Proof. exact: (adv_mass_balance hW). Qed.
(** A constant with matching values at the inflow stays. *)
Theorem C89_constants data x c : wind_conserved dim p nodes n_nodes fin fout W ->
  (forall i, (i < size nodes)%N -> (forall j, (j < nf)%N -> ap_src (P i) j = 0) /\
     forall j k, (j < nf)%N -> (k < 2 * dim)%N -> inflow_face dirs bnds (P i) k -> ap_dirval (P i) j k = c * ap_bpn (P i) j 0 k) ->
  size data = size nodes -> size x = N ->
  (forall v (j : 'I_nb), (v < n_nodes)%N -> nth 0 x (v * nb + j) = if fin v then 0 else c *+ (j == 0%N :> nat)) ->
  (forall i, (i < size nodes)%N -> adv_stored dim nb dirs outs bnds tau (P i) (local_dofs dim p nodes x i) (e0 nf c)
     (nth (ap_state0 F dim p) data i)) ->
  exists data', time_step data x data' /\
    forall i, (i < size nodes)%N -> adv_stored dim nb dirs outs bnds tau (P i) (local_dofs dim p nodes x i) (e0 nf c)
     (nth (ap_state0 F dim p) data' i).
Proof. exact: (adv_constants hW). Qed.

(** * C91 hypernodes with free outflow *)
(** The system does not determine their values: the matrix is singular. *)
Theorem C91_singular_refuted data x : wind_leaves dim nodes fin fout W -> size x = N ->
  (forall d, (d < N)%N -> ~~ (fout (d %/ nb) && ~~ fin (d %/ nb)) -> nth 0 x d = 0) ->
  glob_adv_op gesv dim p dirs outs bnds tau theta dt nodes n_nodes junk P data x = Ok (nseq N 0).
Proof. exact: (adv_singular hW). Qed.

(** * C92 time stepping on the hypergraph *)
Section Wind.
Hypotheses (hcons : wind_conserved dim p nodes n_nodes fin fout W) (hleave : wind_leaves dim nodes fin fout W).
Hypothesis (hdef : wind_definite dim p nodes n_nodes fin fout W).
(** The global equation has a solution, and all its solutions agree apart from hypernodes with free outflow. *)
Theorem C92_solution data : adv_ready dim p outs bnds theta P data -> exists x,
  [/\ size x = N, adv_free dim p n_nodes fin x, out_free dim p n_nodes fout x, residual data x = Ok (nseq N 0)
    & forall x', size x' = N -> adv_free dim p n_nodes fin x' -> residual data x' = Ok (nseq N 0) ->
      forall d, (d < N)%N -> ~~ fout (d %/ nb) -> nth 0 x' d = nth 0 x d].
Proof. exact: (adv_solution hW). Qed.
Theorem C92_step data : adv_ready dim p outs bnds theta P data -> adv_states_ok dim p nodes data -> exists x data',
  time_step data x data' /\ settled x data'.
Proof. exact: (adv_step_exists hW hg tau0 th0 dt0 hv hj hc). Qed.
(** A step is possible from the states that steps leave, and from all states if theta is 1. *)
Theorem C92_ready (P0 : nat -> ap_data F) x0 data : adv_classes dim dirs outs bnds nodes fin fout P0 ->
  adv_settled dim p dirs outs bnds tau nodes n_nodes fin P0 x0 data -> adv_ready dim p outs bnds theta P data.
Proof. exact: adv_settled_ready. Qed.
Theorem C92_ready_euler data : theta = 1 -> adv_ready dim p outs bnds theta P data.
Proof. exact: adv_euler_ready. Qed.
Section Stable.
Hypothesis zd : adv_zero_data dim p nodes P.
(** Without sources and inflow the L2 norm does not grow. *)
Theorem C92_stable data x0 x data' : 1 <= 2%:R * theta -> settled x0 data -> time_step data x data' ->
  energy data' <= energy data.
Proof. exact: (adv_stable hW hg tau0 th0 dt0 hv hj hc). Qed.
Theorem C92_stable_euler data x data' : theta = 1 -> adv_states_ok dim p nodes data -> time_step data x data' ->
  energy data' <= energy data.
Proof. exact: (adv_stable_euler hW hg tau0 th0 dt0 hv hj hc). Qed.
Theorem C92_stable_run n (xs : nat -> seq F) (ds : nat -> seq (ap_state F)) : 1 <= 2%:R * theta ->
  settled (xs 0%N) (ds 0%N) -> (forall k, (k < n)%N -> time_step (ds k) (xs k.+1) (ds k.+1)) ->
  energy (ds n) <= energy (ds 0%N).
Proof. exact: (adv_stable_run hW hg tau0 th0 dt0 hv hj hc). Qed.
End Stable.
End Wind.
End Global.
Print Assumptions C89_global.
Print Assumptions C89_constants.
Print Assumptions C91_singular_refuted.
Print Assumptions C92_solution.
Print Assumptions C92_step.
Print Assumptions C92_ready.
Print Assumptions C92_ready_euler.
Print Assumptions C92_stable.
Print Assumptions C92_stable_euler.
Print Assumptions C92_stable_run.
(** The hypotheses hold for any number of hyperedges in a row, in every degree. *)
Example C92_case (F : rcfType) p n : (0 < n)%N -> exists (P : nat -> ap_data F) W,
  [/\ valid_graph 1 n.+1 (indexed (adv_row n)),
      forall i, upwind_contract 1 ((p + 1) ^ (1 - 1)) ((p + 1) ^ (1 - 1) * (p + 1)) (W i) (P i),
      adv_classes 1 [:: 1%N] [:: 2%N] [::] (adv_row n) (fun v => v == 0%N) (fun v => v == n) P,
      adv_zero_data 1 p (adv_row n) P
    & [/\ wind_conserved 1 p (adv_row n) n.+1 (fun v => v == 0%N) (fun v => v == n) W,
          wind_leaves 1 (adv_row n) (fun v => v == 0%N) (fun v => v == n) W
        & wind_definite 1 p (adv_row n) n.+1 (fun v => v == 0%N) (fun v => v == n) W]].
Proof.
move=> n0; have [b] := @orthonormal_exists F p; rewrite -addn1 => hb.
exists (adv_row_data p n b), (adv_row_wind p b); exact: adv_row_ok.
Qed.
(** On such a row the values at the last hypernode are not determined. *)
Example C91_case (F : rcfType) : exists (P : nat -> ap_data F) x, forall data,
  glob_adv_op (@inv_gesv F) 1 0 [:: 1%N] [:: 2%N] [::] 0 1 1 (adv_row 1) 2 [:: [::]; [::]] P data x = Ok [:: 0; 0] /\
  x <> [:: 0; 0].
Proof. exact: adv_row_singular. Qed.
