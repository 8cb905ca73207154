(** Property C123: the time loops of the drivers of reproducibles_python.  The iterative solvers enter with the
    contract [krylov] of S_TimeDrivers.  Statements only; proofs are in L_TimeDrivers to L_TimeDrivers4. *)
From mathcomp Require Import all_ssreflect all_algebra.
From Verif Require Import M_Base M_Lapack S_Lapack M_Global S_Global S_Hdg S_Tpp M_Diffusion S_LocalSolver S_Diffusion S_TppGeo.
From Verif Require Import M_DiffusionParab S_DiffusionParab S_GlobalParab M_Bilaplacian M_BilapParab S_BilapParab.
From Verif Require Import M_TimeDrivers S_TimeDrivers L_TimeDrivers L_TimeDrivers2.
From Verif Require Import M_AdvectionParab S_AdvectionParab S_GlobalAdvection L_AdvectionEx L_TimeDrivers3 L_TimeDrivers4.
Set Implicit Arguments. Unset Strict Implicit. Unset Printing Implicit Defensive.
Import Order.TTheory GRing.Theory Num.Theory.
Local Open Scope ring_scope.

Section Loops.
Variables (F : realFieldType) (D : Type) (N : nat) (h : F).
Variables (flux residual : F -> D -> seq F -> outcome (seq F)) (set : F -> D -> seq F -> outcome D).
Variable solve : (seq F -> outcome (seq F)) -> seq F -> outcome (seq F).
Let after := loop_after N h flux residual set solve.
Let before := loop_before N h flux residual set solve.
(** The drivers that call set_data at the end of a step and the one that calls it at the beginning of the next do the
    same, failures included, apart from the last call. *)
Theorem C123_same n st : (0 < n)%N ->
  after n st = obind (before n st) (fun st' => obind (set (n%:R * h) st'.2 st'.1) (fun d => Ok (st'.1, d))).
Proof. exact: after_before. Qed.
Hypothesis hk : krylov solve.
(** Each step is taken from the data stored by the one before, at its own time. *)
Theorem C123_after n x0 d0 x d : after n (x0, d0) = Ok (x, d) -> exists xs ds,
  [/\ run N h flux residual set n xs ds, ds 0%N = d0, (xs 0%N = x0 /\ xs n = x) & ds n = d].
Proof. by move=> hl; have [xs [ds [[h1 h2 h3 h4 h5] _]]] := afterP hk hl; exists xs, ds. Qed.
Theorem C123_before n x0 d0 x d d' : before n.+1 (x0, d0) = Ok (x, d) -> set (n.+1%:R * h) d x = Ok d' ->
  exists xs ds, [/\ run N h flux residual set n.+1 xs ds, ds 0%N = d0, xs n.+1 = x, ds n = d & ds n.+1 = d'].
Proof. exact: beforeP. Qed.
End Loops.
Print Assumptions C123_same. Print Assumptions C123_after. Print Assumptions C123_before.
Example C123_example (F : realFieldType) : krylov (@scalar_solve F) /\ let h := 1 in
  loop_after 1 h (fun _ (d : F) v => Ok [:: (1 + h) * nth 0 v 0]) (fun _ d v => Ok [:: (1 + h) * nth 0 v 0 - d])
    (fun _ d v => Ok (nth 0 v 0)) (@scalar_solve F) 2 ([:: 0], 4%:R) = Ok ([:: 1], 1 : F).
Proof. exact: (conj (@scalar_krylov F) (@scalar_example F)). Qed.
Print Assumptions C123_example.

(** The driver of DiffusionParab, for a coefficient that does not depend on time; P t i holds the integrals of hyperedge i
    at the time t. *)
Section Diffusion.
Variables (F : realFieldType) (gesv : nat -> nat -> seq F -> seq F -> sv_result F).
Variables (dim p : nat) (dirs : seq nat) (tau theta dt : F).
Variables (nodes : seq (seq nat)) (n_nodes : nat) (nt : nat -> nat) (junk : seq (seq F)).
Variables (P : F -> nat -> dp_data F).
Hypotheses (dim0 : (0 < dim)%N) (hP : forall t i, parab_data dim p (P t i)) (hg : gesv_correct gesv).
Hypotheses (tau0 : 0 < tau) (th0 : 0 < theta) (dt0 : 0 < dt).
Hypotheses (hv : valid_graph dim n_nodes (indexed nodes)) (hj : size junk = (2 * dim)%N).
Hypothesis (ht : forall t, face_types dim nodes nt (P t)).
Hypothesis (hs : forall t i, same_operator (P t i) (P 0 i)).
Variable solve : (seq F -> outcome (seq F)) -> seq F -> outcome (seq F).
Hypothesis hk : krylov solve.
Let N := (n_nodes * (p + 1) ^ (dim - 1))%N.
Let flux t := glob_op gesv dim p dirs tau theta dt nodes n_nodes junk (P t).
Let residual t := glob_res gesv dim p dirs tau theta dt nodes n_nodes junk (P t).
Let set t d x := glob_set gesv dim p dirs tau theta dt nodes junk (P t) x d.
Let loop := loop_after N dt flux residual set solve.
(** The driver makes steps of the theta scheme of C72 and C75, with the data at k dt in step k, although it evaluates the
    operator at time 0. *)
Theorem C123_diffusion n x0 d0 x d : loop n (x0, d0) = Ok (x, d) ->
  exists xs ds, [/\ xs 0%N = x0, ds 0%N = d0, xs n = x, ds n = d &
    forall k, (k < n)%N -> time_step gesv dim p dirs tau theta dt nodes n_nodes nt junk (P (k.+1%:R * dt)) (ds k) (xs k.+1) (ds k.+1)].
Proof. exact: driver_run. Qed.
(** The errors at the end are those of the function computed in the last step. *)
Theorem C123_diffusion_errors n x0 d0 x d : states_ok dim p nodes d0 -> loop n.+1 (x0, d0) = Ok (x, d) ->
  exists x1 d1, loop n (x0, d0) = Ok (x1, d1) /\
  forall i, (i < size nodes)%N -> exists q u,
    step_of dim p dirs tau theta dt (P (n.+1%:R * dt) i) (nth (dp_state0 F dim p) d1 i) (local_dofs dim p nodes x i) q u /\
    forall t lam, dp_errors (P t i) (nth (dp_state0 F dim p) d i) lam = Ok [:: df_diffsq (dp_df (P t i)) (coeffs_of u)].
Proof. exact: driver_errors. Qed.
(** Without sources and boundary values the norm of the function does not grow, over any number of steps. *)
Theorem C123_diffusion_stable n x0 d0 x d : theta = 1 -> (forall t, zero_data dim p nodes (P t)) -> states_ok dim p nodes d0 ->
  loop n (x0, d0) = Ok (x, d) -> energy dim p nodes (P 0) d <= energy dim p nodes (P 0) d0.
Proof. exact: driver_stable. Qed.
End Diffusion.
(** Hyperedges of any dimension, with any source that depends on time, meet the hypotheses. *)
Example C123_diffusion_example (F : rcfType) (dim : nat) (types : seq nat) (src : F -> nat -> F) : exists P : F -> nat -> dp_data F, forall t i,
  [/\ parab_data dim 1 (P t i), df_src (dp_df (P t i)) = src t, df_types (dp_df (P t i)) = types & same_operator (P t i) (P 0 i)].
Proof. exact: source_example. Qed.
Print Assumptions C123_diffusion_example.
Print Assumptions C123_diffusion. Print Assumptions C123_diffusion_errors. Print Assumptions C123_diffusion_stable.

(** The driver of BilaplacianParab leaves out the last call of set_data, and errors of that solver shows what this call
    would store: again the function computed in the last step. *)
Theorem C123_bilaplacian_errors (F : realFieldType) gesv dim p dirs laps (tau theta dt : F) (P : bp_data F) old x X : (0 < dim)%N ->
  bp_set_data gesv dim p dirs laps tau theta dt P x old = Ok X ->
  let e := df_diffsq (bl_df (bp_bl P)) (coeffs_of (bp_block dim p X dim)) in
  bp_errors gesv dim p dirs laps tau theta dt P old x = if 0 <= e then Ok [:: e] else Abort.
Proof. exact: bilap_errors. Qed.
Print Assumptions C123_bilaplacian_errors.

(** The driver of AdvectionParab, for a wind that does not depend on time; sources and given values may. *)
Section Advection.
Variables (F : realFieldType) (gesv : nat -> nat -> seq F -> seq F -> sv_result F).
Variables (dim p : nat) (dirs outs bnds : seq nat) (tau theta dt : F).
Variables (nodes : seq (seq nat)) (n_nodes : nat) (junk : seq (seq F)) (fin fout : nat -> bool).
Variables (P : F -> nat -> ap_data F) (W : F -> nat -> upwind_data F).
Let nb := ((p + 1) ^ (dim - 1))%N.
Let N := (n_nodes * nb)%N.
Hypotheses (hW : forall t i, upwind_contract dim nb (nb * (p + 1)) (W t i) (P t i)) (hg : gesv_correct gesv).
Hypotheses (tau0 : tau = 0) (th0 : 0 < theta) (dt0 : 0 < dt).
Hypotheses (hv : valid_graph dim n_nodes (indexed nodes)) (hj : size junk = (2 * dim)%N).
Hypothesis (hc : forall t, adv_classes dim dirs outs bnds nodes fin fout (P t)).
Hypothesis (hs : forall t i, same_wind (P t i) (P 0 i)).
Variable solve : (seq F -> outcome (seq F)) -> seq F -> outcome (seq F).
Hypothesis hk : krylov solve.
Let flux t := glob_adv_op gesv dim p dirs outs bnds tau theta dt nodes n_nodes junk (P t).
Let residual t := glob_adv_res gesv dim p dirs outs bnds tau theta dt nodes n_nodes junk (P t).
Let set t d x := glob_adv_set gesv dim p dirs outs bnds tau theta dt nodes junk (P t) x d.
Let loop := loop_after N dt flux residual set solve.
(** The driver makes steps of the scheme of C89 to C92 with the data at k dt in step k; the values at outflow hypernodes,
    which the equations leave open (C91), stay 0.  [adv_ready] asks that the stored fluxes at outflow faces vanish or that
    theta is 1; only the start needs it. *)
Theorem C123_advection n x0 d0 x d : adv_states_ok dim p nodes d0 -> adv_ready dim p outs bnds theta (P dt) d0 ->
  loop n (x0, d0) = Ok (x, d) ->
  exists xs ds, [/\ xs 0%N = x0, ds 0%N = d0, xs n = x, ds n = d & forall k, (k < n)%N ->
    adv_time_step gesv dim p dirs outs bnds tau theta dt nodes n_nodes junk fin (P (k.+1%:R * dt)) (ds k) (xs k.+1) (ds k.+1) /\
    out_free dim p n_nodes fout (xs k.+1)].
Proof. exact: (adv_driver_run hW). Qed.
(** Without sources and inflow the norm of the function does not grow, over any number of steps. *)
Theorem C123_advection_stable n x0 d0 x d : theta = 1 -> (forall t, wind_conserved dim p nodes n_nodes fin fout (W t)) ->
  (forall t, wind_leaves dim nodes fin fout (W t)) -> (forall t, adv_zero_data dim p nodes (P t)) -> adv_states_ok dim p nodes d0 ->
  loop n (x0, d0) = Ok (x, d) -> adv_energy dim p nodes (P 0) d <= adv_energy dim p nodes (P 0) d0.
Proof. exact: (adv_driver_stable hW). Qed.
(** The errors at the end are those of the function computed in the last step. *)
Theorem C123_advection_errors n x0 d0 x d : adv_states_ok dim p nodes d0 -> adv_ready dim p outs bnds theta (P dt) d0 ->
  loop n.+1 (x0, d0) = Ok (x, d) -> exists x1 d1, loop n (x0, d0) = Ok (x1, d1) /\
  forall i, (i < size nodes)%N -> exists u : 'cV[F]_(nb * (p + 1)),
    adv_step dim nb dirs bnds tau theta dt (P (n.+1%:R * dt) i) (nth (ap_state0 F dim p) d1 i) (local_dofs dim p nodes x i) u /\
    forall t lam, ap_errors (P t i) (nth (ap_state0 F dim p) d i) lam = [:: ap_diffsq (P t i) (coeffs_of u)].
Proof. exact: (adv_driver_errors hW). Qed.
(** The data left by make_initial meet the hypotheses on the start, for every theta. *)
Theorem C123_advection_start d0 : size d0 = size nodes ->
  (forall i, (i < size nodes)%N -> exists S x, [/\ is_trace (2 * dim) nb x, adv_state_ok dim nb (nb * (p + 1)) S &
    nth (ap_state0 F dim p) d0 i = (ap_make_initial dim p dirs outs bnds tau (P 0 i) S x).2]) ->
  adv_states_ok dim p nodes d0 /\ adv_ready dim p outs bnds theta (P dt) d0.
Proof. exact: (adv_start theta dt tau0 hc). Qed.
End Advection.
Print Assumptions C123_advection_start.
Print Assumptions C123_advection_errors.
(** Rows of any number of hyperedges, with any source that depends on time, meet the hypotheses. *)
Example C123_advection_example (F : rcfType) p n (src : F -> nat -> F) : (0 < n)%N -> exists (P : F -> nat -> ap_data F) W, forall t,
  [/\ valid_graph 1 n.+1 (indexed (adv_row n)), adv_classes 1 [:: 1%N] [:: 2%N] [::] (adv_row n) (fun v => v == 0%N) (fun v => v == n) (P t),
      forall i, [/\ upwind_contract 1 ((p + 1) ^ (1 - 1)) ((p + 1) ^ (1 - 1) * (p + 1)) (W i) (P t i), ap_src (P t i) = src t & same_wind (P t i) (P 0 i)],
      wind_conserved 1 p (adv_row n) n.+1 (fun v => v == 0%N) (fun v => v == n) W & wind_leaves 1 (adv_row n) (fun v => v == 0%N) (fun v => v == n) W].
Proof. exact: adv_source_example. Qed.
Print Assumptions C123_advection. Print Assumptions C123_advection_stable. Print Assumptions C123_advection_example.

(** The driver of BilaplacianParab, for a coefficient that does not depend on time. *)
Section Bilaplacian.
Variables (F : realFieldType) (gesv : nat -> nat -> seq F -> seq F -> sv_result F).
Variables (dim p : nat) (dirs laps : seq nat) (tau theta dt : F).
Variables (nodes : seq (seq nat)) (n_nodes : nat) (nt : nat -> nat) (junk : seq (seq F)).
Variables (P : F -> nat -> bp_data F).
Let df t i := bl_df (bp_bl (P t i)).
Hypotheses (dim0 : (0 < dim)%N) (hD : forall t i, diffusion_data dim p (df t i)) (hg : gesv_correct gesv).
Hypotheses (tau0 : 0 < tau) (k0 : 0 < theta * dt).
Hypotheses (hv : valid_graph dim n_nodes (indexed nodes)) (hj : size junk = (2 * dim)%N).
Hypothesis (ht : forall t, types_agree (df t) nt (indexed nodes)).
Hypothesis (hs : forall t i, same_bilap (df t i) (df 0 i)).
Variable solve : (seq F -> outcome (seq F)) -> seq F -> outcome (seq F).
Hypothesis hk : krylov solve.
Let nb := ((p + 1) ^ (dim - 1))%N.
Let N := (n_nodes * (2 * nb))%N.
Let flux t (d : seq (seq F)) := elliptic_flux (2 * nb) N [::] junk (indexed nodes)
  (fun i => bp_trace_to_flux gesv dim p dirs laps tau theta dt (P t i) (nth [::] d i)).
Let residual t (d : seq (seq F)) := elliptic_flux (2 * nb) N [::] junk (indexed nodes)
  (fun i => bp_residual_flux gesv dim p dirs laps tau theta dt (P t i) (nth [::] d i)).
Let set t (d : seq (seq F)) x := set_data (2 * nb) junk (indexed nodes) (fun i => bp_set_data gesv dim p dirs laps tau theta dt (P t i)) x d.
Let after := loop_after N dt flux residual set solve.
Let before := loop_before N dt flux residual set solve.
(** A step of C114: the trace vanishes where it is given and solves the system at the time t, and d' is what set_data stores. *)
Let step t (d : seq (seq F)) (x : seq F) (d' : seq (seq F)) : Prop := exists r0,
  [/\ residual t d (nseq N 0) = Ok r0, size x = N,
    forall v j, (v < n_nodes)%N -> (j < nb)%N ->
      (nt v \in dirs -> nth 0 x (v * (2 * nb) + j) = 0) /\ (nt v \in laps -> nth 0 x (v * (2 * nb) + (nb + j)) = 0),
    flux t d x = Ok [seq - a | a <- r0] &
    size d' = size nodes /\ forall i, (i < size nodes)%N ->
      bp_set_data gesv dim p dirs laps tau theta dt (P t i) (node_values dim (2 * nb) x (nth [::] nodes i)) (nth [::] d i) = Ok (nth [::] d' i)].
Theorem C123_bilaplacian n x0 d0 x d : size d0 = size nodes -> after n (x0, d0) = Ok (x, d) ->
  exists xs ds, [/\ xs 0%N = x0, ds 0%N = d0, xs n = x, ds n = d & forall k, (k < n)%N -> step (k.+1%:R * dt) (ds k) (xs k.+1) (ds k.+1)].
Proof. exact: (bi_driver_run dim0 hD hg tau0 k0 hv hj ht hs hk). Qed.
(** The driver itself, without the last set_data. *)
Theorem C123_bilaplacian_before n x0 d0 x d : size d0 = size nodes -> before n.+1 (x0, d0) = Ok (x, d) ->
  exists d', step (n.+1%:R * dt) d x d' /\ after n.+1 (x0, d0) = Ok (x, d').
Proof. exact: (bi_driver_before dim0 hD hg tau0 k0 hv hj ht hs hk). Qed.
(** Without sources and boundary values the norm of the function does not grow, over any number of steps. *)
Let energy (d : seq (seq F)) := \sum_(i < size nodes) sqnorm (df_mass_mx dim p (df 0 i)) (bp_block dim p (nth [::] d i) dim).
Theorem C123_bilaplacian_stable n x0 d0 x d : (forall t i, bp_no_data dim p (P t i)) -> size d0 = size nodes ->
  after n (x0, d0) = Ok (x, d) -> energy d <= energy d0.
Proof. exact: (bi_driver_stable dim0 hD hg tau0 k0 hv hj ht hs hk). Qed.
End Bilaplacian.
(** Hyperedges of any dimension, with any source that depends on time, meet the hypotheses. *)
Example C123_bilaplacian_example (F : rcfType) (dim : nat) (types : seq nat) (src : F -> nat -> F) (dt : F) : exists P : F -> nat -> bp_data F,
  forall t i, [/\ diffusion_data dim 1 (bl_df (bp_bl (P t i))), df_src (bl_df (bp_bl (P t i))) = src t, bp_src_old (P t i) = src (t - dt),
    df_types (bl_df (bp_bl (P t i))) = types & same_bilap (bl_df (bp_bl (P t i))) (bl_df (bp_bl (P 0 i)))].
Proof. exact: bi_source_example. Qed.
Print Assumptions C123_bilaplacian. Print Assumptions C123_bilaplacian_before. Print Assumptions C123_bilaplacian_stable.
Print Assumptions C123_bilaplacian_example.
