(** Properties C86 and C114 if u and w are given at different hypernodes: with piecewise constants the global system
    of Bilaplacian and that of BilaplacianParab may be singular, but u, its gradient and w are unique if u is given
    wherever w is, and exist if the given values of u are zero.  The integrals of TPP and the LAPACK routine are assumed by their contracts. *)
From mathcomp Require Import all_ssreflect all_algebra.
From Verif Require Import M_Base M_Lapack S_Lapack M_Global S_Global S_Hdg S_LocalSolver M_DiffusionUniform M_Diffusion S_Diffusion S_TppGeo.
From Verif Require Import M_Bilaplacian S_Bilaplacian M_BilapParab S_BilapParab L_BilapClamped S_BiReact L_GlobalClamped2 L_BilapUnsolvable.
Set Implicit Arguments. Unset Strict Implicit. Unset Printing Implicit Defensive.
Import GRing.Theory Num.Theory.
Local Open Scope ring_scope.

(** One interval, degree zero, u given at both ends and w at none: every a gives a vector x of zeros but for the two values
    of w, that is off the given values and is mapped to zero. *)
Theorem C86_clamped_refuted (F : rcfType) (tau : F) gesv (junk : seq (seq F)) :
  0 < tau -> gesv_correct gesv -> size junk = 2%N ->
  exists (P : bl_data F) (edges : seq (seq nat * unit)) (nt : nat -> nat),
  [/\ diffusion_data 1 0 (bl_df P), valid_graph 1 2 edges, types_agree (fun=> bl_df P) nt edges,
      forall v, (v < 2)%N -> nt v \in [:: 1%N] & forall a : F, exists x : seq F,
   [/\ size x = 4%N, nth 0 x 1 = a, nth 0 x 0 = 0 /\ nth 0 x 2 = 0 &
     elliptic_flux 2 4 [::] junk edges (fun=> bl_trace_to_flux gesv 1 0 [:: 1%N] [::] tau P) x = Ok (nseq 4 0)]].
Proof.
move=> t0 hg hj; have [P [edges [nt [h1 h2 h3 h4 h5]]]] := clamped_refuted t0 hg hj.
exists P, edges, nt; split=> // a; have [x [a1 a2 a3 a4 _]] := h5 a; by exists x.
Qed.
Theorem C114_clamped_refuted (F : rcfType) (tau : F) gesv (junk : seq (seq F)) :
  0 < tau -> gesv_correct gesv -> size junk = 2%N ->
  exists (P : bl_data F) (edges : seq (seq nat * unit)) (nt : nat -> nat),
  [/\ diffusion_data 1 0 (bl_df P), valid_graph 1 2 edges, types_agree (fun=> bl_df P) nt edges,
      forall v, (v < 2)%N -> nt v \in [:: 1%N] & forall a : F, exists x : seq F,
   [/\ size x = 4%N, nth 0 x 1 = a, nth 0 x 0 = 0 /\ nth 0 x 2 = 0 &
     forall theta dt src init old, 0 < theta * dt -> elliptic_flux 2 4 [::] junk edges
       (fun=> bp_trace_to_flux gesv 1 0 [:: 1%N] [::] tau theta dt (BpData P src init) old) x = Ok (nseq 4 0)]].
Proof.
move=> t0 hg hj; have [P [edges [nt [h1 h2 h3 h4 h5]]]] := clamped_refuted t0 hg hj.
exists P, edges, nt; split=> // a; have [x [a1 a2 a3 _ a4]] := h5 a; by exists x.
Qed.
Print Assumptions C86_clamped_refuted.
Print Assumptions C114_clamped_refuted.

(** One interval, degree zero, u = 0 and u = 1 given at the ends and w at none: the system of the drivers has no solution. *)
Theorem C86_unsolvable_refuted (F : rcfType) (tau : F) gesv (junk : seq (seq F)) :
  0 < tau -> gesv_correct gesv -> size junk = 2%N ->
  exists (P : bl_data F) (edges : seq (seq nat * unit)) (nt : nat -> nat),
  [/\ diffusion_data 1 0 (bl_df P), valid_graph 1 2 edges, types_agree (fun=> bl_df P) nt edges,
      forall v, (v < 2)%N -> nt v \in [:: 1%N] &
   exists2 r0, elliptic_flux 2 4 [::] junk edges (fun=> bl_residual_flux gesv 1 0 [:: 1%N] [::] tau P) (nseq 4 0) = Ok r0 &
     forall x : seq F, size x = 4%N -> nth 0 x 0 = 0 -> nth 0 x 2 = 0 ->
     elliptic_flux 2 4 [::] junk edges (fun=> bl_trace_to_flux gesv 1 0 [:: 1%N] [::] tau P) x <> Ok (map -%R r0)].
Proof.
move=> t0 hg hj; have [P [edges [nt [h1 h2 h3 h4 [h5 _]]]]] := unsolvable_refuted t0 hg hj; by exists P, edges, nt.
Qed.
Theorem C114_unsolvable_refuted (F : rcfType) (tau : F) gesv (junk : seq (seq F)) :
  0 < tau -> gesv_correct gesv -> size junk = 2%N ->
  exists (P : bl_data F) (edges : seq (seq nat * unit)) (nt : nat -> nat),
  [/\ diffusion_data 1 0 (bl_df P), valid_graph 1 2 edges, types_agree (fun=> bl_df P) nt edges,
      forall v, (v < 2)%N -> nt v \in [:: 1%N] &
   forall theta dt src init old, 0 < theta * dt ->
   exists2 r0, elliptic_flux 2 4 [::] junk edges
       (fun=> bp_residual_flux gesv 1 0 [:: 1%N] [::] tau theta dt (BpData P src init) old) (nseq 4 0) = Ok r0 &
     forall x : seq F, size x = 4%N -> nth 0 x 0 = 0 -> nth 0 x 2 = 0 ->
     elliptic_flux 2 4 [::] junk edges
       (fun=> bp_trace_to_flux gesv 1 0 [:: 1%N] [::] tau theta dt (BpData P src init) old) x <> Ok (map -%R r0)].
Proof.
move=> t0 hg hj; have [P [edges [nt [h1 h2 h3 h4 [_ h5]]]]] := unsolvable_refuted t0 hg hj; by exists P, edges, nt.
Qed.
Print Assumptions C86_unsolvable_refuted.
Print Assumptions C114_unsolvable_refuted.

Section Unique.
Variables (F : realFieldType) (E : Type) (gesv : nat -> nat -> seq F -> seq F -> sv_result F).
Variables (dim p : nat) (tau : F) (dat : E -> bl_data F).
Hypotheses (dim0 : (0 < dim)%N) (hD : forall e, diffusion_data dim p (bl_df (dat e))).
Hypotheses (hg : gesv_correct gesv) (tau0 : 0 < tau).
Variables (dirs laps : seq nat) (n_nodes : nat) (edges : seq (seq nat * E)) (junk : seq (seq F)) (nt : nat -> nat).
Let nb := ((p + 1) ^ (dim - 1))%N.
Let N := (n_nodes * (2 * nb))%N.
Hypotheses (hv : valid_graph dim n_nodes edges) (hj : size junk = (2 * dim)%N).
Hypothesis ht : types_agree (fun e => bl_df (dat e)) nt edges.
Let op := elliptic_flux (2 * nb) N [::] junk edges (fun e => bl_trace_to_flux gesv dim p dirs laps tau (dat e)).
(** Zero where the trace of u or of w is given. *)
Let off (x : seq F) := forall v j, (v < n_nodes)%N -> (j < nb)%N ->
  (nt v \in dirs -> nth 0 x (v * (2 * nb) + j) = 0) /\ (nt v \in laps -> nth 0 x (v * (2 * nb) + (nb + j)) = 0).
(** The traces of u and of w on the faces of a hyperedge. *)
Let u_tr (e : seq nat * E) (x : seq F) (i : 'I_(2 * dim)) : 'cV[F]_nb := \col_j nth 0 x (nth 0%N e.1 i * (2 * nb) + j).
Let w_tr (e : seq nat * E) (x : seq F) (i : 'I_(2 * dim)) : 'cV[F]_nb := \col_j nth 0 x (nth 0%N e.1 i * (2 * nb) + (nb + j)).
(** Any boundary conditions: two solutions of the global system have the same w on every hyperedge. *)
Theorem C86_w_unique x x' s : size x = N -> size x' = N -> off x -> off x' -> op x = Ok s -> op x' = Ok s ->
  forall e q u r w q' u' r' w' rq ru rr rw, List.In e edges ->
  bi_loc dim p tau (dat e.2) q u r w (u_tr e x) (w_tr e x) rq ru rr rw ->
  bi_loc dim p tau (dat e.2) q' u' r' w' (u_tr e x') (w_tr e x') rq ru rr rw -> w = w'.
Proof. exact: bl_same_w. Qed.
(** u given wherever w is, and chains of hyperedges to hypernodes with given u. *)
Theorem C86_clamped_unique x x' s : (forall v, (v < n_nodes)%N -> nt v \in laps -> nt v \in dirs) ->
  (forall v, (v < n_nodes)%N -> anchored edges (fun v => nt v \in dirs) v) ->
  size x = N -> size x' = N -> off x -> off x' -> op x = Ok s -> op x' = Ok s ->
  (forall v j, (v < n_nodes)%N -> (j < nb)%N -> nth 0 x (v * (2 * nb) + j) = nth 0 x' (v * (2 * nb) + j)) /\
  forall e q u r w q' u' r' w' rq ru rr rw, List.In e edges ->
  bi_loc dim p tau (dat e.2) q u r w (u_tr e x) (w_tr e x) rq ru rr rw ->
  bi_loc dim p tau (dat e.2) q' u' r' w' (u_tr e x') (w_tr e x') rq ru rr rw -> [/\ forall d, q d = q' d, u = u' & w = w'].
Proof. exact: bl_same_u. Qed.
(** Zero given values of u, any source and any given values of w: the system of the drivers is solvable. *)
Theorem C86_clamped_solvable : (forall v, (v < n_nodes)%N -> nt v \in laps -> nt v \in dirs) ->
  (forall v, (v < n_nodes)%N -> anchored edges (fun v => nt v \in dirs) v) ->
  (forall e i f, (i < (p + 1) ^ dim)%N -> (f < 2 * dim)%N -> df_dirval (bl_df (dat e)) i f = 0) ->
  exists r0 x, [/\ elliptic_flux (2 * nb) N [::] junk edges
      (fun e => bl_residual_flux gesv dim p dirs laps tau (dat e)) (nseq N 0) = Ok r0,
    size x = N, off x & op x = Ok (map -%R r0)].
Proof. exact: bl_clamped_solvable. Qed.
End Unique.
Print Assumptions C86_clamped_solvable.
Print Assumptions C86_w_unique.
Print Assumptions C86_clamped_unique.

Section UniqueStep.
Variables (F : realFieldType) (E : Type) (gesv : nat -> nat -> seq F -> seq F -> sv_result F).
Variables (dim p : nat) (dirs laps : seq nat) (tau theta dt : F) (dat : E -> bp_data F) (old : E -> seq F).
Hypotheses (dim0 : (0 < dim)%N) (hD : forall e, diffusion_data dim p (bl_df (bp_bl (dat e)))).
Hypotheses (hg : gesv_correct gesv) (tau0 : 0 < tau) (k0 : 0 < theta * dt).
Variables (n_nodes : nat) (edges : seq (seq nat * E)) (junk : seq (seq F)) (nt : nat -> nat).
Let nb := ((p + 1) ^ (dim - 1))%N.
Let N := (n_nodes * (2 * nb))%N.
Hypotheses (hv : valid_graph dim n_nodes edges) (hj : size junk = (2 * dim)%N).
Hypothesis ht : types_agree (fun e => bl_df (bp_bl (dat e))) nt edges.
Let op := elliptic_flux (2 * nb) N [::] junk edges (fun e => bp_trace_to_flux gesv dim p dirs laps tau theta dt (dat e) (old e)).
(** Zero where the trace of u or of w is given. *)
Let off (x : seq F) := forall v j, (v < n_nodes)%N -> (j < nb)%N ->
  (nt v \in dirs -> nth 0 x (v * (2 * nb) + j) = 0) /\ (nt v \in laps -> nth 0 x (v * (2 * nb) + (nb + j)) = 0).
Let u_tr (e : seq nat * E) (x : seq F) (i : 'I_(2 * dim)) : 'cV[F]_nb := \col_j nth 0 x (nth 0%N e.1 i * (2 * nb) + j).
Let w_tr (e : seq nat * E) (x : seq F) (i : 'I_(2 * dim)) : 'cV[F]_nb := \col_j nth 0 x (nth 0%N e.1 i * (2 * nb) + (nb + j)).
(** Any boundary conditions: the next u, which is what the following step starts from, and w are unique. *)
Theorem C114_step_unique x x' s : size x = N -> size x' = N -> off x -> off x' -> op x = Ok s -> op x' = Ok s ->
  forall e q u r w q' u' r' w' rq ru rr rw, List.In e edges ->
  bi_react dim p tau (bp_bl (dat e.2)) (- (theta * dt)^-1) q u r w (u_tr e x) (w_tr e x) rq ru rr rw ->
  bi_react dim p tau (bp_bl (dat e.2)) (- (theta * dt)^-1) q' u' r' w' (u_tr e x') (w_tr e x') rq ru rr rw ->
  u = u' /\ w = w'.
Proof. exact: bp_same_w. Qed.
Theorem C114_clamped_unique x x' s : (forall v, (v < n_nodes)%N -> nt v \in laps -> nt v \in dirs) ->
  (forall v, (v < n_nodes)%N -> anchored edges (fun v => nt v \in dirs) v) ->
  size x = N -> size x' = N -> off x -> off x' -> op x = Ok s -> op x' = Ok s ->
  (forall v j, (v < n_nodes)%N -> (j < nb)%N -> nth 0 x (v * (2 * nb) + j) = nth 0 x' (v * (2 * nb) + j)) /\
  forall e q u r w q' u' r' w' rq ru rr rw, List.In e edges ->
  bi_react dim p tau (bp_bl (dat e.2)) (- (theta * dt)^-1) q u r w (u_tr e x) (w_tr e x) rq ru rr rw ->
  bi_react dim p tau (bp_bl (dat e.2)) (- (theta * dt)^-1) q' u' r' w' (u_tr e x') (w_tr e x') rq ru rr rw ->
  [/\ forall d, q d = q' d, u = u' & w = w'].
Proof. exact: bp_same_u. Qed.
Theorem C114_clamped_solvable : (forall v, (v < n_nodes)%N -> nt v \in laps -> nt v \in dirs) ->
  (forall v, (v < n_nodes)%N -> anchored edges (fun v => nt v \in dirs) v) ->
  (forall e i f, (i < (p + 1) ^ dim)%N -> (f < 2 * dim)%N -> df_dirval (bl_df (bp_bl (dat e))) i f = 0) ->
  exists r0 x, [/\ elliptic_flux (2 * nb) N [::] junk edges
      (fun e => bp_residual_flux gesv dim p dirs laps tau theta dt (dat e) (old e)) (nseq N 0) = Ok r0,
    size x = N, off x & op x = Ok (map -%R r0)].
Proof. exact: bp_clamped_solvable. Qed.
End UniqueStep.
Print Assumptions C114_clamped_solvable.
Print Assumptions C114_step_unique.
Print Assumptions C114_clamped_unique.
