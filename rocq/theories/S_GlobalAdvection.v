(** Vocabulary for time stepping of AdvectionParab on a hypergraph. *)
From mathcomp Require Import all_ssreflect all_algebra.
From Verif Require Import M_Base M_Global S_Global S_Hdg S_LocalSolver M_Lapack M_DiffusionUniform M_Diffusion S_Diffusion.
From Verif Require Import S_GlobalParab M_AdvectionParab S_AdvectionParab.
Set Implicit Arguments. Unset Strict Implicit. Unset Printing Implicit Defensive.
Import GRing.Theory Num.Theory.
Local Open Scope ring_scope.

Section Time.
Variables (F : realFieldType) (gesv : nat -> nat -> seq F -> seq F -> sv_result F).
Variables (dim p : nat) (dirs outs bnds : seq nat) (tau theta dt : F).
Variables (nodes : seq (seq nat)) (n_nodes : nat) (junk : seq (seq F)).
(** Hypernodes where values are given, and those with free outflow. *)
Variables (fin fout : nat -> bool).
Notation nb := ((p + 1) ^ (dim - 1))%N.
Notation nf := (nb * (p + 1))%N.
Notation N := (n_nodes * nb)%N.
Notation nF := (2 * dim)%N.
Notation st0 := (ap_state0 F dim p).
Notation node i k := (nth 0%N (nth [::] nodes i) k).
Notation local := (local_dofs dim p nodes).
(** P i holds the integrals of hyperedge i at the time of the step; W i the winds behind them. *)
Implicit Types (P : nat -> ap_data F) (W : nat -> upwind_data F) (data : seq (ap_state F)) (x : seq F).

Definition adv_op P data : local_fun F nat :=
  fun i => ap_trace_to_flux gesv dim p dirs outs bnds tau theta dt (P i) (nth st0 data i).
Definition adv_res P data : local_fun F nat :=
  fun i => ap_residual_flux gesv dim p dirs outs bnds tau theta dt (P i) (nth st0 data i).
Definition adv_set_at P : nat -> seq (seq F) -> ap_state F -> outcome (ap_state F) :=
  fun i => ap_set_data gesv dim p dirs outs bnds tau theta dt (P i).
Definition glob_adv_op P data x := elliptic_flux nb N [::] junk (indexed nodes) (adv_op P data) x.
Definition glob_adv_res P data x := elliptic_flux nb N [::] junk (indexed nodes) (adv_res P data) x.
Definition glob_adv_set P x data := set_data nb junk (indexed nodes) (adv_set_at P) x data.

(** The kinds of the faces are those of their hypernodes. *)
Definition adv_classes P : Prop := forall i k, (i < size nodes)%N -> (k < nF)%N ->
  inflow_face dirs bnds (P i) k = fin (node i k) /\ outflow_face outs bnds (P i) k = fout (node i k).
Definition regular (v : nat) : bool := ~~ fin v && ~~ fout v.
Definition adv_free x : Prop := forall d, (d < N)%N -> fin (d %/ nb) -> nth 0 x d = 0.
Definition out_free x : Prop := forall d, (d < N)%N -> fout (d %/ nb) -> nth 0 x d = 0.

(** One step in time: x solves the global equation, data' is the container after set_data. *)
Definition adv_time_step P data x data' : Prop :=
  [/\ size x = N, adv_free x, glob_adv_res P data x = Ok (nseq N 0) & glob_adv_set P x data = Ok data'].
Definition adv_states_ok data : Prop :=
  size data = size nodes /\ forall i, (i < size nodes)%N -> adv_state_ok dim nb nf (nth st0 data i).
(** The states hold functions with their rates and fluxes for the traces x0. *)
Definition adv_settled P x0 data : Prop :=
  [/\ size data = size nodes, size x0 = N, adv_free x0 &
    forall i, (i < size nodes)%N -> exists u : 'cV[F]_nf,
      adv_stored dim nb dirs outs bnds tau (P i) (local x0 i) u (nth st0 data i)].
(** No flux is stored where the outflow is free. *)
Definition adv_ready P data : Prop := forall i (k : 'I_nF), outflow_face outs bnds (P i) k ->
  (1 - theta) *: adv_old_flux nb (nth st0 data i) k = 0.
(** No source and zero given values. *)
Definition adv_zero_data P : Prop := forall i, (i < size nodes)%N ->
  (forall j, (j < nf)%N -> ap_src (P i) j = 0) /\
  (forall j f, (j < nf)%N -> (f < nF)%N -> ap_dirval (P i) j f = 0).
(** Square of the L2 norm of u on all hyperedges. *)
Definition adv_energy P data : F :=
  \sum_(i < size nodes) ap_area (P i) * \sum_(j < nf) nth 0 (ap_u_old (nth st0 data i)) j ^+ 2.

(** What flows into a regular hypernode also leaves it. *)
Definition wind_conserved W : Prop := forall v, (v < n_nodes)%N -> regular v ->
  \sum_(i < size nodes) \sum_(k < nF | node i k == v) wind_matrix nb (W i) k = 0.
(** Through faces with free outflow the wind leaves. *)
Definition wind_leaves W : Prop := forall i k s, (i < size nodes)%N -> (k < nF)%N ->
  fout (node i k) -> ~~ fin (node i k) -> (s < up_n (W i) k)%N -> 0 <= up_w (W i) k s.
(** Only the zero function of a regular hypernode is not met by the wind. *)
Definition wind_definite W : Prop := forall v, (v < n_nodes)%N -> regular v -> forall l : 'cV[F]_nb,
  (forall i k s, (i < size nodes)%N -> (k < nF)%N -> node i k = v -> (s < up_n (W i) k)%N ->
     up_w (W i) k s = 0 \/ \sum_(j < nb) up_psi (W i) k s j * l j 0 = 0) -> l = 0.
(** Mean value times volume, and what leaves through the faces that are not regular. *)
Definition adv_mass P data : F :=
  \sum_(i < size nodes) ap_area (P i) * nth 0 (ap_u_old (nth st0 data i)) 0.
Definition adv_sources P : F := \sum_(i < size nodes) ap_src (P i) 0%N.
Definition first n (v : 'cV[F]_n) : F := \sum_(j < n | j == 0%N :> nat) v j 0.
Definition adv_leaving P x data : F :=
  \sum_(i < size nodes) \sum_(k < nF | ~~ regular (node i k))
    (first (full_flux dim nb tau (P i) (local x i) (adv_u nf (nth st0 data i)) k) +
     (if fin (node i k) then ap_dirval (P i) 0%N k else 0)).
End Time.
