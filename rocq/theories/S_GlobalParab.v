(** Vocabulary for time stepping of DiffusionParab on a hypergraph. *)
From mathcomp Require Import all_ssreflect all_algebra.
From Verif Require Import M_Base M_Global S_Global S_Hdg S_Tpp S_LocalSolver M_Lapack M_DiffusionUniform M_Diffusion S_Diffusion.
From Verif Require Import M_DiffusionParab S_DiffusionParab.
Set Implicit Arguments. Unset Strict Implicit. Unset Printing Implicit Defensive.
Import GRing.Theory.
Local Open Scope ring_scope.

(** Hyperedges given by their hypernodes; hyperedge i has number i, which selects its entry of the data
    container. *)
Definition indexed (nodes : seq (seq nat)) : seq (seq nat * nat) := zip nodes (iota 0 (size nodes)).

Section Time.
Variables (F : realFieldType) (gesv : nat -> nat -> seq F -> seq F -> sv_result F).
Variables (dim p : nat) (dirs : seq nat) (tau theta dt : F).
Variables (nodes : seq (seq nat)) (n_nodes : nat) (nt : nat -> nat) (junk : seq (seq F)).
Notation nb := ((p + 1) ^ (dim - 1))%N.
Notation N := (n_nodes * nb)%N.
Notation st0 := (dp_state0 F dim p).
(** P i holds the integrals of hyperedge i at the time of the step. *)
Implicit Types (P : nat -> dp_data F) (data : seq (dp_state F)) (x : seq F).

(** The local functions: the data of hyperedge i is entry i of the container. *)
Definition parab_op P data : local_fun F nat :=
  fun i => dp_trace_to_flux gesv dim p dirs tau theta dt (P i) (nth st0 data i).
Definition parab_res P data : local_fun F nat :=
  fun i => dp_residual_flux gesv dim p dirs tau theta dt (P i) (nth st0 data i).
Definition parab_set P : nat -> seq (seq F) -> dp_state F -> outcome (dp_state F) :=
  fun i => dp_set_data gesv dim p dirs tau theta dt (P i).

(** The types of the faces are those of the hypernodes. *)
Definition face_types P : Prop := forall i k, (i < size nodes)%N -> (k < 2 * dim)%N ->
  nth 0%N (df_types (dp_df (P i))) k = nt (nth 0%N (nth [::] nodes i) k).
(** Every hypernode is a Dirichlet node or belongs to a hyperedge. *)
Definition covered : Prop := forall v, (v < n_nodes)%N -> (nt v \in dirs) || has (fun l => v \in l) nodes.
Definition dir_free x : Prop := forall d, (d < N)%N -> nt (d %/ nb)%N \in dirs -> nth 0 x d = 0.
(** Values of x at the hypernodes of hyperedge i. *)
Definition local_dofs x (i : nat) : seq (seq F) :=
  mkseq (fun k => mkseq (fun j => nth 0 x (nth 0%N (nth [::] nodes i) k * nb + j)) nb) (2 * dim).

Definition glob_op P data x := elliptic_flux nb N [::] junk (indexed nodes) (parab_op P data) x.
Definition glob_res P data x := elliptic_flux nb N [::] junk (indexed nodes) (parab_res P data) x.
Definition glob_set P x data := set_data nb junk (indexed nodes) (parab_set P) x data.

(** One step in time: x solves the global equation, data' is the container after set_data. *)
Definition time_step P data x data' : Prop :=
  [/\ size x = N, dir_free x, glob_res P data x = Ok (nseq N 0) & glob_set P x data = Ok data'].
Definition states_ok data : Prop :=
  size data = size nodes /\ forall i, (i < size nodes)%N -> state_ok dim p (nth st0 data i).
(** The states hold the local solutions for the traces x0. *)
Definition settled P x0 data : Prop :=
  [/\ size data = size nodes, size x0 = N, dir_free x0 &
    forall i, (i < size nodes)%N -> exists q u,
      grad_eq (dp_hdg dim p (P i)) q u (tr nb (local_dofs x0 i)) (df_rq p (dp_df (P i)) (dp_mask dirs (P i))) /\
      stored dim p dirs tau (P i) (local_dofs x0 i) q u (nth st0 data i)].
(** No source and zero Dirichlet values. *)
Definition zero_data P : Prop := forall i, (i < size nodes)%N ->
  (forall j, (j < (p + 1) ^ dim)%N -> df_src (dp_df (P i)) j = 0) /\
  (forall j f, (j < (p + 1) ^ dim)%N -> (f < 2 * dim)%N ->
     df_dirval (dp_df (P i)) j f = 0 /\ dp_dirold (P i) j f = 0).
(** Square of the L2 norm of u on all hyperedges. *)
Definition energy P data : F :=
  \sum_(i < size nodes) dp_area (P i) * \sum_(j < (p + 1) ^ dim) nth 0 (dp_u_old (nth st0 data i)) j ^+ 2.
End Time.
