(** Vocabulary for DiffusionEigs on a hypergraph. *)
From mathcomp Require Import all_ssreflect all_algebra.
From Verif Require Import M_Base M_Global S_Global S_Hdg S_Tpp S_LocalSolver M_Lapack M_DiffusionUniform M_Diffusion S_Diffusion.
From Verif Require Import S_GlobalParab M_DiffusionEigs S_DiffusionEigs.
Set Implicit Arguments. Unset Strict Implicit. Unset Printing Implicit Defensive.
Import GRing.Theory.
Local Open Scope ring_scope.

Section Eigs.
Variables (F : realFieldType) (gesv : nat -> nat -> seq F -> seq F -> sv_result F).
Variables (dim p : nat) (dirs : seq nat) (tau : F).
Variables (nodes : seq (seq nat)) (n_nodes : nat) (nt : nat -> nat) (junk : seq (seq F)).
Notation nf := ((p + 1) ^ dim)%N.
Notation nb := ((p + 1) ^ (dim - 1))%N.
Notation N := (n_nodes * nb)%N.
(** P i holds the integrals of hyperedge i; q i, u i are functions on it. *)
Implicit Types (P : nat -> de_data F) (x y : seq F) (q : nat -> 'I_dim -> 'cV[F]_nf) (u : nat -> 'cV[F]_nf).

Definition eigs_fun P (eig : F) : local_fun F nat :=
  fun i xt out => de_trace_to_flux gesv dim p dirs tau (P i) xt out eig.
Definition eigs_jac_fun P (e mu : F) : local_fun2 F nat :=
  fun i xt out vals => de_jacobian gesv dim p dirs tau (P i) xt out e vals mu.
(** trace_to_flux and jacobian_of_trace_to_flux of the global loop NonlinearEigenvalue. *)
Definition eigs_res P x (eig : F) := mat_vec nb junk (indexed nodes) (eigs_fun P eig) x.
Definition eigs_jacobian P y (e : F) x (mu : F) := mat_vec2 nb junk (indexed nodes) (eigs_jac_fun P e mu) y x.

(** The contracts hold on all hyperedges; the types of the faces are those of the hypernodes. *)
Definition eigs_data_all P : Prop := forall i, (i < size nodes)%N -> eigs_data dim p (P i).
Definition eigs_types P : Prop := forall i k, (i < size nodes)%N -> (k < 2 * dim)%N ->
  nth 0%N (df_types (de_df (P i))) k = nt (nth 0%N (nth [::] nodes i) k).
Definition regular_all P (eig : F) : Prop := forall i, (i < size nodes)%N -> regular dim p tau (P i) eig.
Definition time_free_all P : Prop := forall i, (i < size nodes)%N -> time_free (P i).

Definition local_tr x (i : nat) : 'I_(2 * dim) -> 'cV[F]_nb := tr nb (local_dofs dim p nodes x i).
(** The discrete eigenvalue problem: local problems with right-hand side eig u, and fluxes that are balanced
    at the hypernodes without Dirichlet condition. *)
Definition eigenpair P x (eig : F) q u : Prop :=
  [/\ size x = N, dir_free dim p dirs n_nodes nt x,
      forall i, (i < size nodes)%N -> eig_loc dim p tau (P i) eig (q i) (u i) (local_tr x i) 0
    & forall y, size y = N -> dir_free dim p dirs n_nodes nt y ->
        \sum_(i < size nodes) \sum_(f < 2 * dim)
          dotv (local_tr y i f) (num_flux (de_hdg dim p (P i) eig) tau (q i) (u i) (local_tr x i) f) = 0].
(** L2 inner product over all hyperedges. *)
Definition inner P u (u' : nat -> 'cV[F]_nf) : F := \sum_(i < size nodes) de_area (P i) * dotv (u i) (u' i).
(** Energy: the coefficient times the square of q, and the jumps between u and x weighted by tau. *)
Definition eig_energy P (eig : F) x q u : F :=
  \sum_(i < size nodes) (\sum_d dotv (q i d) (hM (de_hdg dim p (P i) eig) *m q i d) +
    tau * \sum_(f < 2 * dim) (ha (de_hdg dim p (P i) eig) f)^-1 *
      dotv ((hE (de_hdg dim p (P i) eig) f)^T *m u i - ha (de_hdg dim p (P i) eig) f *: local_tr x i f)
           ((hE (de_hdg dim p (P i) eig) f)^T *m u i - ha (de_hdg dim p (P i) eig) f *: local_tr x i f)).
End Eigs.
Arguments eigenpair {F} dim p dirs tau nodes n_nodes nt P x eig q u.
Arguments inner {F} dim p nodes P u u'.
Arguments eig_energy {F} dim p tau nodes P eig x q u.
Arguments local_tr {F} dim p nodes x i.
