(** Vocabulary for BilaplacianEigs on a hypergraph. *)
From mathcomp Require Import all_ssreflect all_algebra.
From Verif Require Import M_Base M_Global S_Global S_Hdg S_Tpp S_LocalSolver M_Lapack M_DiffusionUniform M_Diffusion S_Diffusion.
From Verif Require Import S_GlobalParab M_Bilaplacian S_Bilaplacian S_BiReact M_BilapEigs S_BilapEigs M_DiffusionEigs S_DiffusionEigs S_GlobalEigs.
Set Implicit Arguments. Unset Strict Implicit. Unset Printing Implicit Defensive.
Import GRing.Theory.
Local Open Scope ring_scope.

Section Eigs.
Variables (F : realFieldType) (gesv : nat -> nat -> seq F -> seq F -> sv_result F).
Variables (dim p : nat) (dirs laps : seq nat) (tau : F).
Variables (nodes : seq (seq nat)) (n_nodes : nat) (nt : nat -> nat) (junk : seq (seq F)).
Notation nf := ((p + 1) ^ dim)%N.
Notation nb := ((p + 1) ^ (dim - 1))%N.
Notation n2 := (2 * nb)%N.
Notation N := (n_nodes * n2)%N.
(** P i holds the integrals of hyperedge i; q i, u i, r i, w i are functions on it. *)
Implicit Types (P : nat -> be_data F) (x y : seq F) (q r : nat -> 'I_dim -> 'cV[F]_nf) (u w : nat -> 'cV[F]_nf).

Definition be_fun P (eig : F) : local_fun F nat :=
  fun i xt out => be_trace_to_flux gesv dim p dirs laps tau (P i) xt out eig.
Definition be_jac_fun P (e mu : F) : local_fun2 F nat :=
  fun i xt out vals => be_jacobian gesv dim p dirs laps tau (P i) xt out e vals mu.
(** trace_to_flux and jacobian_of_trace_to_flux of the global loop NonlinearEigenvalue. *)
Definition be_res P x (eig : F) := mat_vec n2 junk (indexed nodes) (be_fun P eig) x.
Definition be_jac_global P y (e : F) x (mu : F) := mat_vec2 n2 junk (indexed nodes) (be_jac_fun P e mu) y x.

Definition be_data_all P : Prop := forall i, (i < size nodes)%N -> bi_eigs_data dim p (P i).
Definition be_types P : Prop := forall i k, (i < size nodes)%N -> (k < 2 * dim)%N ->
  nth 0%N (df_types (bl_df (be_bl (P i)))) k = nt (nth 0%N (nth [::] nodes i) k).
Definition be_regular_all P (eig : F) : Prop := forall i, (i < size nodes)%N -> be_regular dim p tau (P i) eig.
Definition be_time_free_all P : Prop := forall i, (i < size nodes)%N -> be_time_free (P i).

(** The values of u and w at the faces of hyperedge i. *)
Definition lo_tr x (i : nat) : 'I_(2 * dim) -> 'cV[F]_nb :=
  fun f => \col_j nth 0 x (nth 0%N (nth [::] nodes i) f * n2 + j).
Definition hi_tr x (i : nat) : 'I_(2 * dim) -> 'cV[F]_nb :=
  fun f => \col_j nth 0 x (nth 0%N (nth [::] nodes i) f * n2 + (nb + j)).
(** Zero where u and w are given. *)
Definition be_off x : Prop := forall v j, (v < n_nodes)%N -> (j < nb)%N ->
  (nt v \in dirs -> nth 0 x (v * n2 + j) = 0) /\ (nt v \in laps -> nth 0 x (v * n2 + (nb + j)) = 0).
(** The discrete eigenvalue problem: local problems with source eig times u for w, and fluxes that are balanced at
    the hypernodes where u respectively w is not given. *)
Definition bi_eigenpair P x (eig : F) q u r w : Prop :=
  [/\ size x = N, be_off x,
      forall i, (i < size nodes)%N -> bi_eig_loc dim p tau (P i) eig (q i) (u i) (r i) (w i) (lo_tr x i) (hi_tr x i) 0
    & forall y, size y = N -> be_off y ->
        \sum_(i < size nodes) (
          \sum_(f < 2 * dim) dotv (lo_tr y i f) (num_flux (bl_hdg dim p (be_at (P i) eig)) tau (r i) (w i) (hi_tr x i) f) +
          \sum_(f < 2 * dim) dotv (hi_tr y i f) (num_flux (bl_hdg dim p (be_at (P i) eig)) tau (q i) (u i) (lo_tr x i) f)) = 0].
(** L2 inner product over all hyperedges. *)
Definition bi_inner P u (u' : nat -> 'cV[F]_nf) : F := \sum_(i < size nodes) be_area (P i) * dotv (u i) (u' i).
(** The square of w weighted with the inverse coefficient. *)
Definition bi_weighted P (eig : F) w : F := \sum_(i < size nodes) dotv (w i) (bl_coef dim p (be_at (P i) eig) *m w i).

(** Coefficient one, and the integrals of DiffusionEigs with coefficient one. *)
Definition unit_all P : Prop := forall i, (i < size nodes)%N -> forall eig (k l : 'I_nf),
  be_vol (P i) eig k l = df_mass (bl_df (be_bl (P i))) k l.
Definition unit_diffusion P (i : nat) : de_data F :=
  DeData (bl_df (be_bl (P i))) (fun _ => df_mass (bl_df (be_bl (P i)))) (be_area (P i)).
(** The vector with the values x for u and kappa times x for w. *)
Definition both (kappa : F) x : seq F :=
  mkseq (fun d => if (d %% n2 < nb)%N then nth 0 x (d %/ n2 * nb + d %% n2)
                  else kappa * nth 0 x (d %/ n2 * nb + (d %% n2 - nb))) N.
End Eigs.
Arguments lo_tr {F} dim p nodes x i.
Arguments hi_tr {F} dim p nodes x i.
Arguments be_off {F} dim p dirs laps n_nodes nt x.
Arguments bi_eigenpair {F} dim p dirs laps tau nodes n_nodes nt P x eig q u r w.
Arguments bi_inner {F} dim p nodes P u u'.
Arguments bi_weighted {F} dim p nodes P eig w.
Arguments unit_all {F} dim p nodes P.
Arguments unit_diffusion {F} P i.
Arguments both {F} dim p n_nodes kappa x.
