(** Vocabulary for the local solver DiffusionEigs. *)
From mathcomp Require Import all_ssreflect all_algebra.
From Verif Require Import S_Hdg S_Tpp S_LocalSolver M_Base M_DenseLA S_DenseLA M_Lapack S_Lapack M_DiffusionUniform M_Diffusion S_Diffusion S_TppGeo.
From Verif Require Import M_DiffusionEigs.
Set Implicit Arguments. Unset Strict Implicit. Unset Printing Implicit Defensive.
Import GRing.Theory Num.Theory.
Local Open Scope ring_scope.

Section Eigs.
Variable F : realFieldType.
Variables (dim p : nat) (dirs : seq nat) (tau : F).
Notation nf := ((p + 1) ^ dim)%N.
Notation nb := ((p + 1) ^ (dim - 1))%N.
Implicit Types (P : de_data F) (x : seq (seq F)) (q : 'I_dim -> 'cV[F]_nf) (u : 'cV[F]_nf).

Definition de_hdg P (eig : F) := df_hdg dim p (de_at P eig).
Definition de_mask P (f : nat) : bool := nth 0%N (df_types (de_df P)) f \in dirs.
(** The local problem of the eigenvalue equation: the source is eig times u (its integrals against the basis
    functions are area times the coefficients of u); ru is a further source. *)
Definition eig_loc P (eig : F) q u (x : 'I_(2 * dim) -> 'cV[F]_nb) (ru : 'cV[F]_nf) : Prop :=
  loc_src (de_hdg P eig) tau q u x (fun=> 0) ((eig * de_area P) *: u + ru).
(** eig is no eigenvalue of the local problem with zero traces. *)
Definition regular P (eig : F) : Prop :=
  forall q u, eig_loc P eig q u (fun=> 0) 0 -> (forall d, q d = 0) /\ u = 0.
(** The coefficient does not depend on time. *)
Definition time_free P : Prop := forall eig i j, de_vol P eig i j = de_vol P 0 i j.
(** y holds the numerical flux of (q, u, x), and 0 on Dirichlet faces. *)
Definition eig_flux_of P eig x q u y : Prop :=
  is_trace (2 * dim) nb y /\ forall f : 'I_(2 * dim), tr nb y f =
    if de_mask P f then 0 else num_flux (de_hdg P eig) tau q u (tr nb x) f.
(** The contract of the integrals, with a coefficient kappa for each value of eig. *)
Definition eigs_data P : Prop :=
  exists (b : nat -> {poly F}) (Q : nat) (xs ws : nat -> F) (kappa : F -> nat -> F) (g : edge_geo F dim),
    [/\ orthonormal_basis (p + 1) b, quad_ok (p + 1) b Q xs ws,
        forall eig s, (s < Q ^ dim)%N -> 0 < kappa eig s, geo_ok g
      & (forall eig, tpp_contract b p Q xs ws (kappa eig) g (de_at P eig)) /\ de_area P = eg_area g].
End Eigs.
Arguments de_mask {F} dirs P f.
Arguments eig_loc {F} dim p tau P eig q u x ru.
Arguments regular {F} dim p tau P eig.
Arguments eig_flux_of {F} dim p dirs tau P eig x q u y.
Arguments eigs_data {F} dim p P.

(** dgesv reports singular matrices. *)
Definition gesv_detects (F : realFieldType) (gesv : nat -> nat -> seq F -> seq F -> sv_result F) : Prop :=
  forall n nc A b, is_mat n n A -> is_mat n nc b -> mx_of n n A \notin unitmx -> ~~ sv_info (gesv n nc A b).
