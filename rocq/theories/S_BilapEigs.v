(** Vocabulary for the local solver BilaplacianEigs. *)
From mathcomp Require Import all_ssreflect all_algebra.
From Verif Require Import S_Hdg S_Tpp S_LocalSolver M_DiffusionUniform M_Diffusion S_Diffusion S_TppGeo M_Bilaplacian S_Bilaplacian S_BiReact.
From Verif Require Import M_DiffusionEigs S_DiffusionEigs M_BilapEigs.
Set Implicit Arguments. Unset Strict Implicit. Unset Printing Implicit Defensive.
Import GRing.Theory.
Local Open Scope ring_scope.

Section Eigs.
Variable F : realFieldType.
Variables (dim p : nat) (dirs laps : seq nat) (tau : F).
Implicit Types (P : be_data F).
Notation nf := ((p + 1) ^ dim)%N.
Notation nb := ((p + 1) ^ (dim - 1))%N.

(** The contract of the integrals, with a coefficient for each value of eig: that of DiffusionEigs. *)
Definition bi_eigs_data P : Prop := eigs_data dim p (DeData (bl_df (be_bl P)) (be_vol P) (be_area P)).
(** The local problem of the eigenvalue equation: the problem for w has the source eig times u; rw is a further
    source. *)
Definition bi_eig_loc P (eig : F) (q : 'I_dim -> 'cV[F]_nf) u r w (x y : 'I_(2 * dim) -> 'cV[F]_nb) (rw : 'cV[F]_nf) :=
  bi_react dim p tau (be_at P eig) eig q u r w x y (fun=> 0) 0 (fun=> 0) rw.
(** eig is no eigenvalue of the local problem with zero traces. *)
Definition be_regular P (eig : F) : Prop := bi_regular dim p tau (be_at P eig) eig.
(** The coefficient does not depend on time. *)
Definition be_time_free P : Prop := forall eig i j, be_vol P eig i j = be_vol P 0 i j.
(** The fluxes of a local solution with traces x and y. *)
Definition be_flux P eig q u r w (x y : 'I_(2 * dim) -> 'cV[F]_nb) out : Prop :=
  bi_flux dim p dirs laps tau (be_at P eig) q u r w x y out.
End Eigs.
Arguments bi_eigs_data {F} dim p P.
Arguments bi_eig_loc {F} dim p tau P eig q u r w x y rw.
Arguments be_regular {F} dim p tau P eig.
Arguments be_flux {F} dim p dirs laps tau P eig q u r w x y out.
