(** Vocabulary for BilaplacianParab and BilaplacianEigs: the coupled problems of Bilaplacian with c times u as
    additional source of the problem for w. *)
From mathcomp Require Import all_ssreflect all_algebra.
From Verif Require Import S_Hdg S_Tpp S_LocalSolver M_DiffusionUniform M_Diffusion S_Diffusion S_TppGeo M_Bilaplacian S_Bilaplacian.
Set Implicit Arguments. Unset Strict Implicit. Unset Printing Implicit Defensive.
Import GRing.Theory.
Local Open Scope ring_scope.

Section React.
Variable F : realFieldType.
Variables (dim p : nat) (tau : F) (P : bl_data F).
Notation nf := ((p + 1) ^ dim)%N.
Notation nb := ((p + 1) ^ (dim - 1))%N.
Implicit Types (q r : 'I_dim -> 'cV[F]_nf) (u w : 'cV[F]_nf).
Definition bi_react (c : F) q u r w (x y : 'I_(2 * dim) -> 'cV[F]_nb) rq ru rr rw : Prop :=
  bi_loc dim p tau P q u r w x y rq ru rr (rw + c *: (df_mass_mx dim p (bl_df P) *m u)).
(** Only the zero solution without traces and sources. *)
Definition bi_regular (c : F) : Prop := forall q u r w,
  bi_react c q u r w (fun=> 0) (fun=> 0) (fun=> 0) 0 (fun=> 0) 0 ->
  [/\ forall d, q d = 0, u = 0, forall d, r d = 0 & w = 0].
End React.
Arguments bi_react {F} dim p tau P c q u r w x y rq ru rr rw.
Arguments bi_regular {F} dim p tau P c.
