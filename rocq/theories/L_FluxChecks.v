(** The time dependent and the eigenvalue solver stop on traces of the wrong size. *)
From mathcomp Require Import all_ssreflect all_algebra.
From Verif Require Import M_Base M_Lapack M_DiffusionUniform M_Diffusion M_DiffusionParab M_DiffusionEigs.
From Verif Require Import S_LocalSolver L_Diffusion3.
Set Implicit Arguments. Unset Strict Implicit. Unset Printing Implicit Defensive.
Local Open Scope ring_scope.

Section Checks.
Variable F : realFieldType.
Variables (gesv : nat -> nat -> seq F -> seq F -> sv_result F).
Variables (dim p : nat) (dirs : seq nat) (tau : F).
Notation nb := ((p + 1) ^ (dim - 1))%N.
Lemma parab_checked theta dt P S x out : ~ is_trace (2 * dim) nb x \/ ~ is_trace (2 * dim) nb out ->
  dp_trace_to_flux gesv dim p dirs tau theta dt P S x out = Abort /\
  dp_residual_flux gesv dim p dirs tau theta dt P S x out = Abort.
Proof. by rewrite /dp_trace_to_flux /dp_residual_flux => -[/not_trace ->|/not_trace ->] //; rewrite andbF. Qed.
Lemma eigs_checked P eig mu v x out : ~ is_trace (2 * dim) nb x \/ ~ is_trace (2 * dim) nb out ->
  de_trace_to_flux gesv dim p dirs tau P x out eig = Abort /\
  de_jacobian gesv dim p dirs tau P x out eig v mu = Abort.
Proof. by rewrite /de_trace_to_flux /de_jacobian => -[/not_trace ->|/not_trace ->] //; rewrite andbF. Qed.
End Checks.
