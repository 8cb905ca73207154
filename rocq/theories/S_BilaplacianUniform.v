(** Vocabulary for the local solver BilaplacianUniform on the unit hypercube. *)
From mathcomp Require Import all_ssreflect all_algebra.
From Verif Require Import S_Hdg S_Tpp S_LocalSolver S_Diffusion S_Bilaplacian.
Set Implicit Arguments. Unset Strict Implicit. Unset Printing Implicit Defensive.
Import GRing.Theory.
Local Open Scope ring_scope.

Section Vocabulary.
Variables (F : realFieldType) (b : nat -> {poly F}) (dim p : nat) (tau : F).
Notation H := (cube_hdg b dim p).
Notation nf := ((p + 1) ^ dim)%N.
Notation nb := ((p + 1) ^ (dim - 1))%N.
(** (r, w) solves the local problem of the Laplacian with the second half of the traces, and (q, u) that with
    the first half and the source w. *)
Definition bu_solution (x : seq (seq F)) (q : 'I_dim -> 'cV[F]_nf) (u : 'cV[F]_nf) (r : 'I_dim -> 'cV[F]_nf)
    (w : 'cV[F]_nf) : Prop :=
  loc_eq H tau r w (tr nb (upper nb x)) /\
  loc_src H tau q u (tr nb (lower nb x)) (fun=> 0) (hM H *m w).
(** The first half of the output holds the flux of u, the second half that of w. *)
Definition bu_fluxes (x : seq (seq F)) (q : 'I_dim -> 'cV[F]_nf) (u : 'cV[F]_nf) (r : 'I_dim -> 'cV[F]_nf)
    (w : 'cV[F]_nf) (y : seq (seq F)) : Prop :=
  [/\ is_trace (2 * dim) (2 * nb) y,
      forall f : 'I_(2 * dim), tr nb (lower nb y) f = num_flux H tau q u (tr nb (lower nb x)) f
    & forall f : 'I_(2 * dim), tr nb (upper nb y) f = num_flux H tau r w (tr nb (upper nb x)) f].
(** The trace with exchanged halves. *)
Definition exchange (x : seq (seq F)) : seq (seq F) := [seq drop nb l ++ take nb l | l <- x].
End Vocabulary.
Arguments bu_solution {F} b dim p tau x q u r w.
Arguments bu_fluxes {F} b dim p tau x q u r w y.
