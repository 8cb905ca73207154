(** Vocabulary for the properties of M_SparseLA. *)
From mathcomp Require Import all_ssreflect all_algebra.
From Verif Require Import M_Base.
Set Implicit Arguments. Unset Strict Implicit. Unset Printing Implicit Defensive.
Import GRing.Theory.
Local Open Scope ring_scope.

Section S.
Variable F : realFieldType.
(** The column vector stored in a list. *)
Definition vec (n : nat) (v : seq F) : 'cV[F]_n := \col_i nth 0 v i.
Definition dot (n : nat) (u v : 'cV[F]_n) : F := \sum_i u i 0 * v i 0.
(** [A] is the linear operator with matrix [M] on vectors of length n. *)
Definition implements (n : nat) (A : seq F -> outcome (seq F)) (M : 'M[F]_n) : Prop :=
  forall v, size v = n -> exists w, [/\ A v = Ok w, size w = n & vec n w = M *m vec n v].
Definition symmetric (n : nat) (M : 'M[F]_n) : Prop := M^T = M.
(** Definite of either sign on the subspace [U]; HDG operators are negative definite. *)
Definition anisotropic (n : nat) (U : 'cV[F]_n -> Prop) (M : 'M[F]_n) : Prop :=
  forall u, U u -> u != 0 -> dot u (M *m u) != 0.
Definition invariant_subspace (n : nat) (U : 'cV[F]_n -> Prop) (M : 'M[F]_n) : Prop :=
  (forall u v a, U u -> U v -> U (u + a *: v)) /\ (forall u, U u -> U (M *m u)).
End S.
