(** Vocabulary for the eigenvalue drivers. *)
From mathcomp Require Import all_ssreflect all_algebra.
From Verif Require Import M_Base.
Set Implicit Arguments. Unset Strict Implicit. Unset Printing Implicit Defensive.
Import GRing.Theory Num.Theory.
Local Open Scope ring_scope.

(** The unknowns that are not constrained, in increasing order. *)
Definition free_dofs (N : nat) (dir : seq nat) : seq nat := [seq d <- iota 0 N | d \notin dir].
Section S.
Variables (F : realFieldType) (N : nat) (dir : seq nat).
(** Values at the free unknowns; the vector with these values and zeros at the constrained ones. *)
Definition restrict (x : seq F) : seq F := [seq nth 0 x d | d <- free_dofs N dir].
Definition extend (v : seq F) : seq F :=
  [seq if d \in dir then 0 else nth 0 v (index d (free_dofs N dir)) | d <- iota 0 N].
Definition vanishes (x : seq F) : Prop := forall d, d \in dir -> nth 0 x d = 0.
(** Inner product of vectors with [n] entries, and c v. *)
Definition dot (n : nat) (x y : seq F) : F := \sum_(i < n) nth 0 x i * nth 0 y i.
Definition times (c : F) (v : seq F) : seq F := [seq c * a | a <- v].
(** An operation on vectors with [n] entries is the map [A]. *)
Definition acts_as (n : nat) (op : seq F -> outcome (seq F)) (A : seq F -> seq F) : Prop :=
  forall x, size x = n -> op x = Ok (A x) /\ size (A x) = n.
End S.
