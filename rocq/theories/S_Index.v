(** Vocabulary for the properties of M_Index. *)
From mathcomp Require Import all_ssreflect.
Set Implicit Arguments. Unset Strict Implicit. Unset Printing Implicit Defensive.

(** Value of a digit list, first digit fastest. *)
Fixpoint compose (range : nat) (d : seq nat) : nat :=
  if d is x :: r then x + range * compose range r else 0.
