(** Specification vocabulary for dense linear algebra: the mathematical matrix held by a
    column-major array.  Independent of the model's helper functions. *)
From mathcomp Require Import all_ssreflect all_algebra.
Set Implicit Arguments. Unset Strict Implicit. Unset Printing Implicit Defensive.
Local Open Scope ring_scope.

(** Entry (i, j) of the nr x nc matrix stored column by column in [s]. *)
Definition mx_of (R : ringType) (nr nc : nat) (s : seq R) : 'M[R]_(nr, nc) :=
  \matrix_(i < nr, j < nc) s`_(j * nr + i).
(** [s] really is the storage of an nr x nc matrix. *)
Definition is_mat (R : ringType) (nr nc : nat) (s : seq R) : Prop := size s = (nr * nc)%N.
(** Every column replaced by / equal to the one vector [v]. *)
Definition all_cols (R : ringType) (nr nc : nat) (v : 'cV[R]_nr) : 'M[R]_(nr, nc) :=
  \matrix_(i, j) v i 0.
