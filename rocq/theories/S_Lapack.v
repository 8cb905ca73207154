(** Contracts of the external LAPACK routines (trusted base), stated with mathematical matrices. *)
From mathcomp Require Import all_ssreflect all_algebra.
From Verif Require Import S_DenseLA.
Set Implicit Arguments. Unset Strict Implicit. Unset Printing Implicit Defensive.
Local Open Scope ring_scope.

Section Contracts.
Variable F : realFieldType.

(** The i-th elementary reflector vector of dgeqr2: v_j = 0 for j < i, v_i = 1, and
    v_j = A(j,i) on exit for j > i. *)
Definition refl_vec (nr : nat) (h : seq F) (i : nat) : 'cV[F]_nr :=
  \col_j (if (j < i)%N then 0 else if (j == i :> nat) then 1 else h`_(i * nr + j)).
Definition reflector (nr : nat) (h tau : seq F) (i : nat) : 'M[F]_nr :=
  1%:M - tau`_i *: (refl_vec nr h i *m (refl_vec nr h i)^T).
(** H(0) H(1) ... H(k-1). *)
Fixpoint refl_prod (nr : nat) (h tau : seq F) (k : nat) : 'M[F]_nr :=
  if k is k'.+1 then refl_prod nr h tau k' *m reflector nr h tau k' else 1%:M.
(** Upper triangle (trapezoid) left by dgeqr2. *)
Definition upper_part (nr nc : nat) (h : seq F) : 'M[F]_(nr, nc) :=
  \matrix_(i, j) (if (i <= j)%N then mx_of nr nc h i j else 0).
(** dgeqr2 succeeded on the matrix A: every H(i) is the identity or a reflection and
    A = H(0) H(1) ... H(k-1) R. *)
Definition geqr2_ok (nr nc : nat) (A h tau : seq F) : Prop :=
  [/\ is_mat nr nc h, size tau = minn nr nc,
      forall i, (i < minn nr nc)%N ->
        tau`_i = 0 \/ tau`_i * ((refl_vec nr h i)^T *m refl_vec nr h i) 0 0 = 2%:R
    & mx_of nr nc A = refl_prod nr h tau (minn nr nc) *m upper_part nr nc h].
(** dgesv succeeded: the right-hand side now holds a solution. *)
Definition gesv_ok (n nc : nat) (A b x : seq F) : Prop :=
  is_mat n nc x /\ mx_of n n A *m mx_of n nc x = mx_of n nc b.
End Contracts.

(** The largest index written by the R extraction (column n_cols-2, row n_cols-1 at stride n_rows)
    lies inside the n_cols*n_cols array. *)
Definition r_fits (nr nc : nat) : bool := (nc < 2)%N || ((nc - 2) * nr + (nc - 1) < nc * nc)%N.

(** The nc x nc matrix stored in [r], extended by zero rows to nr rows. *)
Definition zero_extended (F : realFieldType) (nr nc : nat) (r : seq F) : 'M[F]_(nr, nc) :=
  \matrix_(i, j) (if (i < nc)%N then r`_(j * nc + i) else 0).
(** Shapes or previous contents for which the R extraction leaves no stale entry. *)
Definition r_clean (F : realFieldType) (nr nc : nat) (r0 : seq F) : Prop :=
  [\/ nr = nc, (nc <= 2)%N | forall i j : 'I_nc, (j < i)%N -> mx_of nc nc r0 i j = 0].
(** Number of proper reflections among H(0) ... H(k-1). *)
Definition n_reflections (F : realFieldType) (k : nat) (tau : seq F) : nat :=
  count (fun i => tau`_i != 0) (iota 0 k).
