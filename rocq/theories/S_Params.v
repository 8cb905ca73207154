(** Classical solutions on a flat hyperedge.  A hyperedge of dimension [n] is the image of the map
    [chart]: an origin and [n] orthonormal tangent directions in space. *)
From Coq Require Import Reals.
From mathcomp Require Import all_ssreflect.
Set Implicit Arguments. Unset Strict Implicit. Unset Printing Implicit Defensive.
Local Open Scope R_scope.

Fixpoint rsum (n : nat) (f : nat -> R) : R := if n is n'.+1 then rsum n' f + f n' else 0.
(** [x] with coordinate [d] replaced. *)
Definition subst (x : nat -> R) (d : nat) (s : R) : nat -> R := fun k => if k == d then s else x k.
(** [g] is the partial derivative of [f] in direction [d]. *)
Definition partial (f : (nat -> R) -> R) (d : nat) (g : (nat -> R) -> R) : Prop :=
  forall xi, derivable_pt_lim (fun s => f (subst xi d s)) (xi d) (g xi).
(** [h] is the divergence of [q] in [n] dimensions. *)
Definition divergence (n : nat) (q : nat -> (nat -> R) -> R) (h : (nat -> R) -> R) : Prop :=
  exists dq, (forall d, (d < n)%N -> partial (q d) d (dq d)) /\ forall xi, rsum n (fun d => dq d xi) = h xi.

Section Edge.
Variables (n : nat) (a : nat -> R) (e : nat -> nat -> R).
Definition chart (xi : nat -> R) : nat -> R := fun c => a c + rsum n (fun k => xi k * e k c).
(** The tangent directions are unit vectors of space with [sd] coordinates. *)
Definition unit_directions (sd : nat) : Prop := forall k, (k < n)%N -> rsum sd (fun c => e k c * e k c) = 1.
(** Coordinate [c] of space is a direction of the hyperedge; it is constant on the hyperedge. *)
Definition along (c : nat) : Prop := rsum n (fun k => e k c * e k c) = 1.
Definition constant (c : nat) : Prop := forall k, (k < n)%N -> e k c = 0.
(** A coordinate is a direction of the hyperedge or has a constant value that is a multiple of 1/2. *)
Definition half_grid (sd : nat) : Prop := forall c, (c < sd)%N -> along c \/ constant c /\ exists z, a c = IZR z / 2.

(** q = - K grad u. *)
Definition flux_of (inv u : (nat -> R) -> R) (q : nat -> (nat -> R) -> R) : Prop :=
  forall d, (d < n)%N -> partial (fun xi => u (chart xi)) d (fun xi => - (inv (chart xi) * q d xi)).
(** - div (K grad u) = f, and with time derivative. *)
Definition elliptic (inv u f : (nat -> R) -> R) : Prop :=
  exists q, flux_of inv u q /\ divergence n q (fun xi => f (chart xi)).
Definition parabolic (inv u f : (nat -> R) -> R -> R) : Prop := exists ut,
  (forall x t, derivable_pt_lim (u x) t (ut x t)) /\
  forall t, elliptic (fun x => inv x t) (fun x => u x t) (fun x => f x t - ut x t).
(** - laplace u = inv w and - laplace w = f. *)
Definition biharmonic (inv u w f : (nat -> R) -> R) : Prop :=
  elliptic (fun=> 1) u (fun x => inv x * w x) /\ elliptic (fun=> 1) w f.
(** Tangential component of a vector of space. *)
Definition tangential (sd : nat) (v : nat -> R) (d : nat) : R := rsum sd (fun c => v c * e d c).
(** u_t + div (v u) = f. *)
Definition transport (sd : nat) (v : (nat -> R) -> R -> nat -> R) (u f : (nat -> R) -> R -> R) : Prop := exists ut,
  (forall x t, derivable_pt_lim (u x) t (ut x t)) /\
  forall t, divergence n (fun d xi => tangential sd (v (chart xi) t) d * u (chart xi) t)
    (fun xi => f (chart xi) t - ut (chart xi) t).
(** q = - K (grad u - v u), div q + c u = f at the points that satisfy [ok]. *)
Definition partial_on (ok : (nat -> R) -> Prop) (f : (nat -> R) -> R) (d : nat) (g : (nat -> R) -> R) : Prop :=
  forall xi, ok (chart xi) -> derivable_pt_lim (fun s => f (subst xi d s)) (xi d) (g xi).
Definition reactive (ok : (nat -> R) -> Prop) (sd : nat) (inv : (nat -> R) -> R) (v : (nat -> R) -> nat -> R) (c u f : (nat -> R) -> R) : Prop :=
  exists q dq, [/\ forall d, (d < n)%N -> partial_on ok (fun xi => u (chart xi)) d
      (fun xi => tangential sd (v (chart xi)) d * u (chart xi) - inv (chart xi) * q d xi),
    forall d, (d < n)%N -> partial_on ok (q d) d (dq d) &
    forall xi, ok (chart xi) -> rsum n (fun d => dq d xi) + c (chart xi) * u (chart xi) = f (chart xi)].
End Edge.
(** Directions of an [n]-dimensional hyperedge along the axes k, k+1, ... of space. *)
Definition axes (k : nat) : nat -> nat -> R := fun d c => if (k + d == c)%N then 1 else 0.
