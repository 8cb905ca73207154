(** Gradients of shape functions on affine hyperedges (contract of the external library TPP, continued). *)
From mathcomp Require Import all_ssreflect all_algebra.
From Verif Require Import S_Hdg S_Tpp S_TppGeo.
Set Implicit Arguments. Unset Strict Implicit. Unset Printing Implicit Defensive.
Local Open Scope ring_scope.

Section Gradient.
Variable F : realFieldType.
(** n one-dimensional functions, basis, points per direction, points, weights, geometry. *)
Variables (dim n : nat) (b : nat -> {poly F}) (Q : nat) (xs ws : nat -> F) (g : edge_geo F dim).

(** The derivative of shape function i in reference direction k, at quadrature point s. *)
Definition dshape_at (i k s : nat) : F :=
  \prod_(d < dim) (if d == k :> nat then (b (dig n i d))^`().[xs (dig Q s d)] else (b (dig n i d)).[xs (dig Q s d)]).
(** Component d of its gradient on the hyperedge. *)
Definition grad_at (i : nat) (d : 'I_dim) (s : nat) : F :=
  \sum_(k < dim) invmx (eg_R g) k d * dshape_at i k s.
(** The function with coefficients v, and its gradient, at quadrature point s. *)
Definition fn_at (v : 'cV[F]_(n ^ dim)) (s : nat) : F := \sum_i v i 0 * shape_at n b Q xs dim i s.
Definition fn_grad (v : 'cV[F]_(n ^ dim)) (d : 'I_dim) (s : nat) : F := \sum_i v i 0 * grad_at i d s.
(** Integral of coef (grad phi_i) . (grad phi_j) over the hyperedge. *)
Definition vol_stiffness (coef : nat -> F) (i j : nat) : F :=
  eg_area g * (\sum_(s < Q ^ dim) quad_weight Q ws dim s * coef s * (\sum_(d < dim) grad_at i d s * grad_at j d s)).
(** Integral over the unit hypercube of (d/dx_k phi_i) phi'_j, where phi' are the shape functions formed with
    the first m basis functions only. *)
Definition mixed_Dphiphi (m i j k : nat) : F :=
  \prod_(d < dim) (if d == k :> nat then dphi1 b (dig n i d) (dig m j d) else phi1 b (dig n i d) (dig m j d)).
End Gradient.
