(** Contract of the external library TPP (submodule tensor_product_polynomials, not part of /repo;
    used by the local solvers through TPP::Quadrature::Tensorial).  The one-dimensional shape
    functions are polynomials b 0, b 1, ... on [0,1]; shape function i of a dim-dimensional
    hypercube is the product of the b (digit of i); face 2k+s is the part with x_k = s.
    The integrals are the exact ones. *)
From mathcomp Require Import all_ssreflect all_algebra.
Set Implicit Arguments. Unset Strict Implicit. Unset Printing Implicit Defensive.
Local Open Scope ring_scope.

Section Tpp.
Variable F : fieldType.

(** The integral of a polynomial over [0,1]. *)
Definition integ (p : {poly F}) : F := \sum_(i < size p) p`_i / i.+1%:R.

(** Orthonormal polynomials of degree 0, 1, ..., n-1 starting with the constant 1 (the Legendre
    polynomials of [0,1]). *)
Definition orthonormal_basis (n : nat) (b : nat -> {poly F}) : Prop :=
  [/\ b 0%N = 1, forall i, (i < n)%N -> size (b i) = i.+1
    & forall i j, (i < n)%N -> (j < n)%N -> integ (b i * b j) = (i == j)%:R].

(** Component d of the multi-index with number i. *)
Definition dig (n i d : nat) : nat := ((i %/ n ^ d) %% n)%N.

Variables (n : nat) (b : nat -> {poly F}).
Definition phi1 (i j : nat) : F := integ (b i * b j).
Definition dphi1 (i j : nat) : F := integ ((b i)^`() * b j).
(** Integral over the unit hypercube of phi_i phi_j. *)
Definition vol_phiphi (dim i j : nat) : F :=
  \prod_(d < dim) phi1 (dig n i d) (dig n j d).
(** Integral over the unit hypercube of (d/dx_k phi_i) phi_j. *)
Definition vol_Dphiphi (dim i j k : nat) : F :=
  \prod_(d < dim) (if d == k :> nat then dphi1 (dig n i d) (dig n j d)
                   else phi1 (dig n i d) (dig n j d)).
(** Integral over a face of phi_i phi_j. *)
Definition bdr_phiphi (dim i j face : nat) : F :=
  \prod_(d < dim) (if d == (face %/ 2)%N :> nat
                   then (b (dig n i d)).[(face %% 2)%N%:R] * (b (dig n j d)).[(face %% 2)%N%:R]
                   else phi1 (dig n i d) (dig n j d)).
(** Integral over a face of phi_i times the j-th shape function of the face; the face's
    coordinates are those of the hypercube without the one fixed on the face. *)
Definition bdr_phipsi (dim i j face : nat) : F :=
  \prod_(d < dim) (if d == (face %/ 2)%N :> nat then (b (dig n i d)).[(face %% 2)%N%:R]
                   else phi1 (dig n i d) (dig n j (d - (face %/ 2 < d))%N)).
End Tpp.
