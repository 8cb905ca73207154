(** Contract of the external library TPP for integrals over hyperedges with affine geometry (submodule
    tensor_product_polynomials, not part of /repo; used by diffusion_ldgh.hxx). *)
From mathcomp Require Import all_ssreflect all_algebra.
From Verif Require Import S_Hdg S_Tpp S_LocalSolver M_Diffusion S_Diffusion.
Set Implicit Arguments. Unset Strict Implicit. Unset Printing Implicit Defensive.
Import GRing.Theory.
Local Open Scope ring_scope.

Section Geo.
Variable F : realFieldType.

(** What the local solver and TPP ask of a geometry: mat_r(), area(), face_area(f), local_normal(f)[d]. *)
Record edge_geo (dim : nat) := EdgeGeo {
  eg_R : 'M[F]_dim; eg_area : F; eg_face : nat -> F; eg_normal : nat -> nat -> F }.
(** The normals weighted by the face areas are the columns of area * R^-T: the outward normals of the
    parallelotope spanned by the columns of R. *)
Definition geo_ok (dim : nat) (g : edge_geo dim) : Prop :=
  [/\ eg_R g \in unitmx, 0 < eg_area g, forall f, (f < 2 * dim)%N -> 0 < eg_face g f
    & forall (k d : 'I_dim) (s : bool), eg_face g (2 * k + s) * eg_normal g (2 * k + s) d =
        (if s then 1 else -1) * (eg_area g * (invmx (eg_R g)) k d)].

(** One-dimensional quadrature with Q points xs and positive weights ws, exact for products of the n shape
    functions. *)
Definition quad_ok (n : nat) (b : nat -> {poly F}) (Q : nat) (xs ws : nat -> F) : Prop :=
  (forall s, (s < Q)%N -> 0 < ws s) /\
  forall i j, (i < n)%N -> (j < n)%N ->
    \sum_(s < Q) ws s * ((b i).[xs s] * (b j).[xs s]) = integ (b i * b j).
(** Shape function i at quadrature point s and the weight of that point, in dim dimensions. *)
Definition shape_at (n : nat) (b : nat -> {poly F}) (Q : nat) (xs : nat -> F) (dim i s : nat) : F :=
  \prod_(d < dim) (b (dig n i d)).[xs (dig Q s d)].
Definition quad_weight (Q : nat) (ws : nat -> F) (dim s : nat) : F := \prod_(d < dim) ws (dig Q s d).

(** The integrals of D are those of TPP for the geometry g; kappa s is the inverse diffusion coefficient at
    (the image of) quadrature point s. *)
Definition tpp_contract (b : nat -> {poly F}) (dim p Q : nat) (xs ws kappa : nat -> F)
    (g : edge_geo dim) (D : df_data F) : Prop :=
  let n := (p + 1)%N in
  [/\ forall i j : 'I_(n ^ dim), df_vol D i j = eg_area g *
        (\sum_(s < Q ^ dim) quad_weight Q ws dim s * kappa s *
           (shape_at n b Q xs dim i s * shape_at n b Q xs dim j s)),
      forall i j : 'I_(n ^ dim), df_mass D i j = eg_area g * vol_phiphi n b dim i j,
      forall (i j : 'I_(n ^ dim)) (d : 'I_dim), df_grad D i j d =
        eg_area g * (\sum_(k < dim) invmx (eg_R g) k d * vol_Dphiphi n b dim i j k),
      forall (i : 'I_(n ^ dim)) (f : 'I_(2 * dim)),
        (forall j : 'I_(n ^ dim), df_bb D i j f = eg_face g f * bdr_phiphi n b dim i j f) /\
        (forall j : 'I_(n ^ (dim - 1)), df_bp D i j f = eg_face g f * bdr_phipsi n b dim i j f)
    & forall f : 'I_(2 * dim), df_area D f = eg_face g f /\
        forall d : 'I_dim, df_normal D f d = eg_normal g f d].
End Geo.

(** The data of a hyperedge: the integrals of TPP for some affine geometry, some orthonormal basis of
    polynomials of degree p, some exact quadrature and a positive diffusion coefficient. *)
Definition diffusion_data (F : realFieldType) (dim p : nat) (D : df_data F) : Prop :=
  exists (b : nat -> {poly F}) (Q : nat) (xs ws kappa : nat -> F) (g : edge_geo F dim),
    [/\ orthonormal_basis (p + 1) b, quad_ok (p + 1) b Q xs ws,
        forall s, (s < Q ^ dim)%N -> 0 < kappa s, geo_ok g & tpp_contract b p Q xs ws kappa g D].
