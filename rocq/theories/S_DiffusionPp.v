(** Vocabulary for the local solver DiffusionPostprocess. *)
From mathcomp Require Import all_ssreflect all_algebra.
From Verif Require Import S_Hdg S_Tpp S_LocalSolver M_Diffusion S_Diffusion S_TppGeo S_Gradient M_DiffusionPp.
Set Implicit Arguments. Unset Strict Implicit. Unset Printing Implicit Defensive.
Import GRing.Theory.
Local Open Scope ring_scope.

Section Pp.
Variable F : realFieldType.
Variables (dim p : nat).
Notation nf := ((p + 1) ^ dim)%N.
Notation npp := ((p + 1 + 1) ^ dim)%N.

(** The integrals of the second integrator for the geometry g; coef s is the diffusion coefficient at
    quadrature point s. *)
Definition pp_contract (b : nat -> {poly F}) (Q : nat) (xs ws coef : nat -> F) (g : edge_geo F dim)
    (P : pp_data F) : Prop :=
  [/\ forall i j : 'I_npp, pp_stiff P i j = vol_stiffness (p + 1 + 1) b Q xs ws g coef i j,
      pp_vol00 P = eg_area g * vol_phiphi (p + 1 + 1) b dim 0 0
    & forall (i : 'I_npp) (j : 'I_nf) (d : 'I_dim), pp_grad P i j d =
        eg_area g * (\sum_(k < dim) invmx (eg_R g) k d * mixed_Dphiphi dim (p + 1 + 1) b (p + 1) i j k)].
(** Both integrators, with one basis: polynomials b 0, ..., b (p + 1); p + 1 + 1 one-dimensional functions
    for the post-processing. *)
Record pp_setting := PpSetting {
  st_b : nat -> {poly F};
  st_Q : nat; st_xs : nat -> F; st_ws : nat -> F; st_kappa : nat -> F;
  st_Qp : nat; st_xp : nat -> F; st_wp : nat -> F; st_coef : nat -> F; st_geo : edge_geo F dim }.
Definition setting_ok (S : pp_setting) (P : pp_data F) : Prop :=
  [/\ orthonormal_basis (p + 1 + 1) (st_b S), geo_ok (st_geo S),
      quad_ok (p + 1) (st_b S) (st_Q S) (st_xs S) (st_ws S) /\
        forall s, (s < st_Q S ^ dim)%N -> 0 < st_kappa S s,
      quad_ok (p + 1 + 1) (st_b S) (st_Qp S) (st_xp S) (st_wp S) /\
        forall s, (s < st_Qp S ^ dim)%N -> 0 < st_coef S s
    & tpp_contract (st_b S) p (st_Q S) (st_xs S) (st_ws S) (st_kappa S) (st_geo S) (pp_df P) /\
      pp_contract (st_b S) (st_Qp S) (st_xp S) (st_wp S) (st_coef S) (st_geo S) P].
(** v is a post-processed solution for the flux q and the solution u: it has the mean of u, and its diffusive
    flux tests with gradients of polynomials of degree p + 1 as q does. *)
Definition postprocessed (P : pp_data F) (q : 'I_dim -> 'cV[F]_nf) (u : 'cV[F]_nf) (v : 'cV[F]_npp) : Prop :=
  nth 0 (coeffs_of v) 0 = nth 0 (coeffs_of u) 0 /\
  forall i : 'I_npp, \sum_(j < npp) pp_stiff P i j * v j 0 = - (\sum_(d < dim) \sum_(j < nf) pp_grad P i j d * q d j 0).
(** The coefficients of the constant c. *)
Definition const_fn (n : nat) (c : F) : 'cV[F]_n := \col_i (if i == 0%N :> nat then c else 0).
End Pp.
