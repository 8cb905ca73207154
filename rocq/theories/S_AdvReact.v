(** Vocabulary for the local solver DiffusionAdvectionReaction. *)
From mathcomp Require Import all_ssreflect all_algebra.
From Verif Require Import S_Hdg S_Tpp S_LocalSolver M_Base M_Diffusion S_Diffusion S_TppGeo M_AdvReact.
Set Implicit Arguments. Unset Strict Implicit. Unset Printing Implicit Defensive.
Import GRing.Theory Num.Theory.
Local Open Scope ring_scope.

Section Local.
Variable F : realFieldType.
Variables (nf nb dim nF : nat) (h : hdg F nf nb dim nF) (tau : F).
(** The matrices of the advection in each direction and of the reaction. *)
Variables (A : 'I_dim -> 'M[F]_nf) (R : 'M[F]_nf).
Implicit Types (q rq : 'I_dim -> 'cV[F]_nf) (u ru : 'cV[F]_nf) (x : 'I_nF -> 'cV[F]_nb).
(** The local problem: q is the total flux (diffusive and advective), u loses mass by the reaction. *)
Definition adv_loc q u x rq ru : Prop :=
  (forall d, hM h *m q d - A d *m u - hD h d *m u = - (\sum_f hnu h f d *: (hE h f *m x f)) + rq d)%R /\
  (\sum_d ((- hD h d + \sum_f hnu h f d *: hB h f) *m q d) + tau *: (\sum_f (hB h f *m u)) + R *m u =
   tau *: (\sum_f (hE h f *m x f)) + ru)%R.
(** With zero traces and no source, only the zero solution. *)
Definition adv_regular : Prop :=
  forall q u, adv_loc q u (fun=> 0) (fun=> 0) 0 -> (forall d, q d = 0) /\ u = 0.
(** Diffusion, advection and reaction in the bulk. *)
Definition bulk_form q u : F :=
  \sum_d dotv (q d) (hM h *m q d) - \sum_d dotv (q d) (A d *m u) + dotv u (R *m u).
(** How far the traces are from the values of u, face by face. *)
Definition trace_jump u x : F :=
  \sum_f (ha h f)^-1 * dotv ((hE h f)^T *m u - ha h f *: x f) ((hE h f)^T *m u - ha h f *: x f).
(** The outflow of a wind w through face f, per area. *)
Definition outflow (w : 'I_dim -> F) (f : 'I_nF) : F := \sum_d hnu h f d * w d.
End Local.

Section AdvReact.
Variable F : realFieldType.
Variables (dim p : nat) (dirs : seq nat) (tau : F).
Notation nf := ((p + 1) ^ dim)%N.
Notation nb := ((p + 1) ^ (dim - 1))%N.
Implicit Types (P : ar_data F) (t : F) (x y : seq (seq F)) (q rq : 'I_dim -> 'cV[F]_nf) (u ru : 'cV[F]_nf).

Definition ar_hdg P t := df_hdg dim p (ar_df P t).
Definition ar_mask P t (f : nat) : bool := nth 0%N (df_types (ar_df P t)) f \in dirs.
Definition ar_A P (d : 'I_dim) : 'M[F]_nf := \matrix_(i, j) ar_adv P 0 i j d.
Definition ar_R P t : 'M[F]_nf := \matrix_(i, j) ar_react P t i j.
(** The local problem of a hyperedge at time t; the velocity is the one at time 0. *)
Definition ar_loc P t q u (x : 'I_(2 * dim) -> 'cV[F]_nb) rq ru : Prop :=
  adv_loc (ar_hdg P t) tau (ar_A P) (ar_R P t) q u x rq ru.
Definition ar_regular P t : Prop := adv_regular (ar_hdg P t) tau (ar_A P) (ar_R P t).
(** The local problem with source and Dirichlet values. *)
Definition ar_full P t x q u : Prop :=
  ar_loc P t q u (tr nb x) (df_rq p (ar_df P t) (ar_mask P t)) (df_ru dim p (ar_df P t) tau (ar_mask P t)).
(** y holds the numerical flux of (q, u, x), and 0 on Dirichlet faces. *)
Definition ar_flux_of P t x q u y : Prop :=
  is_trace (2 * dim) nb y /\ forall f : 'I_(2 * dim), tr nb y f =
    if ar_mask P t f then 0 else num_flux (ar_hdg P t) tau q u (tr nb x) f.

(** The integrals at time t are those of TPP for some affine geometry g, with the values kappa, vel, rho of the
    inverse diffusion coefficient, of the velocity (over the diffusion coefficient) and of the reaction rate at the
    quadrature points. *)
Definition ar_contract (b : nat -> {poly F}) (Q : nat) (xs ws : nat -> F) (kappa rho : nat -> F) (vel : nat -> nat -> F)
    (g : edge_geo F dim) P t : Prop :=
  [/\ tpp_contract b p Q xs ws kappa g (ar_df P t),
      forall i j : 'I_nf, ar_react P t i j = eg_area g * (\sum_(s < Q ^ dim) quad_weight Q ws dim s * rho s *
        (shape_at (p + 1) b Q xs dim i s * shape_at (p + 1) b Q xs dim j s))
    & forall (i j : 'I_nf) (d : 'I_dim), ar_adv P 0 i j d = eg_area g *
        (\sum_(s < Q ^ dim) quad_weight Q ws dim s * vel s d *
        (shape_at (p + 1) b Q xs dim i s * shape_at (p + 1) b Q xs dim j s))].
Definition ar_integrals (ok : nat -> (nat -> F) -> (nat -> F) -> (nat -> nat -> F) -> edge_geo F dim -> Prop) P t : Prop :=
  exists (b : nat -> {poly F}) (Q : nat) (xs ws kappa rho : nat -> F) (vel : nat -> nat -> F) (g : edge_geo F dim),
    [/\ orthonormal_basis (p + 1) b, quad_ok (p + 1) b Q xs ws,
        forall s, (s < Q ^ dim)%N -> 0 < kappa s, geo_ok g
      & ar_contract b Q xs ws kappa rho vel g P t /\ ok (Q ^ dim)%N kappa rho vel g].
(** At each point the velocity is small against diffusion and reaction, or there is no velocity. *)
Definition small_velocity (n : nat) (kappa rho : nat -> F) (vel : nat -> nat -> F) (g : edge_geo F dim) : Prop :=
  forall s, (s < n)%N -> \sum_(d < dim) vel s d ^+ 2 < 4%:R * kappa s * rho s \/
    ((forall d, (d < dim)%N -> vel s d = 0) /\ 0 <= rho s).
(** The wind (the velocity times the diffusion coefficient) w is the same in the whole hyperedge, there is no
    production, and tau exceeds half the inflow. *)
Definition steady_wind (w : nat -> F) (n : nat) (kappa rho : nat -> F) (vel : nat -> nat -> F) (g : edge_geo F dim) : Prop :=
  [/\ forall s d, (s < n)%N -> (d < dim)%N -> vel s d = kappa s * w d, forall s, (s < n)%N -> 0 <= rho s
    & forall f, (f < 2 * dim)%N -> 0 < tau + (\sum_(d < dim) eg_normal g f d * w d) / 2%:R].
Definition ar_small P t := ar_integrals small_velocity P t.
Definition ar_wind (w : nat -> F) P t := ar_integrals (steady_wind w) P t.
(** Either of the two cases; in the first one w is not used. *)
Definition ar_stable (w : nat -> F) P t : Prop :=
  [/\ 0 < tau, forall d, w d = 0 & ar_small P t] \/ ar_wind w P t.
(** Outflow of the wind w through a face. *)
Definition face_outflow (w : nat -> F) P t (f : nat) : F :=
  df_area (ar_df P t) f * (\sum_(d < dim) df_normal (ar_df P t) f d * w d).
End AdvReact.
Arguments ar_hdg {F} dim p P t.
Arguments ar_mask {F} dirs P t f.
Arguments ar_loc {F} dim p tau P t q u x rq ru.
Arguments ar_regular {F} dim p tau P t.
Arguments ar_full {F} dim p dirs tau P t x q u.
Arguments ar_flux_of {F} dim p dirs tau P t x q u y.
Arguments ar_small {F} dim p P t.
Arguments ar_wind {F} dim p tau w P t.
Arguments ar_stable {F} dim p tau w P t.
Arguments face_outflow {F} dim w P t f.
