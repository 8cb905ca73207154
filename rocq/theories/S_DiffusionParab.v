(** Vocabulary for the local solver DiffusionParab. *)
From mathcomp Require Import all_ssreflect all_algebra.
From Verif Require Import S_Hdg S_Tpp S_LocalSolver M_Base M_DenseLA M_DiffusionUniform M_Diffusion S_Diffusion S_TppGeo.
From Verif Require Import M_DiffusionParab.
Set Implicit Arguments. Unset Strict Implicit. Unset Printing Implicit Defensive.
Import GRing.Theory.
Local Open Scope ring_scope.

Section Theta.
Variable F : realFieldType.
Variables (nf nb dim nF : nat) (h : hdg F nf nb dim nF) (tau : F).
Implicit Types (q rq : 'I_dim -> 'cV[F]_nf) (u ru : 'cV[F]_nf) (x : 'I_nF -> 'cV[F]_nb).
(** q is the flux of (u, x): first equation of the local problem. *)
Definition grad_eq q u x rq : Prop :=
  forall d, hM h *m q d - hD h d *m u = - (\sum_f hnu h f d *: (hE h f *m x f)) + rq d.
(** The defect of the second equation: what drives u in time. *)
Definition rate q u x ru : 'cV[F]_nf :=
  ru + tau *: (\sum_f (hE h f *m x f)) -
  (\sum_d ((- hD h d + \sum_f hnu h f d *: hB h f) *m q d) + tau *: (\sum_f (hB h f *m u))).
(** One step of the one-step-theta scheme from u_old with rate r_old. *)
Definition theta_step (m : 'M[F]_nf) (theta dt : F) q u x rq ru (u_old r_old : 'cV[F]_nf) : Prop :=
  grad_eq q u x rq /\
  m *m (u - u_old) = dt *: (theta *: rate q u x ru + (1 - theta) *: r_old).
End Theta.

Section Parab.
Variable F : realFieldType.
Variables (dim p : nat) (dirs : seq nat) (tau theta dt : F).
Notation nf := ((p + 1) ^ dim)%N.
Notation nb := ((p + 1) ^ (dim - 1))%N.
Implicit Types (P : dp_data F) (S : dp_state F) (x : seq (seq F)).
Implicit Types (q : 'I_dim -> 'cV[F]_nf) (u : 'cV[F]_nf).

(** Coefficient arrays as vectors. *)
Definition vec_of n (v : seq F) : 'cV[F]_n := \col_i nth 0 v i.
Definition dp_hdg P := df_hdg dim p (dp_df P).
Definition dp_mask P (f : nat) : bool := nth 0%N (df_types (dp_df P)) f \in dirs.
(** Old values, and the old rate: the stored one plus the Dirichlet values of the old time. *)
Definition old_u S : 'cV[F]_nf := vec_of nf (dp_u_old S).
Definition old_rate P S : 'cV[F]_nf :=
  vec_of nf (dp_flux_old S) + tau *: (\sum_(f < 2 * dim | dp_mask P f) (\col_i dp_dirold P i f)).
Definition state_ok S : Prop :=
  [/\ size (dp_u_old S) = nf, size (dp_flux_old S) = nf & size (dp_bdr_old S) = (nb * (2 * dim))%N].
(** q, u is the step with traces x, sources and Dirichlet values of P from the state S. *)
Definition step_of P S x q u : Prop :=
  theta_step (dp_hdg P) tau (dp_area P)%:M theta dt q u (tr nb x) (df_rq p (dp_df P) (dp_mask P))
    (df_ru dim p (dp_df P) tau (dp_mask P)) (old_u S) (old_rate P S).
(** The step without sources, Dirichlet values and old values. *)
Definition hom_step P x q u : Prop :=
  theta_step (dp_hdg P) tau (dp_area P)%:M theta dt q u (tr nb x) (fun=> 0) 0 0 0.
(** Boundary fluxes stored in S. *)
Definition old_flux S (f : nat) : 'cV[F]_nb := \col_j mget nb (dp_bdr_old S) j f.
(** y holds theta times the numerical flux of (q, u, x), plus (1 - theta) times the stored flux, and
    0 on Dirichlet faces. *)
Definition flux_of P x q u y : Prop :=
  is_trace (2 * dim) nb y /\ forall f : 'I_(2 * dim), tr nb y f =
    if dp_mask P f then 0 else theta *: num_flux (dp_hdg P) tau q u (tr nb x) f.
Definition mixed_flux_of P S x q u y : Prop :=
  is_trace (2 * dim) nb y /\ forall f : 'I_(2 * dim), tr nb y f =
    if dp_mask P f then 0 else theta *: num_flux (dp_hdg P) tau q u (tr nb x) f + (1 - theta) *: old_flux S f.
(** S holds u, the rate and the boundary fluxes of (q, u, x) at the time of P. *)
Definition stored P x q u S : Prop :=
  [/\ state_ok S, old_u S = u,
      vec_of nf (dp_flux_old S) = rate (dp_hdg P) tau q u (tr nb x) (df_src_vec dim p (dp_df P))
    & forall f : 'I_(2 * dim), old_flux S f =
        if dp_mask P f then 0 else num_flux (dp_hdg P) tau q u (tr nb x) f].
End Parab.
Arguments old_u {F} dim p S.
Arguments old_rate {F} dim p dirs tau P S.
Arguments state_ok {F} dim p S.
Arguments step_of {F} dim p dirs tau theta dt P S x q u.
Arguments hom_step {F} dim p tau theta dt P x q u.
Arguments old_flux {F} dim p S f.
Arguments flux_of {F} dim p dirs tau theta P x q u y.
Arguments mixed_flux_of {F} dim p dirs tau theta P S x q u y.
Arguments stored {F} dim p dirs tau P x q u S.


(** The data of a hyperedge, as in diffusion_data, with the area of the same geometry. *)
Definition parab_data (F : realFieldType) (dim p : nat) (P : dp_data F) : Prop :=
  exists (b : nat -> {poly F}) (Q : nat) (xs ws kappa : nat -> F) (g : edge_geo F dim),
    [/\ orthonormal_basis (p + 1) b, quad_ok (p + 1) b Q xs ws,
        forall s, (s < Q ^ dim)%N -> 0 < kappa s, geo_ok g
      & tpp_contract b p Q xs ws kappa g (dp_df P) /\ dp_area P = eg_area g].

(** The initial flux: mass matrix times component d = integral of the initial value against the
    derivatives, minus the boundary terms. *)
Definition init_flux (F : realFieldType) (dim p : nat) (P : dp_data F) (q : 'I_dim -> 'cV[F]_((p + 1) ^ dim)) : Prop :=
  forall d, hM (dp_hdg dim p P) *m q d =
    \col_i (dp_init_der P i d - \sum_(f < 2 * dim) dp_init_bdr P i f * hnu (dp_hdg dim p P) f d).
