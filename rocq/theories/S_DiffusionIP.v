(** Vocabulary for the local solver DiffusionIP. *)
From mathcomp Require Import all_ssreflect all_algebra.
From Verif Require Import S_Hdg S_Tpp S_LocalSolver S_TppGeo S_Gradient M_DiffusionIP.
Set Implicit Arguments. Unset Strict Implicit. Unset Printing Implicit Defensive.
Import GRing.Theory Num.Theory.
Local Open Scope ring_scope.

Section Faces.
Variable F : realFieldType.
(** n one-dimensional functions, basis, points per direction, points, weights, geometry. *)
Variables (dim n : nat) (b : nat -> {poly F}) (Q : nat) (xs ws : nat -> F) (g : edge_geo F dim).
(** Coordinate d of quadrature point s on face f. *)
Definition face_coord (f s d : nat) : F :=
  if d == (f %/ 2)%N then (f %% 2)%N%:R else xs (dig Q s (d - (f %/ 2 < d))%N).
(** Shape function i at that point, its derivative in reference direction k, its normal derivative. *)
Definition fshape_at (i f s : nat) : F := \prod_(d < dim) (b (dig n i d)).[face_coord f s d].
Definition fdshape_at (i k f s : nat) : F :=
  \prod_(d < dim) (if d == k :> nat then (b (dig n i d))^`().[face_coord f s d] else (b (dig n i d)).[face_coord f s d]).
Definition fnormal_at (i f s : nat) : F :=
  \sum_(d < dim) eg_normal g f d * (\sum_(k < dim) invmx (eg_R g) k d * fdshape_at i k f s).
(** Integral over face f of coef (grad phi_i . nu) times phi_j, or times face function j. *)
Definition bdr_nphiphi (coef : nat -> nat -> F) (i j f : nat) : F :=
  eg_face g f * (\sum_(s < Q ^ (dim - 1)) quad_weight Q ws (dim - 1) s * coef f s * (fnormal_at i f s * fshape_at j f s)).
Definition bdr_nphipsi (coef : nat -> nat -> F) (i j f : nat) : F :=
  eg_face g f * (\sum_(s < Q ^ (dim - 1)) quad_weight Q ws (dim - 1) s * coef f s *
    (fnormal_at i f s * shape_at n b Q xs (dim - 1) j s)).
(** The function with coefficients v and its normal derivative there; a function on the face. *)
Definition face_fn (v : 'cV[F]_(n ^ dim)) (f s : nat) : F := \sum_i v i 0 * fshape_at i f s.
Definition face_normal (v : 'cV[F]_(n ^ dim)) (f s : nat) : F := \sum_i v i 0 * fnormal_at i f s.
Definition trace_fn (y : 'cV[F]_(n ^ (dim - 1))) (s : nat) : F := \sum_k y k 0 * shape_at n b Q xs (dim - 1) k s.
(** The weak form: for every v, the integral of cv grad u . grad v over the hyperedge, minus that of
    cb (grad u . nu) v, plus tau times that of (u - x) v over the faces, is r(v). *)
Definition ip_weak (tau : F) (cv : nat -> F) (cb : nat -> nat -> F) (u : 'cV[F]_(n ^ dim))
    (x : 'I_(2 * dim) -> 'cV[F]_(n ^ (dim - 1))) (r : 'cV[F]_(n ^ dim)) : Prop :=
  forall v : 'cV[F]_(n ^ dim),
    eg_area g * (\sum_(s < Q ^ dim) quad_weight Q ws dim s * cv s * (\sum_d fn_grad b Q xs g v d s * fn_grad b Q xs g u d s))
    - \sum_(f < 2 * dim) eg_face g f * (\sum_(s < Q ^ (dim - 1)) quad_weight Q ws (dim - 1) s * cb f s * (face_normal u f s * face_fn v f s))
    + tau * (\sum_(f < 2 * dim) eg_face g f * (\sum_(s < Q ^ (dim - 1)) quad_weight Q ws (dim - 1) s *
        ((face_fn u f s - trace_fn (x f) s) * face_fn v f s)))
    = dotv v r.
(** Minus the normal flux plus tau times the jump, tested with y on face f. *)
Definition ip_weak_flux (tau : F) (cb : nat -> nat -> F) (u : 'cV[F]_(n ^ dim)) (x : 'I_(2 * dim) -> 'cV[F]_(n ^ (dim - 1)))
    (y : 'cV[F]_(n ^ (dim - 1))) (f : 'I_(2 * dim)) : F :=
  eg_face g f * (\sum_(s < Q ^ (dim - 1)) quad_weight Q ws (dim - 1) s *
    ((- (cb f s * face_normal u f s) + tau * (face_fn u f s - trace_fn (x f) s)) * trace_fn y s)).
End Faces.

Section Local.
Variable F : realFieldType.
Variables (dim p : nat) (dirs : seq nat) (tau : F).
Notation nf := ((p + 1) ^ dim)%N.
Notation nb := ((p + 1) ^ (dim - 1))%N.
Implicit Types (P : ip_data F) (t : F) (x y : seq (seq F)) (u r : 'cV[F]_nf) (f : 'I_(2 * dim)).

(** Stiffness at time t; face matrices; the normal flux tested by bulk and by face functions, with the diffusion
    coefficient of time 0. *)
Definition ip_S P t : 'M[F]_nf := \matrix_(i, j) ip_stiff P t i j.
Definition ip_B P f : 'M[F]_nf := \matrix_(i, j) ip_bb P i j f.
Definition ip_E P f : 'M[F]_(nf, nb) := \matrix_(i, j) ip_bp P i j f.
Definition ip_N P f : 'M[F]_nf := \matrix_(i, j) ip_nbb P 0 j i f.
Definition ip_G P f : 'M[F]_(nb, nf) := \matrix_(j, i) ip_nbp P 0 i j f.
(** The local problem with traces x and right-hand side r: (a grad u, grad v) minus the normal flux on the faces plus
    tau times the jump to the traces. *)
Definition ip_loc P t u (x : 'I_(2 * dim) -> 'cV[F]_nb) r : Prop :=
  ip_S P t *m u - \sum_f ip_N P f *m u + tau *: (\sum_f ip_B P f *m u) = tau *: (\sum_f ip_E P f *m x f) + r.
Definition ip_regular P t : Prop := forall u, ip_loc P t u (fun=> 0) 0 -> u = 0.
(** The numerical flux: minus the normal derivative plus tau times the jump. *)
Definition ip_num_flux P u (x : 'I_(2 * dim) -> 'cV[F]_nb) f : 'cV[F]_nb :=
  - (ip_G P f *m u) + tau *: ((ip_E P f)^T *m u - ip_area P f *: x f).
Definition ip_mask P (f : nat) : bool := nth 0%N (ip_types P) f \in dirs.
(** Right-hand side from source and Dirichlet values. *)
Definition ip_rhs P t : 'cV[F]_nf :=
  \col_i (ip_src P t i + tau * (\sum_(f < 2 * dim | ip_mask P f) ip_dirval P t i f)).
Definition ip_flux_of P x u y : Prop :=
  is_trace (2 * dim) nb y /\ forall f, tr nb y f = if ip_mask P f then 0 else ip_num_flux P u (tr nb x) f.

(** The normal fluxes of a function are bounded by its energy. *)
Definition ip_bound (C : F) P t : Prop :=
  forall u, \sum_(f < 2 * dim) (ip_area P f)^-1 * dotv (ip_G P f *m u) (ip_G P f *m u) <= C * dotv u (ip_S P t *m u).

(** The integrals are those of TPP for an affine geometry g; diffusion coefficient cv at the quadrature points of the
    hyperedge at time t, cb at those of the faces at time 0. *)
Definition ip_contract (b : nat -> {poly F}) (Q : nat) (xs ws cv : nat -> F) (cb : nat -> nat -> F)
    (g : edge_geo F dim) P t : Prop :=
  [/\ forall i j : 'I_nf, ip_stiff P t i j = vol_stiffness (p + 1) b Q xs ws g cv i j,
      forall (i j : 'I_nf) f, ip_bb P i j f = eg_face g f * bdr_phiphi (p + 1) b dim i j f /\
        ip_nbb P 0 i j f = bdr_nphiphi (p + 1) b Q xs ws g cb i j f,
      forall (i : 'I_nf) (j : 'I_nb) f, ip_bp P i j f = eg_face g f * bdr_phipsi (p + 1) b dim i j f /\
        ip_nbp P 0 i j f = bdr_nphipsi (p + 1) b Q xs ws g cb i j f
    & forall f, ip_area P f = eg_face g f].
Definition ip_integrals (ok : (nat -> {poly F}) -> nat -> (nat -> F) -> (nat -> F) -> (nat -> nat -> F) -> edge_geo F dim -> Prop) P t : Prop :=
  exists (b : nat -> {poly F}) (Q : nat) (xs ws cv : nat -> F) (cb : nat -> nat -> F) (g : edge_geo F dim),
    [/\ orthonormal_basis (p + 1) b, quad_ok (p + 1) b Q xs ws, forall s, (s < Q ^ dim)%N -> 0 < cv s, geo_ok g
      & ip_contract b Q xs ws cv cb g P t /\ ok b Q xs cv cb g].
Definition ip_ok P t := ip_integrals (fun _ _ _ _ _ _ => True) P t.

(** The penalty exceeds a quarter of a bound of the normal fluxes. *)
Definition ip_stable P t : Prop := [/\ 0 < tau, ip_ok P t & exists2 C, ip_bound C P t & C < 4%:R * tau].

(** The diffusion coefficient is c in the hyperedge at time t and c0 on the faces at time 0; u is an affine function
    with gradient gamma, whose flux out of face f is out f per area and unit of the coefficient. *)
Definition ip_affine (c c0 : F) (u : 'cV[F]_nf) (gamma out : nat -> F) P t : Prop :=
  ip_integrals (fun b Q xs cv cb g =>
    [/\ forall s, (s < Q ^ dim)%N -> cv s = c, forall f s, (s < Q ^ (dim - 1))%N -> cb f s = c0,
        forall (d : 'I_dim) s, (s < Q ^ dim)%N -> fn_grad b Q xs g u d s = gamma d
      & forall f, out f = \sum_(d < dim) eg_normal g f d * gamma d]) P t.
(** The trace of u: on each face the projection to the face functions. *)
Definition ip_trace P u f : 'cV[F]_nb := (ip_area P f)^-1 *: ((ip_E P f)^T *m u).
End Local.
Arguments ip_S {F} dim p P t.
Arguments ip_B {F} dim p P f.
Arguments ip_E {F} dim p P f.
Arguments ip_N {F} dim p P f.
Arguments ip_G {F} dim p P f.
Arguments ip_loc {F} dim p tau P t u x r.
Arguments ip_regular {F} dim p tau P t.
Arguments ip_num_flux {F} dim p tau P u x f.
Arguments ip_mask {F} dirs P f.
Arguments ip_rhs {F} dim p dirs tau P t.
Arguments ip_flux_of {F} dim p dirs tau P x u y.
Arguments ip_bound {F} dim p C P t.
Arguments ip_ok {F} dim p P t.
Arguments ip_trace {F} dim p P u f.
Arguments ip_stable {F} dim p tau P t.
Arguments ip_affine {F} dim p c c0 u gamma out P t.
