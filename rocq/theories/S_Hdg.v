(** The local HDG problem of a hyperedge in mathematical form, and what it needs. *)
From mathcomp Require Import all_ssreflect all_algebra.
Set Implicit Arguments. Unset Strict Implicit. Unset Printing Implicit Defensive.
Import GRing.Theory.
Local Open Scope ring_scope.

Section Hdg.
Variable F : realFieldType.
Definition dotv n (x y : 'cV[F]_n) : F := \sum_i x i 0 * y i 0.

(** nf bulk functions, nb functions per face, dim directions, nF faces; M the mass matrix of the
    flux variable, D the matrices of the derivatives, E and B the face matrices between bulk and
    face functions and among bulk functions, nu the normals, a the face areas. *)
Record hdg (nf nb dim nF : nat) := Hdg {
  hM : 'M[F]_nf; hD : 'I_dim -> 'M[F]_nf; hE : 'I_nF -> 'M[F]_(nf, nb); hB : 'I_nF -> 'M[F]_nf;
  hnu : 'I_nF -> 'I_dim -> F; ha : 'I_nF -> F }.
Variables (nf nb dim nF : nat) (h : hdg nf nb dim nF) (tau : F).

(** The local problem with traces x: (grad u, q) tested by bulk functions, with stabilisation tau. *)
Definition loc_eq (q : 'I_dim -> 'cV[F]_nf) (u : 'cV[F]_nf) (x : 'I_nF -> 'cV[F]_nb) : Prop :=
  (forall d, hM h *m q d - hD h d *m u = - (\sum_f hnu h f d *: (hE h f *m x f)))%R /\
  (\sum_d ((- hD h d + \sum_f hnu h f d *: hB h f) *m q d) + tau *: (\sum_f (hB h f *m u)) =
   tau *: (\sum_f (hE h f *m x f)))%R.
(** The numerical flux through face f. *)
Definition num_flux (q : 'I_dim -> 'cV[F]_nf) (u : 'cV[F]_nf) (x : 'I_nF -> 'cV[F]_nb) (f : 'I_nF) :=
  \sum_d hnu h f d *: ((hE h f)^T *m q d) + tau *: ((hE h f)^T *m u) - (tau * ha h f) *: x f.

(** Mass matrix symmetric positive definite, integration by parts, traces resolved by the face
    functions, and no function other than 0 has zero traces and zero weak derivatives. *)
Definition hdg_ok : Prop :=
  [/\ (hM h)^T = hM h, forall q : 'cV[F]_nf, q != 0 -> 0 < dotv q (hM h *m q),
      forall d, hD h d + (hD h d)^T = \sum_f hnu h f d *: hB h f,
      forall f, 0 < ha h f /\ ha h f *: hB h f = hE h f *m (hE h f)^T
    & forall u : 'cV[F]_nf, (forall d, hD h d *m u = 0) -> (forall f, (hE h f)^T *m u = 0) -> u = 0].
(** u0 and e are the coefficients of the constant function 1 in the bulk and on the faces. *)
Definition hdg_const (u0 : 'cV[F]_nf) (e : 'cV[F]_nb) : Prop :=
  (forall d, (hD h d)^T *m u0 = 0) /\ (forall f, (hE h f)^T *m u0 = ha h f *: e).
(** Functions with zero weak gradient are constant. *)
Definition hdg_grad (u0 : 'cV[F]_nf) : Prop :=
  forall u : 'cV[F]_nf, (forall d, (hD h d)^T *m u = 0) -> exists c, u = c *: u0.
End Hdg.
