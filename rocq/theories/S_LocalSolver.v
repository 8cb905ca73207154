(** Vocabulary for the local solver properties. *)
From mathcomp Require Import all_ssreflect all_algebra.
From Verif Require Import S_DenseLA M_Lapack S_Lapack S_Hdg S_Tpp M_DiffusionUniform.
Set Implicit Arguments. Unset Strict Implicit. Unset Printing Implicit Defensive.
Import GRing.Theory.
Local Open Scope ring_scope.

Section Vocabulary.
Variable F : realFieldType.

(** The local problem whose matrices hold the given integrals. *)
Definition hdg_of (nf nb dim nF : nat) (vol : nat -> nat -> F) (dvol bp bb : nat -> nat -> nat -> F)
    (nu : nat -> nat -> F) (a : nat -> F) : hdg F nf nb dim nF :=
  @Hdg F nf nb dim nF (\matrix_(i, j) vol i j) (fun d => \matrix_(i, j) dvol i j d)
    (fun f => \matrix_(i, j) bp i j f) (fun f => \matrix_(i, j) bb i j f)
    (fun f d => nu f d) (fun f => a f).
(** Outer normals of the unit hypercube: face 2d points to -e_d, face 2d+1 to +e_d. *)
Definition unit_normal (f d : nat) : F := if d == (f %/ 2)%N then (if odd f then 1 else -1) else 0.

(** Traces are arrays of nF rows of nb coefficients. *)
Definition is_trace (nF nb : nat) (x : seq (seq F)) : Prop :=
  size x = nF /\ all (fun l => size l == nb) x.
Definition tr (nF nb : nat) (x : seq (seq F)) (f : 'I_nF) : 'cV[F]_nb := \col_j nth 0 (nth [::] x f) j.
Definition pairing (nF nb : nat) (x y : seq (seq F)) : F :=
  \sum_(f < nF) \sum_(j < nb) nth 0 (nth [::] x f) j * nth 0 (nth [::] y f) j.
Definition comb_trace (c : F) (nF nb : nat) (x y : seq (seq F)) : seq (seq F) :=
  mkseq (fun f => mkseq (fun j => c * nth 0 (nth [::] x f) j + nth 0 (nth [::] y f) j) nb) nF.
(** The trace of the constant function c: first coefficient c, the others 0. *)
Definition const_trace (c : F) (nF nb : nat) : seq (seq F) :=
  nseq nF (mkseq (fun j => if j == 0%N then c else 0) nb).

(** y holds the numerical flux of a solution of the local problem with traces x. *)
Definition flux_of (nf nb dim nF : nat) (h : hdg F nf nb dim nF) (tau : F) (x y : seq (seq F)) : Prop :=
  is_trace nF nb y /\
  exists (q : 'I_dim -> 'cV[F]_nf) (u : 'cV[F]_nf), loc_eq h tau q u (tr nb x) /\
    forall f : 'I_nF, tr nb y f = num_flux h tau q u (tr nb x) f.

(** Contract of dgesv in exact arithmetic: it succeeds on invertible matrices. *)
Definition gesv_correct (gesv : nat -> nat -> seq F -> seq F -> sv_result F) : Prop :=
  forall n nc A b, is_mat n n A -> is_mat n nc b -> mx_of n n A \in unitmx ->
    sv_info (gesv n nc A b) /\ gesv_ok n nc A b (sv_rhs (gesv n nc A b)).

(** The integrals of TPP on the unit hypercube for a basis b of polynomials up to degree p. *)
Definition tpp_integrator (b : nat -> {poly F}) (dim p : nat) : integrator F :=
  Integrator (vol_phiphi (p + 1) b dim) (vol_Dphiphi (p + 1) b dim)
    (bdr_phiphi (p + 1) b dim) (bdr_phipsi (p + 1) b dim).
(** The HDG problem of the Laplacian on the unit hypercube with polynomials of degree p. *)
Definition cube_hdg (b : nat -> {poly F}) (dim p : nat) :
    hdg F ((p + 1) ^ dim) ((p + 1) ^ (dim - 1)) dim (2 * dim) :=
  hdg_of _ _ _ _ (vol_phiphi (p + 1) b dim) (vol_Dphiphi (p + 1) b dim) (bdr_phipsi (p + 1) b dim)
    (bdr_phiphi (p + 1) b dim) (unit_normal) (fun=> 1).
End Vocabulary.
