(** Vocabulary for the properties of the beam solver. *)
From mathcomp Require Import all_ssreflect all_algebra.
From Verif Require Import M_Base M_DenseLA S_DenseLA M_Lapack M_Geometry S_Tpp S_LocalSolver S_Beam M_Timoshenko.
Set Implicit Arguments. Unset Strict Implicit. Unset Printing Implicit Defensive.
Import GRing.Theory Num.Theory.
Local Open Scope ring_scope.

Section Timoshenko.
Variable F : realFieldType.

(** Contract of the integrals of TPP over a segment: a basis b of polynomials of degree p, orthonormal on [0,1], and
    the signed length r (the entry of the factor R of the mapping, see C07: it may be negative). *)
Definition segment_data (b : nat -> {poly F}) (p : nat) (r : F) (D : tb_data F) : Prop :=
  [/\ orthonormal_basis (p + 1) b, r != 0,
      forall i j, (i < p + 1)%N -> (j < p + 1)%N -> tb_vol D i j = `|r| * integ (b i * b j) /\
        tb_grad D i j = Num.sg r * integ ((b i)^`() * b j),
      forall i (f : 'I_2), (i < p + 1)%N -> tb_bp D i f = (b i).[(f : nat)%:R] /\
        (forall j, (j < p + 1)%N -> tb_bb D i j f = (b i).[(f : nat)%:R] * (b j).[(f : nat)%:R])
    & tb_normal D 0 = - Num.sg r /\ tb_normal D 1 = Num.sg r].

(** The frame of the beam: tangent and outer normals as columns; they are orthonormal. *)
Definition frame (D : tb_data F) : 'M[F]_3 :=
  \matrix_(i, j) (if j == 0%N :> nat then tb_tangent D i else tb_outer D (j - 1) i).
Definition orthonormal n (Q : 'M[F]_n) : Prop := Q^T *m Q = 1%:M.
(** The frame for displacements and rotations together. *)
Definition frame2 (D : tb_data F) : 'M[F]_(3 + 3) := block_mx (frame D) 0 0 (frame D).

(** The beam equations of the hyperedge. *)
Definition tb_beam (p : nat) (D : tb_data F) : beam F (p + 1) :=
  Beam (\matrix_(i, j) tb_vol D i j) (\matrix_(i, j) tb_grad D i j) (\matrix_(i, f) tb_bp D i f)
    (fun f => tb_normal D f).
Definition tb_k (D : tb_data F) (c : 'I_6) : F := nth 0 (tb_coeffs D) c.

(** Values of six numbers at two ends, as arrays and as matrices. *)
Definition ends (x : seq (seq F)) : 'M[F]_(2, 3 + 3) := \matrix_(f, c) nth 0 (nth [::] x f) c.
(** Displacements, rotations (forces, moments) of an end. *)
Definition upper3 (x : seq (seq F)) (f : 'I_2) : 'cV[F]_3 := \col_c nth 0 (nth [::] x f) c.
Definition lower3 (x : seq (seq F)) (f : 'I_2) : 'cV[F]_3 := \col_c nth 0 (nth [::] x f) (3 + c).

(** Forces and moments (first half of the coefficients), displacements and rotations (second half). *)
Definition stress (p : nat) (X : seq F) : 'M[F]_(p + 1, 6) := \matrix_(i, c) nth 0 X (c * (p + 1) + i).
Definition motion (p : nat) (X : seq F) : 'M[F]_(p + 1, 6) := \matrix_(i, c) nth 0 X ((6 + c) * (p + 1) + i).

(** Coefficients of one component. *)
Definition component (n : nat) (u : 'M[F]_(n, 6)) (c : nat) : seq F := [seq u i (inord c) | i <- enum 'I_n].

(** A face takes part unless its hypernode is given. *)
Definition masked (dirs : seq nat) (D : tb_data F) (Y : 'M[F]_(2, 3 + 3)) : 'M[F]_(2, 3 + 3) :=
  \matrix_(f, c) (if nth 0%N (tb_types D) f \in dirs then 0 else Y f c).

(** Loads and given values, as they enter the two equations. *)
Definition load_q (dirs : seq nat) (p : nat) (D : tb_data F) : 'M[F]_(p + 1, 6) :=
  \matrix_(i, c) - (\sum_(f < 2 | nth 0%N (tb_types D) f \in dirs) tb_normal D f * tb_dirval D c i f).
Definition load_u (dirs : seq nat) (p : nat) (tau : F) (D : tb_data F) : 'M[F]_(p + 1, 6) :=
  \matrix_(i, c) (tb_load D c i + tau * \sum_(f < 2 | nth 0%N (tb_types D) f \in dirs) tb_dirval D c i f).

(** A rigid motion of the points P: displacement a + w x P, rotation s w. *)
Definition rigid (s : F) (a w : 'cV[F]_3) (P : 'I_2 -> 'cV[F]_3) (x : seq (seq F)) : Prop :=
  forall f, upper3 x f = a + cross w (P f) /\ lower3 x f = s *: w.
(** The ends of the beam: from the first to the second along the tangent. *)
Definition beam_ends (D : tb_data F) (r : F) (P : 'I_2 -> 'cV[F]_3) : Prop := P 1 - P 0 = r *: col 0 (frame D).

(** The solver runs on the hyperedge of Geometry::File with mapping T. *)
Definition on_file (geqr2 : nat -> nat -> seq F -> qr_result F) (T : linear F) (D : tb_data F) : Prop :=
  [/\ gf_inner_normal T 0 = Ok (mkseq (tb_tangent D) 3),
      forall i, (i < 2)%N -> gf_outer_normal T i = Ok (mkseq (tb_outer D i) 3)
    & forall f, (f < 2)%N -> gf_local_normal geqr2 T f = Ok [:: tb_normal D f]].
(** The points at the ends of the hyperedge. *)
Definition file_end (T : linear F) (f : 'I_2) : 'cV[F]_3 := mx_of 3 1 (linear_map T 1 [:: (f : nat)%:R]).

(** The section of a beam as extra data describe it: unit vectors n, m, orthogonal to each other and to the
    tangent. *)
Definition section_axes (D : tb_data F) (e : seq F) : Prop :=
  let v k : 'cV[F]_3 := \col_d nth 0 e (k + d) in
  [/\ mdot (v 6%N) (v 6%N) = 1, mdot (v 9%N) (v 9%N) = 1, mdot (v 6%N) (v 9%N) = 0,
      mdot (col 0 (frame D)) (v 6%N) = 0 & mdot (col 0 (frame D)) (v 9%N) = 0].
(** The outer normals of the frame are the axes of the section, up to order (swapped) and sign. *)
Definition aligned (swapped : bool) (D : tb_data F) (e : seq F) : Prop :=
  exists s : nat -> F, forall i, (i < 2)%N -> `|s i| = 1 /\
    forall d, (d < 3)%N -> tb_outer D i d = s i * nth 0 e ((if swapped (+) (i == 1%N) then 9 else 6) + d)%N.
End Timoshenko.
