(** The equations of an elastic beam (Timoshenko) in discrete form, in the frame of the beam. *)
From mathcomp Require Import all_ssreflect all_algebra.
Set Implicit Arguments. Unset Strict Implicit. Unset Printing Implicit Defensive.
Import GRing.Theory.
Local Open Scope ring_scope.

Section Beam.
Variable F : realFieldType.
Definition mdot m n (A B : 'M[F]_(m, n)) : F := \sum_i \sum_j A i j * B i j.

(** The cross product. *)
Definition cross (a b : 'cV[F]_3) : 'cV[F]_3 := \col_i
  (let v (c : 'cV[F]_3) k := c (inord k) 0 in
   if i == 0%N :> nat then v a 1%N * v b 2%N - v a 2%N * v b 1%N
   else if i == 1%N :> nat then v a 2%N * v b 0%N - v a 0%N * v b 2%N
   else v a 0%N * v b 1%N - v a 1%N * v b 0%N).
(** Displacement and rotation of a point, or force and moment: columns of six numbers. *)
Definition six (a b : 'cV[F]_3) : 'cV[F]_6 := col_mx a b.
Definition axis : 'cV[F]_3 := \col_i (i == 0%N :> nat)%:R.
(** The coupling (u, r) -> (r x axis, 0), written as a matrix. *)
Definition coupling : 'M[F]_6 := \matrix_(i, j)
  (((i == 1%N :> nat) && (j == 5%N :> nat))%:R - ((i == 2%N :> nat) && (j == 4%N :> nat))%:R).

(** A beam with nf shape functions phi_i: the integrals of phi_i phi_j and of phi_i' phi_j, the values of phi_i at the
    two ends, the normals at the ends. *)
Record beam (nf : nat) := Beam { bM : 'M[F]_nf; bD : 'M[F]_nf; bE : 'M[F]_(nf, 2); bN : 'I_2 -> F }.
Variables (nf : nat) (B : beam nf) (k : 'I_6 -> F) (tau : F).
Notation M := (bM B).
Notation D := (bD B).
Notation E := (bE B).
Definition bNu : 'M[F]_2 := \matrix_(i, j) (bN B i *+ (i == j)).
Definition flexibility : 'M[F]_6 := \matrix_(i, j) ((k i)^-1 *+ (i == j)).

(** Columns of q: force and moment; columns of u: displacement and rotation; X: their values at the ends; Rq, Ru: given
    values and loads.  Weak form of  q / k + u' + C u = 0,  q' - C^T q = load. *)
Definition beam_eq (q u : 'M[F]_(nf, 6)) (X : 'M[F]_(2, 6)) (Rq Ru : 'M[F]_(nf, 6)) : Prop :=
  M *m q *m flexibility - D *m u + E *m bNu *m X + M *m u *m coupling^T = Rq /\
  D^T *m q + tau *: (E *m (E^T *m u - X)) - M *m q *m coupling = Ru.
(** What leaves the beam at its ends. *)
Definition beam_flux (q u : 'M[F]_(nf, 6)) (X : 'M[F]_(2, 6)) : 'M[F]_(2, 6) :=
  bNu *m E^T *m q + tau *: (E^T *m u - X).
(** Elastic energy and penalty. *)
Definition beam_form (q u : 'M[F]_(nf, 6)) (X : 'M[F]_(2, 6)) (q' u' : 'M[F]_(nf, 6)) (X' : 'M[F]_(2, 6)) : F :=
  mdot q' (M *m q *m flexibility) + tau * mdot (E^T *m u' - X') (E^T *m u - X).

(** u0: coefficients of the constant 1; len: the coordinate of the second end seen from the first one (negative if
    the axis points from the second end to the first). *)
Definition beam_ok (u0 : 'cV[F]_nf) (len : F) : Prop :=
  [/\ M^T = M /\ forall q : 'cV[F]_nf, q != 0 -> 0 < mdot q (M *m q),
      D + D^T = E *m bNu *m E^T, D^T *m u0 = 0 /\ E^T *m u0 = const_mx 1,
      forall u : 'cV[F]_nf, D^T *m u = 0 -> exists c, u = c *: u0
    & [/\ bN B 0 = - bN B 1, bN B 1 * bN B 1 = 1 & mdot u0 (M *m u0) = bN B 1 * len]].
(** u1: coefficients of the coordinate, which is 0 at the first end and len at the second. *)
Definition beam_linear (u0 u1 : 'cV[F]_nf) (len : F) : Prop :=
  D^T *m u1 = M *m u0 /\ E^T *m u1 = \col_i (if i == 0%N :> nat then 0 else len).

(** The values at the ends of the motion that has the value v at the first end and strains the beam nowhere. *)
Definition unstrained (len : F) (v : 'rV[F]_6) (X : 'M[F]_(2, 6)) : Prop :=
  row 0 X = v /\ row 1 X = v - len *: (v *m coupling^T).
End Beam.
