(** Model of the parameter classes in reproducibles_python/parameters.  Points are functions from
    coordinates to numbers, [sd] is space_dimT and [hd] hyEdge_dimT.  Numbers are the real numbers of
    the standard library.  Left out: node lists, Neumann values (all 0, for empty node lists), the
    classes of pure start values (LeVeque, LeVequeHG, HyperGraphMovie, injection) and the eigenvalue
    classes (zero data, random start values). *)
From Coq Require Import Reals.
From mathcomp Require Import all_ssreflect.
From Verif Require Import M_Base.
Set Implicit Arguments. Unset Strict Implicit. Unset Printing Implicit Defensive.
Local Open Scope R_scope.

Definition point := nat -> R.
Definition scalar := point -> R -> R.
Record diffusion_params := DP { dp_inv : scalar; dp_result : scalar; dp_rhs : scalar; dp_dirichlet : scalar; dp_initial : scalar }.
Record bilaplacian_params := BP { bp_inv : scalar; bp_result : scalar; bp_rhs : scalar; bp_dirichlet : scalar;
  bp_laplace : scalar; bp_initial : scalar; bp_initial_laplace : scalar }.
Record advection_params := AP { ap_velocity : point -> R -> nat -> R; ap_result : scalar; ap_rhs : scalar;
  ap_dirichlet : scalar; ap_initial : scalar }.
Record reaction_params := RP { rp_inv : scalar; rp_velocity : point -> R -> nat -> R; rp_reaction : scalar;
  rp_result : scalar; rp_rhs : scalar; rp_dirichlet : scalar; rp_initial : scalar }.

(** diffusion.hxx 7-50 class Test…SinEllipt; diffusion_coeff (12-16) has no user in the local
    solvers but is kept for comparison. *)
Definition sin_ellipt_coeff : R := 2 / PI.
Definition sin_ellipt : diffusion_params :=
  let u : scalar := fun x _ => sin (/ 2 * PI * x 0%N) in
  DP (fun _ _ => / 2 * PI) u (fun x _ => / 2 * PI * sin (/ 2 * PI * x 0%N)) u u.
(** 52-103 class HG::Test…QuadEllipt. *)
Definition quad_ellipt (hd sd : nat) : diffusion_params :=
  let u : scalar := fun x _ => for_ sd (fun d result => result - x d * x d) 0 in
  DP (fun _ _ => 1) u (fun _ _ => 2 * INR hd) u u.
(** 104-152 class HG::Test…QuadElliptHO. *)
Definition quad_ellipt_ho_coeff : R := / 4 / PI / PI.
Definition quad_ellipt_ho (sd : nat) : diffusion_params :=
  let u : scalar := fun x _ => for_ sd (fun d result => result + sin (2 * PI * x d)) 0 in
  DP (fun _ _ => 4 * PI * PI) u u u u.
(** 155-194 class Test…SinParab. *)
Definition sin_parab : diffusion_params :=
  let u : scalar := fun x t => sin (PI * (x 0%N + t)) in
  DP (fun _ _ => PI) u (fun x t => PI * (sin (PI * (x 0%N + t)) + cos (PI * (x 0%N + t)))) u u.

(** bilaplacian.hxx 6-66 class Test…SinEllipt. *)
Definition bi_sin_ellipt : bilaplacian_params :=
  let u : scalar := fun x _ => sin (PI * x 0%N) in
  BP (fun _ _ => PI) u (fun x _ => PI * PI * PI * sin (PI * x 0%N)) u (fun x t => PI * u x t) u u.
(** 68-137 class HG::Test…QuadEllipt. *)
Definition bi_quad_ellipt (hd sd : nat) : bilaplacian_params :=
  let u : scalar := fun x _ => for_ sd (fun d result => result + x d * x d) 0 in
  BP (fun _ _ => 1) u (fun _ _ => 0) u (fun _ _ => - (2) * INR hd) u u.
(** 139-200 class Test…SinParab. *)
Definition bi_sin_parab : bilaplacian_params :=
  let u : scalar := fun x t => sin (PI * (x 0%N + t)) in
  BP (fun _ _ => PI) u (fun x t => PI * PI * PI * sin (PI * (x 0%N + t)) + PI * cos (PI * (x 0%N + t)))
     u (fun x t => PI * u x t) u (fun x t => PI * u x t).

(** advection.hxx 6-47 class Test…SinParab; the constructor of SmallVec fills zeros. *)
Definition adv_sin_parab : advection_params :=
  let u : scalar := fun x t => sin (PI * (x 0%N + t)) in
  AP (fun _ _ d => if d == 0%N then 1 / PI else 0) u (fun x t => (1 + PI) * cos (PI * (x 0%N + t))) u u.

(** diffusion_advection_reaction.hxx 6-57 class Test…SinEllipt. *)
Definition adr_sin_ellipt : reaction_params :=
  let u : scalar := fun x _ => sin (/ 4 * PI * x 0%N) in
  let inv : scalar := fun x _ => 1 / cos (/ 4 * PI * x 0%N) in
  RP inv (fun x t d => inv x t * (if d == 0%N then - / 4 * PI * sin (/ 4 * PI * x 0%N) + 1 else 0)) (fun _ _ => 1)
     u (fun x _ => sin (/ 4 * PI * x 0%N) + / 4 * PI * cos (/ 4 * PI * x 0%N)) u u.
(** 59-117 class HG::Test…QuadEllipt. *)
Definition adr_quad_ellipt (hd sd : nat) : reaction_params :=
  let u : scalar := fun x _ => for_ sd (fun d result => result - (x d - 2) * (x d - 2)) 0 in
  RP (fun _ _ => 1) (fun x t d => 1 * (if (d < sd)%N then (x d - 2) / u x t else 0)) (fun _ _ => 1)
     u (fun x t => 3 * INR hd + u x t) u u.
