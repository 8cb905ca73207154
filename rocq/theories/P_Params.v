(** Property C122: the parameter classes of the convergence tests are solutions of their equations, for all points and times.
    Statements only; proofs are in L_Params and L_Params2.  The real numbers are those of the standard library. *)
From Coq Require Import Reals.
From mathcomp Require Import all_ssreflect.
From Verif Require Import M_Base M_Params S_Params L_Params L_Params2.
Set Implicit Arguments. Unset Strict Implicit. Unset Printing Implicit Defensive.
Local Open Scope R_scope.

(** A flat hyperedge with origin [a] and tangent directions [e] in space with [sd] coordinates. *)
Section Classes.
Variables (n sd : nat) (a : nat -> R) (e : nat -> nat -> R).
Theorem C122_sin_ellipt_partial t : along n e 0%N ->
  elliptic n a e ((dp_inv sin_ellipt)^~ t) ((dp_result sin_ellipt)^~ t) ((dp_rhs sin_ellipt)^~ t).
Proof. by move=> h; exact: sin_elliptP. Qed.
(** However the hyperedge lies in space. *)
Theorem C122_quad_ellipt t : unit_directions n e sd ->
  elliptic n a e ((dp_inv (quad_ellipt n sd))^~ t) ((dp_result (quad_ellipt n sd))^~ t) ((dp_rhs (quad_ellipt n sd))^~ t).
Proof. by move=> h; exact: quad_elliptP. Qed.
Theorem C122_quad_ellipt_ho_partial t : half_grid n a e sd ->
  elliptic n a e ((dp_inv (quad_ellipt_ho sd))^~ t) ((dp_result (quad_ellipt_ho sd))^~ t) ((dp_rhs (quad_ellipt_ho sd))^~ t).
Proof. by move=> h; exact: ho_elliptP. Qed.
Theorem C122_sin_parab_partial : along n e 0%N -> parabolic n a e (dp_inv sin_parab) (dp_result sin_parab) (dp_rhs sin_parab).
Proof. exact: sin_parabP. Qed.
(** dirichlet_laplace_value is the second unknown of the solution. *)
Theorem C122_bi_sin_ellipt_partial t : along n e 0%N -> biharmonic n a e ((bp_inv bi_sin_ellipt)^~ t)
  ((bp_result bi_sin_ellipt)^~ t) ((bp_laplace bi_sin_ellipt)^~ t) ((bp_rhs bi_sin_ellipt)^~ t).
Proof. by move=> h; exact: bi_sin_elliptP. Qed.
Theorem C122_bi_quad_ellipt t : unit_directions n e sd -> biharmonic n a e ((bp_inv (bi_quad_ellipt n sd))^~ t)
  ((bp_result (bi_quad_ellipt n sd))^~ t) ((bp_laplace (bi_quad_ellipt n sd))^~ t) ((bp_rhs (bi_quad_ellipt n sd))^~ t).
Proof. by move=> h; exact: bi_quad_elliptP. Qed.
Theorem C122_bi_sin_parab_partial : along n e 0%N -> exists ut, (forall x t, derivable_pt_lim (bp_result bi_sin_parab x) t (ut x t)) /\
  forall t, biharmonic n a e ((bp_inv bi_sin_parab)^~ t) ((bp_result bi_sin_parab)^~ t) ((bp_laplace bi_sin_parab)^~ t)
    (fun x => bp_rhs bi_sin_parab x t - ut x t).
Proof. exact: bi_sin_parabP. Qed.
Theorem C122_adv_sin_parab_partial : (0 < sd)%N -> along n e 0%N ->
  transport n a e sd (ap_velocity adv_sin_parab) (ap_result adv_sin_parab) (ap_rhs adv_sin_parab).
Proof. exact: adv_sin_parabP. Qed.
(** Where the diffusion coefficient does not vanish; where the velocity is defined. *)
Theorem C122_adr_sin_ellipt_partial t : (0 < sd)%N -> along n e 0%N -> reactive n a e (fun x => cos (/ 4 * PI * x 0%N) <> 0) sd
  ((rp_inv adr_sin_ellipt)^~ t) ((rp_velocity adr_sin_ellipt)^~ t) ((rp_reaction adr_sin_ellipt)^~ t)
  ((rp_result adr_sin_ellipt)^~ t) ((rp_rhs adr_sin_ellipt)^~ t).
Proof. by move=> h1 h2; exact: adr_sin_elliptP. Qed.
Theorem C122_adr_quad_ellipt t : unit_directions n e sd -> reactive n a e (fun x => rp_result (adr_quad_ellipt n sd) x t <> 0) sd
  ((rp_inv (adr_quad_ellipt n sd))^~ t) ((rp_velocity (adr_quad_ellipt n sd))^~ t) ((rp_reaction (adr_quad_ellipt n sd))^~ t)
  ((rp_result (adr_quad_ellipt n sd))^~ t) ((rp_rhs (adr_quad_ellipt n sd))^~ t).
Proof. by move=> h; exact: adr_quad_elliptP. Qed.
(** The right-hand side of a solution is unique, so that no other one would do. *)
Theorem C122_unique inv u f f' : (forall x, inv x <> 0) -> elliptic n a e inv u f -> elliptic n a e inv u f' ->
  forall xi, f (chart n a e xi) = f' (chart n a e xi).
Proof. exact: elliptic_unique. Qed.
End Classes.
Print Assumptions C122_sin_ellipt_partial. Print Assumptions C122_quad_ellipt. Print Assumptions C122_quad_ellipt_ho_partial.
Print Assumptions C122_sin_parab_partial. Print Assumptions C122_bi_sin_ellipt_partial. Print Assumptions C122_bi_quad_ellipt.
Print Assumptions C122_bi_sin_parab_partial. Print Assumptions C122_adv_sin_parab_partial. Print Assumptions C122_adr_sin_ellipt_partial.
Print Assumptions C122_adr_quad_ellipt. Print Assumptions C122_unique.

(** Boundary and start values are those of the solution; coefficients and their inverses match. *)
Theorem C122_values (P : diffusion_params) hd sd x t : P = sin_ellipt \/ P = quad_ellipt hd sd \/ P = quad_ellipt_ho sd \/ P = sin_parab ->
  dp_dirichlet P x t = dp_result P x t /\ dp_initial P x t = dp_result P x t.
Proof. exact: diffusion_values. Qed.
Theorem C122_bi_values (P : bilaplacian_params) hd sd x t : P = bi_sin_ellipt \/ P = bi_quad_ellipt hd sd \/ P = bi_sin_parab ->
  bp_dirichlet P x t = bp_result P x t /\ bp_initial P x t = bp_result P x t.
Proof. exact: bilaplacian_values. Qed.
Theorem C122_adv_values x t : ap_dirichlet adv_sin_parab x t = ap_result adv_sin_parab x t /\
  ap_initial adv_sin_parab x t = ap_result adv_sin_parab x t.
Proof. exact: advection_values. Qed.
Theorem C122_adr_values (P : reaction_params) hd sd x t : P = adr_sin_ellipt \/ P = adr_quad_ellipt hd sd ->
  rp_dirichlet P x t = rp_result P x t /\ rp_initial P x t = rp_result P x t.
Proof. exact: reaction_values. Qed.
Theorem C122_bi_parab_laplace x t : bp_initial_laplace bi_sin_parab x t = bp_laplace bi_sin_parab x t.
Proof. exact: parab_laplace. Qed.
Theorem C122_inverse x t sd : sin_ellipt_coeff * dp_inv sin_ellipt x t = 1 /\
  quad_ellipt_ho_coeff * dp_inv (quad_ellipt_ho sd) x t = 1.
Proof. exact: inverse_values. Qed.
Print Assumptions C122_values. Print Assumptions C122_bi_values. Print Assumptions C122_inverse.
Print Assumptions C122_adv_values. Print Assumptions C122_adr_values. Print Assumptions C122_bi_parab_laplace.
(** Hyperedges along the axes of space, at multiples of 1/2, meet the hypotheses. *)
Example C122_example n sd k : (k + n <= sd)%N -> unit_directions n (axes k) sd /\ half_grid n (fun=> / 2) (axes k) sd.
Proof. exact: axes_example. Qed.
Example C122_example_first n : (0 < n)%N -> along n (axes 0) 0%N.
Proof. exact: axes_first. Qed.
Print Assumptions C122_example. Print Assumptions C122_example_first.

(** On a line in another direction than the first, as in networks of fibres, the solution of sin_ellipt is none. *)
Theorem C122_sin_line_refuted : unit_directions 1 (axes 1) 2 /\
  ~ elliptic 1 (fun=> 1) (axes 1) ((dp_inv sin_ellipt)^~ 0) ((dp_result sin_ellipt)^~ 0) ((dp_rhs sin_ellipt)^~ 0).
Proof. exact: (conj (axes_unit (isT : (1 + 1 <= 2)%N)) sin_ellipt_line). Qed.
(** On a line at the height 1/4, that of quad_ellipt_ho is none. *)
Theorem C122_ho_refuted : unit_directions 1 (axes 0) 2 /\
  ~ elliptic 1 (fun c => if c == 1%N then / 4 else 0) (axes 0)
    ((dp_inv (quad_ellipt_ho 2))^~ 0) ((dp_result (quad_ellipt_ho 2))^~ 0) ((dp_rhs (quad_ellipt_ho 2))^~ 0).
Proof. exact: (conj (axes_unit (isT : (0 + 1 <= 2)%N)) ho_line). Qed.
(** The start value initial_laplace is not the second unknown in the elliptic classes. *)
Theorem C122_initial_laplace_refuted : exists x, bp_initial_laplace bi_sin_ellipt x 0 <> bp_laplace bi_sin_ellipt x 0 /\
  bp_initial_laplace (bi_quad_ellipt 1 1) x 0 <> bp_laplace (bi_quad_ellipt 1 1) x 0.
Proof. exact: initial_laplace_differs. Qed.
Print Assumptions C122_sin_line_refuted. Print Assumptions C122_ho_refuted. Print Assumptions C122_initial_laplace_refuted.
