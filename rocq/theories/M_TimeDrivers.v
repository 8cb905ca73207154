(** Model of the time loops of the drivers in reproducibles_python for GlobalLoop::Parabolic.  The functions
    of the wrapped C++ class take the time, the stored data and a vector; the chain of iterative solvers of
    scipy is an argument that throws if none of them converges.  Output, plots and rounding of the times
    are left out. *)
From mathcomp Require Import all_ssreflect all_algebra.
From Verif Require Import M_Base M_Drivers.
Set Implicit Arguments. Unset Strict Implicit. Unset Printing Implicit Defensive.
Import GRing.Theory.
Local Open Scope ring_scope.

Section Loop.
Variables (F : realFieldType) (D : Type) (N : nat) (delta_time : F).
Variables (trace_to_flux residual_flux : F -> D -> seq F -> outcome (seq F)) (set_data : F -> D -> seq F -> outcome D).
Variable solve : (seq F -> outcome (seq F)) -> seq F -> outcome (seq F).
(** diffusion_convergence_parabolic.py 52-65, the right-hand side and the solvers: the operator is
    evaluated with the default time 0 (parabolic.hxx 172), zero_vector has [N] entries. *)
Definition solve_step (k : nat) (d : D) : outcome (seq F) :=
  obind (residual_flux (k.+1%:R * delta_time) d (nseq N 0)) (fun r =>
    solve (trace_to_flux 0 d) (np_scale r (-1))).
(** diffusion_convergence_parabolic.py 50-67, advection_convergence_parabolic.py 50-63: set_data ends a step. *)
Definition loop_after (time_steps : nat) (st : seq F * D) : outcome (seq F * D) :=
  foro time_steps (fun k st => obind (solve_step k st.2) (fun x =>
    obind (set_data (k.+1%:R * delta_time) st.2 x) (fun d => Ok (x, d)))) st.
(** bilaplacian_convergence_parabolic.py 49-64: set_data begins all steps but the first. *)
Definition loop_before (time_steps : nat) (st : seq F * D) : outcome (seq F * D) :=
  foro time_steps (fun k st =>
    obind (if (0 < k)%N then set_data (k%:R * delta_time) st.2 st.1 else Ok st.2) (fun d =>
    obind (solve_step k d) (fun x => Ok (x, d)))) st.
End Loop.
