(** Vocabulary for the local solver Bilaplacian: two diffusion problems with unit coefficient, the second one
    for w = - Laplace u feeding the first one. *)
From mathcomp Require Import all_ssreflect all_algebra.
From Verif Require Import S_Hdg S_Tpp S_LocalSolver M_DiffusionUniform M_Diffusion S_Diffusion S_TppGeo M_Bilaplacian.
Set Implicit Arguments. Unset Strict Implicit. Unset Printing Implicit Defensive.
Import GRing.Theory.
Local Open Scope ring_scope.

Section Bilaplacian.
Variable F : realFieldType.
Implicit Types (D : df_data F) (P : bl_data F) (x y : seq (seq F)).

(** The two halves of the rows of a trace. *)
Definition lower (nb : nat) x : seq (seq F) := [seq take nb l | l <- x].
Definition upper (nb : nat) x : seq (seq F) := [seq drop nb l | l <- x].

(** Diffusion data with coefficient 1 and given source and boundary values. *)
Definition unit_coefficient D (src : nat -> F) (dirval : nat -> nat -> F) : df_data F :=
  DfData (df_mass D) (df_mass D) (df_grad D) (df_bb D) (df_bp D) src dirval (df_initial D)
    (df_normal D) (df_area D) (df_diffsq D) (df_eval D) (df_types D).
(** The problem for u, whose source is w times the inverse coefficient, and the problem for w. *)
Definition u_problem P := unit_coefficient (bl_df P) (fun=> 0) (df_dirval (bl_df P)).
Definition w_problem P := unit_coefficient (bl_df P) (df_src (bl_df P)) (bl_dirlap P).

Variables (dim p : nat) (dirs laps : seq nat) (tau : F).
Notation nf := ((p + 1) ^ dim)%N.
Notation nb := ((p + 1) ^ (dim - 1))%N.
Implicit Types (q r : 'I_dim -> 'cV[F]_nf) (u w v : 'cV[F]_nf).

Definition bl_coef P : 'M[F]_nf := \matrix_(i, j) df_vol (bl_df P) i j.
Definition bl_hdg P := df_hdg dim p (w_problem P).
(** The coupled local problem with traces x (of u) and y (of w) and right-hand sides. *)
Definition bi_loc P q u r w (x y : 'I_(2 * dim) -> 'cV[F]_nb) rq ru rr rw : Prop :=
  loc_src (bl_hdg P) tau r w y rr rw /\ loc_src (bl_hdg P) tau q u x rq (bl_coef P *m w + ru).
(** Without and with the data of the problem: source and boundary values. *)
Definition bi_hom P x q u r w : Prop :=
  bi_loc P q u r w (tr nb (lower nb x)) (tr nb (upper nb x)) (fun=> 0) 0 (fun=> 0) 0.
Definition bi_full P x q u r w : Prop :=
  bi_loc P q u r w (tr nb (lower nb x)) (tr nb (upper nb x))
    (df_rq p (u_problem P) (face_dirichlet dirs (u_problem P)))
    (df_ru dim p (u_problem P) tau (face_dirichlet dirs (u_problem P)))
    (df_rq p (w_problem P) (face_dirichlet laps (w_problem P)))
    (df_ru dim p (w_problem P) tau (face_dirichlet laps (w_problem P))).
(** The output holds the flux of w in its lower half, and that of u in its upper half; x and y are the traces
    used in the stabilisation. *)
Definition bi_flux P q u r w (x y : 'I_(2 * dim) -> 'cV[F]_nb) out : Prop :=
  [/\ is_trace (2 * dim) (2 * nb) out,
     forall f : 'I_(2 * dim), tr nb (lower nb out) f =
       if face_dirichlet dirs (bl_df P) f then 0 else num_flux (bl_hdg P) tau r w y f
   & forall f : 'I_(2 * dim), tr nb (upper nb out) f =
       if face_dirichlet laps (bl_df P) f then 0 else num_flux (bl_hdg P) tau q u x f].
(** Zero in the halves that belong to boundary conditions. *)
Definition bi_vanishes P x : Prop :=
  vanishes (face_dirichlet dirs (bl_df P)) (2 * dim) nb (lower nb x) /\
  vanishes (face_dirichlet laps (bl_df P)) (2 * dim) nb (upper nb x).
End Bilaplacian.
Arguments bi_loc {F} dim p tau P q u r w x y rq ru rr rw.
Arguments bi_hom {F} dim p tau P x q u r w.
Arguments bi_full {F} dim p dirs laps tau P x q u r w.
Arguments bi_flux {F} dim p dirs laps tau P q u r w x y out.
Arguments bi_vanishes {F} dim p dirs laps P x.
Arguments bl_coef {F} dim p P.
Arguments bl_hdg {F} dim p P.
