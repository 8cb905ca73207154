(** Vocabulary for the local solver BilaplacianParab. *)
From mathcomp Require Import all_ssreflect all_algebra.
From Verif Require Import S_Hdg S_Tpp S_LocalSolver M_DiffusionUniform M_Diffusion S_Diffusion S_TppGeo M_Bilaplacian S_Bilaplacian S_BiReact M_BilapParab.
Set Implicit Arguments. Unset Strict Implicit. Unset Printing Implicit Defensive.
Import GRing.Theory.
Local Open Scope ring_scope.

Section Parab.
Variable F : realFieldType.
Variables (dim p : nat) (dirs laps : seq nat) (tau theta dt : F).
Implicit Types (P : bp_data F) (x : seq (seq F)).
Notation nf := ((p + 1) ^ dim)%N.
Notation nb := ((p + 1) ^ (dim - 1))%N.

(** The data at the new time, with the source s + ((1 - theta) / theta) s_old. *)
Definition bp_eff P : bl_data F :=
  let D := bl_df (bp_bl P) in
  BlData (DfData (df_vol D) (df_mass D) (df_grad D) (df_bb D) (df_bp D)
    (fun i => df_src D i + (1 - theta) / theta * bp_src_old P i) (df_dirval D) (df_initial D)
    (df_normal D) (df_area D) (df_diffsq D) (df_eval D) (df_types D)) (bl_dirlap (bp_bl P)) (bl_initlap (bp_bl P)).
(** One step of length theta dt from uo: the problem for w has the additional source (uo - u) / (theta dt).
    Without data, and with source and boundary values. *)
Definition step_hom P x q u r w : Prop :=
  bi_react dim p tau (bp_bl P) (- (theta * dt)^-1) q u r w (tr nb (lower nb x)) (tr nb (upper nb x))
    (fun=> 0) 0 (fun=> 0) 0.
Definition step_full P (uo : 'cV[F]_nf) x q u r w : Prop :=
  bi_loc dim p tau (bp_bl P) q u r w (tr nb (lower nb x)) (tr nb (upper nb x))
    (df_rq p (u_problem (bp_eff P)) (face_dirichlet dirs (bl_df (bp_bl P))))
    (df_ru dim p (u_problem (bp_eff P)) tau (face_dirichlet dirs (bl_df (bp_bl P))))
    (df_rq p (w_problem (bp_eff P)) (face_dirichlet laps (bl_df (bp_bl P))))
    (df_ru dim p (w_problem (bp_eff P)) tau (face_dirichlet laps (bl_df (bp_bl P))) +
     (theta * dt)^-1 *: (df_mass_mx dim p (bl_df (bp_bl P)) *m (uo - u))).
(** Block k of the coefficients: q, u, r, w in this order; block dim is u. *)
Definition bp_block (X : seq F) (k : nat) : 'cV[F]_nf := \col_i nth 0 X (k * nf + i).
(** The blocks of X are the step from the function u stored in old. *)
Definition bp_step P (old : seq F) x (X : seq F) : Prop :=
  step_full P (bp_block old dim) x (fun d : 'I_dim => bp_block X d) (bp_block X dim)
    (fun d : 'I_dim => bp_block X (dim + 1 + d)) (bp_block X (dim + 1 + dim)).
(** Neither sources nor boundary values. *)
Definition bp_no_data P : Prop :=
  (forall i, (i < nf)%N -> df_src (bl_df (bp_bl P)) i = 0 /\ bp_src_old P i = 0) /\
  (forall i f, (i < nf)%N -> (f < 2 * dim)%N -> df_dirval (bl_df (bp_bl P)) i f = 0 /\ bl_dirlap (bp_bl P) i f = 0).
End Parab.
(** The values of a vector at the given hypernodes, with n entries per hypernode. *)
Definition node_values (F : realFieldType) (dim n : nat) (x : seq F) (nodes : seq nat) : seq (seq F) :=
  mkseq (fun k => mkseq (fun j => nth 0 x (nth 0%N nodes k * n + j)) n) (2 * dim).
(** The square of the norm given by a matrix. *)
Definition sqnorm (F : realFieldType) n (A : 'M[F]_n) (v : 'cV[F]_n) : F := dotv v (A *m v).
Arguments bp_block {F} dim p X k.
Arguments bp_step {F} dim p dirs laps tau theta dt P old x X.
Arguments bp_no_data {F} dim p P.
Arguments bp_eff {F} theta P.
Arguments step_hom {F} dim p tau theta dt P x q u r w.
Arguments step_full {F} dim p dirs laps tau theta dt P uo x q u r w.
