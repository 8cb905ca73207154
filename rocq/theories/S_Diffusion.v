(** Vocabulary for the local solver Diffusion. *)
From mathcomp Require Import all_ssreflect all_algebra.
From Verif Require Import S_Hdg S_Tpp S_LocalSolver M_Diffusion.
Set Implicit Arguments. Unset Strict Implicit. Unset Printing Implicit Defensive.
Import GRing.Theory.
Local Open Scope ring_scope.

Section Sources.
Variable F : realFieldType.
Variables (nf nb dim nF : nat) (h : hdg F nf nb dim nF) (tau : F).
(** The local problem with traces x and further right-hand sides rq, ru. *)
Definition loc_src (q : 'I_dim -> 'cV[F]_nf) (u : 'cV[F]_nf) (x : 'I_nF -> 'cV[F]_nb)
    (rq : 'I_dim -> 'cV[F]_nf) (ru : 'cV[F]_nf) : Prop :=
  (forall d, hM h *m q d - hD h d *m u = - (\sum_f hnu h f d *: (hE h f *m x f)) + rq d)%R /\
  (\sum_d ((- hD h d + \sum_f hnu h f d *: hB h f) *m q d) + tau *: (\sum_f (hB h f *m u)) =
   tau *: (\sum_f (hE h f *m x f)) + ru)%R.
(** y holds the numerical flux of a solution of the local problem, and zeros on the faces in mask. *)
Definition flux_src (mask : nat -> bool) (x : seq (seq F)) (rq : 'I_dim -> 'cV[F]_nf) (ru : 'cV[F]_nf)
    (y : seq (seq F)) : Prop :=
  is_trace nF nb y /\ exists (q : 'I_dim -> 'cV[F]_nf) (u : 'cV[F]_nf),
    loc_src q u (tr nb x) rq ru /\
    forall f : 'I_nF, tr nb y f = if mask f then 0 else num_flux h tau q u (tr nb x) f.
End Sources.

Section Diffusion.
Variable F : realFieldType.
(** The trace is zero on the faces in mask. *)
Definition vanishes (mask : nat -> bool) (nF nb : nat) (x : seq (seq F)) : Prop :=
  forall f j, (f < nF)%N -> (j < nb)%N -> mask f -> nth 0 (nth [::] x f) j = 0.
(** The coefficients of a column vector as an array. *)
Definition coeffs_of (n : nat) (v : 'cV[F]_n) : seq F := [seq v i 0 | i <- enum 'I_n].
Definition zero_trace (nF nb : nat) : seq (seq F) := nseq nF (nseq nb 0).

Variables (dim p : nat).
Notation nf := ((p + 1) ^ dim)%N.
Notation nb := ((p + 1) ^ (dim - 1))%N.
(** The HDG problem of a hyperedge. *)
Definition df_hdg (D : df_data F) : hdg F nf nb dim (2 * dim) :=
  hdg_of _ _ _ _ (df_vol D) (df_grad D) (df_bp D) (df_bb D) (df_normal D) (df_area D).
Definition df_mass_mx (D : df_data F) : 'M[F]_nf := \matrix_(i, j) df_mass D i j.
Definition df_src_vec (D : df_data F) : 'cV[F]_nf := \col_i df_src D i.
Definition df_dir_vec (D : df_data F) (f : nat) : 'cV[F]_nf := \col_i df_dirval D i f.
(** Right-hand sides from the source term and from boundary values on the faces in mask. *)
Definition df_rq (D : df_data F) (mask : nat -> bool) (d : 'I_dim) : 'cV[F]_nf :=
  - \sum_(f < 2 * dim | mask f) df_normal D f d *: df_dir_vec D f.
Definition df_ru (D : df_data F) (tau : F) (mask : nat -> bool) : 'cV[F]_nf :=
  df_src_vec D + tau *: (\sum_(f < 2 * dim | mask f) df_dir_vec D f).
(** q and u solve the local problem with traces x, the source and the boundary values. *)
Definition full_solution (dirs : seq nat) (tau : F) (D : df_data F) (x : seq (seq F))
    (q : 'I_dim -> 'cV[F]_nf) (u : 'cV[F]_nf) : Prop :=
  loc_src (df_hdg D) tau q u (tr nb x) (df_rq D (face_dirichlet dirs D)) (df_ru D tau (face_dirichlet dirs D)).
End Diffusion.

(** All hyperedges see the same type at a common hypernode: node v has type nt v. *)
Definition types_agree (F : Type) (E : Type) (dat : E -> df_data F) (nt : nat -> nat)
    (edges : seq (seq nat * E)) : Prop :=
  forall e k, List.In e edges -> (k < size e.1)%N ->
    nth 0%N (df_types (dat e.2)) k = nt (nth 0%N e.1 k).
