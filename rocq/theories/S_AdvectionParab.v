(** Vocabulary for the local solver AdvectionParab. *)
From mathcomp Require Import all_ssreflect all_algebra.
From Verif Require Import S_Hdg S_LocalSolver M_Base M_DenseLA M_DiffusionUniform M_Diffusion S_Diffusion M_AdvectionParab.
Set Implicit Arguments. Unset Strict Implicit. Unset Printing Implicit Defensive.
Import GRing.Theory Num.Theory.
Local Open Scope ring_scope.

Section Adv.
Variable F : realFieldType.
(** Numbers of face and of bulk functions. *)
Variables (dim nb nf : nat) (dirs outs bnds : seq nat) (tau theta dt : F).
Notation nF := (2 * dim)%N.
Implicit Types (P : ap_data F) (S : ap_state F) (x : seq (seq F)) (u : 'cV[F]_nf).

Definition col_of n (v : nat -> F) : 'cV[F]_n := \col_i v i.
Definition mat_of n k (g : nat -> nat -> F) : 'M[F]_(n, k) := \matrix_(i, j) g i j.
(** Coefficients of a constant. *)
Definition e0 n (c : F) : 'cV[F]_n := \col_i (if i == 0%N :> nat then c else 0).
(** Faces with given values: their type is listed, or it is that of a boundary and the wind blows inwards.
    Faces with free outflow: accordingly. *)
Definition inflow_face P (f : nat) : bool :=
  let t := nth 0%N (ap_types P) f in (t \in dirs) || (t \in bnds) && (ap_wind P f <= 0)%R.
Definition outflow_face P (f : nat) : bool :=
  let t := nth 0%N (ap_types P) f in (t \in outs) || (t \in bnds) && (0 < ap_wind P f)%R.

(** The integral of -div(v u) + f against the bulk functions, with upwind fluxes; the values u has at the faces
    where it is given are those of the parameters, apart from the traces. *)
Definition face_terms P x u (f : 'I_nF) : 'cV[F]_nf :=
  mat_of nf nf (fun i j => ap_bbn P i j f + tau * ap_bb P i j f) *m u +
  mat_of nf nb (fun i j => ap_bpn P i j f - tau * ap_bp P i j f) *m tr nb x f.
Definition adv_rate P x u : 'cV[F]_nf :=
  col_of nf (ap_src P) + mat_of nf nf (ap_adv P) *m u - \sum_(f < nF) face_terms P x u f
  - \sum_(f < nF | inflow_face P f) col_of nf (fun i => ap_dirval P i f).
(** The same without source and given values. *)
Definition hom_rate P x u : 'cV[F]_nf := mat_of nf nf (ap_adv P) *m u - \sum_(f < nF) face_terms P x u f.
(** Flux through a face against the face functions, and what is reported: only the stabilisation where the
    outflow is free. *)
Definition full_flux P x u (f : 'I_nF) : 'cV[F]_nb :=
  mat_of nb nf (fun i j => ap_pbn P i j f + tau * ap_pb P i j f) *m u +
  mat_of nb nb (fun i j => ap_ppn P i j f - tau * ap_pp P i j f) *m tr nb x f.
Definition stab_flux P x u (f : 'I_nF) : 'cV[F]_nb :=
  tau *: (mat_of nb nf (fun i j => ap_pb P i j f) *m u - mat_of nb nb (fun i j => ap_pp P i j f) *m tr nb x f).
Definition adv_flux P x u (f : 'I_nF) : 'cV[F]_nb :=
  if outflow_face P f then stab_flux P x u f else full_flux P x u f.

Definition adv_u S : 'cV[F]_nf := col_of nf (nth 0 (ap_u_old S)).
Definition adv_old_rate S : 'cV[F]_nf := col_of nf (nth 0 (ap_flux_old S)).
Definition adv_old_flux S (f : nat) : 'cV[F]_nb := \col_j mget nb (ap_bdr_old S) j f.
Definition adv_state_ok S : Prop :=
  [/\ size (ap_u_old S) = nf, size (ap_flux_old S) = nf & size (ap_bdr_old S) = (nb * nF)%N].
(** One step of the theta scheme with the rates at the new and at the old time. *)
Definition adv_step P S x u : Prop :=
  ap_area P *: (u - adv_u S) = dt *: (theta *: adv_rate P x u + (1 - theta) *: adv_old_rate S).
Definition hom_adv_step P x u : Prop := ap_area P *: u = (theta * dt) *: hom_rate P x u.
Definition adv_flux_of P x u y : Prop := is_trace nF nb y /\ forall f : 'I_nF, tr nb y f =
  if inflow_face P f then 0 else theta *: adv_flux P x u f.
Definition adv_mixed_flux_of P S x u y : Prop := is_trace nF nb y /\ forall f : 'I_nF, tr nb y f =
  if inflow_face P f then 0 else theta *: adv_flux P x u f + (1 - theta) *: adv_old_flux S f.
(** S holds u, the rate and the fluxes of (u, x) at the time of P. *)
Definition adv_stored P x u S : Prop :=
  [/\ adv_state_ok S, adv_u S = u, adv_old_rate S = adv_rate P x u
    & forall f : 'I_nF, adv_old_flux S f = adv_flux P x u f].
(** Traces that vanish where values are given. *)
Definition in_free P x : Prop := vanishes (inflow_face P) nF nb x.

(** * Contract of the integrals *)
(** Face by face a list of points (or of functions orthonormal on the face) with the winds [w] times weights, the
    values of bulk and face functions there, and the parts [c] and [c'] of the face that the integrals of the
    stabilisation use.  Bulk functions meet the wind that leaves, face functions the wind that enters.  The
    velocity has no divergence; function 0 is the constant of the hyperedge and of the faces; the bulk functions
    are orthonormal up to the area. *)
Record upwind_data := Upwind {
  up_n : nat -> nat; up_w : nat -> nat -> F; up_c : nat -> nat -> F; up_c' : nat -> nat -> F;
  up_phi : nat -> nat -> nat -> F; up_psi : nat -> nat -> nat -> F }.
Definition upwind_contract (W : upwind_data) P : Prop :=
  [/\ forall f s, (f < nF)%N -> (s < up_n W f)%N -> 0 <= up_c W f s,
      forall f i j, (f < nF)%N -> (i < nf)%N -> (j < nf)%N ->
        ap_bbn P i j f = \sum_(s < up_n W f) Num.max (up_w W f s) 0 * (up_phi W f s i * up_phi W f s j) /\
        ap_bb P i j f = \sum_(s < up_n W f) up_c W f s * (up_phi W f s i * up_phi W f s j),
      forall f i j, (f < nF)%N -> (i < nf)%N -> (j < nb)%N ->
        [/\ ap_bpn P i j f = \sum_(s < up_n W f) Num.min (up_w W f s) 0 * (up_phi W f s i * up_psi W f s j),
            ap_bp P i j f = \sum_(s < up_n W f) up_c' W f s * (up_phi W f s i * up_psi W f s j),
            ap_pbn P j i f = \sum_(s < up_n W f) Num.max (up_w W f s) 0 * (up_psi W f s j * up_phi W f s i)
          & ap_pb P j i f = \sum_(s < up_n W f) up_c W f s * (up_psi W f s j * up_phi W f s i)],
      forall f i j, (f < nF)%N -> (i < nb)%N -> (j < nb)%N ->
        ap_ppn P i j f = \sum_(s < up_n W f) Num.min (up_w W f s) 0 * (up_psi W f s i * up_psi W f s j) /\
        ap_pp P i j f = \sum_(s < up_n W f) up_c' W f s * (up_psi W f s i * up_psi W f s j)
    & [/\ forall i j, (i < nf)%N -> (j < nf)%N ->
            ap_adv P i j + ap_adv P j i =
            \sum_(f < nF) \sum_(s < up_n W f) up_w W f s * (up_phi W f s i * up_phi W f s j),
          forall j, (j < nf)%N -> ap_adv P 0%N j = 0,
          forall f s, (f < nF)%N -> (s < up_n W f)%N -> up_phi W f s 0%N = up_psi W f s 0%N,
          0 < ap_area P
        & forall i j, (i < nf)%N -> (j < nf)%N -> ap_vol P i j = ap_area P *+ (i == j)]].
Definition adv_data P : Prop := exists W, upwind_contract W P.
(** Net wind through face f, as a matrix between face functions. *)
Definition wind_matrix (W : upwind_data) (f : nat) : 'M[F]_nb :=
  mat_of nb nb (fun i j => \sum_(s < up_n W f) up_w W f s * (up_psi W f s i * up_psi W f s j)).
End Adv.
Arguments face_terms {F} dim nb {nf} tau P x u f.
Arguments full_flux {F} dim nb {nf} tau P x u f.
Arguments stab_flux {F} dim nb {nf} tau P x u f.
Arguments adv_flux {F} dim nb {nf} outs bnds tau P x u f.
