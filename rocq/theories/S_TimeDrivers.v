(** Vocabulary for the time loops of the drivers. *)
From mathcomp Require Import all_ssreflect all_algebra.
From Verif Require Import M_Base M_Diffusion M_DiffusionParab M_AdvectionParab.
Set Implicit Arguments. Unset Strict Implicit. Unset Printing Implicit Defensive.
Import GRing.Theory.
Local Open Scope ring_scope.

(** An iterative solver that starts at zero: its result solves the system, and is zero where the right-hand
    side and all values of the operator are. *)
Definition krylov (F : realFieldType) (solve : (seq F -> outcome (seq F)) -> seq F -> outcome (seq F)) : Prop :=
  forall A b x, solve A b = Ok x -> [/\ size x = size b, A x = Ok b &
    forall d, nth 0 b d = 0 -> (forall v w, size v = size b -> A v = Ok w -> nth 0 w d = 0) -> nth 0 x d = 0].
(** [n] steps: the traces xs 1, ..., xs n solve the systems at the times h, ..., n h, in which the operator is that
    of the time 0, and ds k is stored after step k. *)
Definition run (F : realFieldType) (D : Type) (N : nat) (h : F)
  (flux residual : F -> D -> seq F -> outcome (seq F)) (set : F -> D -> seq F -> outcome D)
  (n : nat) (xs : nat -> seq F) (ds : nat -> D) : Prop :=
  forall k, (k < n)%N -> exists r, [/\ residual (k.+1%:R * h) (ds k) (nseq N 0) = Ok r,
    flux 0 (ds k) (xs k.+1) = Ok [seq - a | a <- r] & set (k.+1%:R * h) (ds k) (xs k.+1) = Ok (ds k.+1)].
(** Two times at which a hyperedge has the same geometry and diffusion coefficient. *)
Definition same_operator (F : Type) (A B : dp_data F) : Prop :=
  [/\ [/\ df_vol (dp_df A) = df_vol (dp_df B), df_mass (dp_df A) = df_mass (dp_df B), df_grad (dp_df A) = df_grad (dp_df B),
    df_bb (dp_df A) = df_bb (dp_df B) & df_bp (dp_df A) = df_bp (dp_df B)],
    df_normal (dp_df A) = df_normal (dp_df B), df_area (dp_df A) = df_area (dp_df B),
    df_types (dp_df A) = df_types (dp_df B) & dp_area A = dp_area B].
(** Two times at which a hyperedge has the same geometry and wind. *)
Definition same_wind (F : Type) (A B : ap_data F) : Prop :=
  [/\ [/\ ap_vol A = ap_vol B, ap_adv A = ap_adv B, ap_bbn A = ap_bbn B, ap_bb A = ap_bb B & ap_bpn A = ap_bpn B],
    [/\ ap_bp A = ap_bp B, ap_pbn A = ap_pbn B, ap_pb A = ap_pb B, ap_ppn A = ap_ppn B & ap_pp A = ap_pp B],
    ap_types A = ap_types B, ap_wind A = ap_wind B & ap_area A = ap_area B].
(** Two times at which a hyperedge has the same geometry and bilaplacian coefficient. *)
Definition same_bilap (F : Type) (A B : df_data F) : Prop :=
  [/\ [/\ df_vol A = df_vol B, df_mass A = df_mass B, df_grad A = df_grad B, df_bb A = df_bb B & df_bp A = df_bp B],
    df_normal A = df_normal B, df_area A = df_area B & df_types A = df_types B].
