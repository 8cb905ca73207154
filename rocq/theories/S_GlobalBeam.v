(** Vocabulary for networks of beams. *)
From mathcomp Require Import all_ssreflect all_algebra.
From Verif Require Import M_Base M_Global S_Global S_Beam M_Timoshenko S_Timoshenko.
Set Implicit Arguments. Unset Strict Implicit. Unset Printing Implicit Defensive.
Import GRing.Theory.
Local Open Scope ring_scope.

Section Network.
Variables (F : realFieldType) (E : Type) (dat : E -> tb_data F).
Implicit Types (edges : seq (seq nat * E)) (nt : nat -> nat).
(** Every beam sees the types of its hypernodes. *)
Definition beam_types nt edges : Prop :=
  forall e, List.In e edges -> forall k, (k < 2)%N -> nth 0%N (tb_types (dat e.2)) k = nt (nth 0%N e.1 k).
(** Displacement and rotation (force and moment) of hypernode v in a global vector. *)
Definition node_disp (x : seq F) (v : nat) : 'cV[F]_3 := \col_c nth 0 x (v * 6 + c).
Definition node_rot (x : seq F) (v : nat) : 'cV[F]_3 := \col_c nth 0 x (v * 6 + (3 + c)).
(** A vector without values at given hypernodes. *)
Definition free_only (n_nodes : nat) (fx : nat -> bool) (x : seq F) : Prop :=
  forall v c, (v < n_nodes)%N -> (c < 6)%N -> fx v -> nth 0 x (v * 6 + c) = 0.
(** The hypernodes lie at pos, the beams (of signed lengths len) join them. *)
Definition placed (len : E -> F) (pos : nat -> 'cV[F]_3) edges : Prop :=
  forall e, List.In e edges -> beam_ends (dat e.2) (len e.2) (fun f => pos (nth 0%N e.1 f)).
(** All frames have the same determinant. *)
Definition one_hand (d : F) edges : Prop := forall e, List.In e edges -> \det (frame (dat e.2)) = d.
(** Rigid motion of a network. *)
Definition rigid_network (s : F) (a w : 'cV[F]_3) (pos : nat -> 'cV[F]_3) (n_nodes : nat) (x : seq F) : Prop :=
  forall v, (v < n_nodes)%N -> node_disp x v = a + cross w (pos v) /\ node_rot x v = s *: w.
End Network.
