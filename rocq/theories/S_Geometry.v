(** Specifications for the geometry of hypergraphs. *)
From mathcomp Require Import all_ssreflect all_algebra.
From Verif Require Import M_Base M_Topology S_Topology.
Set Implicit Arguments. Unset Strict Implicit. Unset Printing Implicit Defensive.
Import Order.TTheory GRing.Theory Num.Theory.
Local Open Scope ring_scope.

Section Spec.
Variable F : realFieldType.
Implicit Types (p q y : seq F) (c : cell).

(** The point of a grid cell (in units of the grid) with relative coordinates [p] along it. *)
Fixpoint place c p : seq F :=
  match c with
  | [::] => [::]
  | (true, x) :: c' => (x%:R + head 0 p) :: place c' (behead p)
  | (false, x) :: c' => x%:R :: place c' p
  end.
(** The same point in the unit cube, if [dims] gives the numbers of grid intervals. *)
Definition phys (dims : seq nat) c p : seq F := [seq q.1 / (q.2)%:R | q <- zip (place c p) dims].

(** The reference cube, its interior and its faces. *)
Definition in_cube (d : nat) p : Prop := size p = d /\ all (fun x => (0 <= x) && (x <= 1)) p.
Definition in_open_cube (d : nat) p : Prop := size p = d /\ all (fun x => (0 < x) && (x < 1)) p.
Definition on_face (d i : nat) p : Prop := in_cube d p /\ p`_(i %/ 2) = (i %% 2)%:R.

(** The points of a grid cell. *)
Definition cell_points (dims : seq nat) c y : Prop :=
  exists2 p, in_cube (n_along c) p & y = phys dims c p.
(** Extents of the refined grid. *)
Definition fine_dims (L : nat) (dims : seq nat) : seq nat := [seq (L * n)%N | n <- dims].
End Spec.
(** Directions a cell runs along. *)
Definition along_dirs (c : cell) : seq nat := [seq i <- iota 0 (size c) | (nth (false, 0%N) c i).1].
