(** Vocabulary for the epsilon-neighbourhood graph. *)
From Coq Require Import Ascii String.
From mathcomp Require Import all_ssreflect all_algebra.
From Verif Require Import M_Text M_EpsGraph.
Set Implicit Arguments. Unset Strict Implicit. Unset Printing Implicit Defensive.
Import GRing.Theory Num.Theory.
Local Open Scope ring_scope.

Section Eps.
Variable F : rcfType.
(** Euclidean distance. *)
Definition dist (dim : nat) (p q : seq F) : F :=
  Num.sqrt (\sum_(k < dim) (nth 0 p k - nth 0 q k) ^+ 2).
(** i and j are different points at distance less than eps. *)
Definition linked (dim : nat) (points : seq (seq F)) (eps : F) (i j : nat) : bool :=
  [&& (i < size points)%N, (j < size points)%N, i != j
    & dist dim (nth [::] points i) (nth [::] points j) < eps].
(** Lexicographic order of points: p is before q. *)
Definition before (dim : nat) (p q : seq F) : Prop :=
  exists k, [/\ (k < dim)%N, forall l, (l < k)%N -> nth 0 p l = nth 0 q l & nth 0 p k < nth 0 q k].
End Eps.
(** Reachable by a chain of steps. *)
Inductive reachable (step : nat -> nat -> bool) (i : nat) : nat -> Prop :=
| reach_refl : reachable step i i
| reach_step j k : reachable step i j -> step j k -> reachable step i k.
(** The edge joins i and j. *)
Definition joins (i j : nat) (e : nat * nat) : bool := (e == (i, j)) || (e == (j, i)).

(** Every point can be reached from every other by steps shorter than eps. *)
Definition connected (F : rcfType) (dim : nat) (points : seq (seq F)) (eps : F) : Prop :=
  forall i j, (i < size points)%N -> (j < size points)%N -> reachable (linked dim points eps) i j.
(** [l] lists exactly the pairs of points joined by a step shorter than eps that can be reached from the
    first point, each once and in one direction. *)
Definition close_pairs (F : rcfType) (dim : nat) (points : seq (seq F)) (eps : F) (l : seq (nat * nat)) : Prop :=
  forall i j,
    (linked dim points eps i j -> reachable (linked dim points eps) 0 i -> count (joins i j) l = 1%N) /\
    (~ (linked dim points eps i j /\ reachable (linked dim points eps) 0 i) -> count (joins i j) l = 0%N).
(** A .pts file. *)
Section Pts.
Variables (F : rcfType) (show : F -> text).
Definition pts_row (p : seq F) : text := flatten [seq t_ " " ++ show x ++ t_ " " | x <- p] ++ endl.
Definition pts_text (dim : nat) (eps : F) (points : seq (seq F)) : text :=
  t_ "Space_Dim = " ++ decimal dim ++ t_ ";" ++ endl ++ t_ "Epsilon = " ++ show eps ++ t_ ";" ++ endl ++
  t_ "POINTS:" ++ endl ++ flatten [seq pts_row p | p <- points].
End Pts.

(** A run of the search that expands the points [l] one after the other. *)
Inductive search_run (F : rcfType) (dim : nat) (points : seq (seq F)) (eps : F) : bstate -> seq nat -> bstate -> Prop :=
| run_done st : b_search st = [::] -> search_run dim points eps st [::] st
| run_step st index rest l st' : b_search st = index :: rest ->
    search_run dim points eps (expand dim points eps index (BState rest (b_seen st) (b_conn st))) l st' ->
    search_run dim points eps st (index :: l) st'.
