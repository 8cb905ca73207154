(** Specifications for cubic and file hypergraphs, and the contract of the TPCC library. *)
From mathcomp Require Import all_ssreflect all_algebra.
From Verif Require Import M_Base M_Index M_Topology.
Set Implicit Arguments. Unset Strict Implicit. Unset Printing Implicit Defensive.

(** A k-dimensional cell of the grid with [n] intervals per direction: intervals are 0 .. n - 1; grid
    points are 0 .. n, or 1 .. n - 1 if the boundary is left out. *)
Definition valid_entry (bnd : bool) (n : nat) (p : bool * nat) : bool :=
  if p.1 then p.2 < n else if bnd then p.2 <= n else (0 < p.2) && (p.2 < n).
Definition valid (t : tpcc) (c : cell) : bool :=
  [&& size c == size (t_dims t), n_along c == t_k t & all2 (valid_entry (t_bnd t)) (t_dims t) c].

(** Contract of TPCC: the enumeration lists the cells of the complex, each once (in whatever order);
    cells within a slice of a grid with [L] intervals per direction are numbered one to one from 0 to
    [L ^ m] - 1, where [m] is the number of their along coordinates. *)
Definition tpcc_spec (enum : tpcc -> seq cell) : Prop :=
  forall t, uniq (enum t) /\ forall c, (c \in enum t) = valid t c.
Definition slice_spec (slice : nat -> seq nat -> nat) : Prop :=
  forall L m,
  [/\ forall c, size c = m -> all (fun x => x < L) c -> slice L c < L ^ m,
      forall c c', size c = m -> size c' = m -> all (fun x => x < L) c -> all (fun x => x < L) c' ->
        slice L c = slice L c' -> c = c'
    & forall k, k < L ^ m -> exists c, [/\ size c = m, all (fun x => x < L) c & slice L c = k]].

(** Position in the refined grid: each interval of the coarse grid is cut into [L] intervals. A cell
    [F] of the local grid of the coarse cell [E] has these coordinates in the refined global grid. *)
Fixpoint refine (L : nat) (E F : cell) : cell :=
  match E with
  | [::] => [::]
  | (true, x) :: E' =>
      match F with
      | (b, y) :: F' => (b, L * x + y) :: refine L E' F'
      | [::] => (true, L * x) :: refine L E' [::]
      end
  | (false, x) :: E' => (false, L * x) :: refine L E' F
  end.
(** The local cell that runs along interval [r_j] in each direction [j]. *)
Definition full (r : seq nat) : cell := [seq (true, x) | x <- r].

Section Grid.
Variable enum : tpcc -> seq cell.
(** Hyperedge number [idx] of the grid with [extents], refined [L] times per direction: the cell of
    the refined grid it occupies. Parts of one coarse cell have consecutive numbers. *)
Definition grid_cell (d : nat) (extents : seq nat) (L idx : nat) : cell :=
  refine L (nth [::] (enum (Tpcc true d extents)) (idx %/ L ^ d))
           (nth [::] (enum (Tpcc true d (nseq d L))) (idx %% L ^ d)).
(** Face [i] of hyperedge [idx] within the local grid of its coarse hyperedge, and whether it lies in
    the boundary of that coarse hyperedge. *)
Definition local_face (d L idx i : nat) : cell :=
  facet_at (nth [::] (enum (Tpcc true d (nseq d L))) (idx %% L ^ d)) (i %/ 2) (i %% 2).
Definition on_coarse (d L idx i : nat) : bool :=
  all (fun x => (x == 0) || (x == L)) (across (local_face d L idx i)).
End Grid.

(** Which boundary planes of the grid a face lies in, among the directions normal to it:
    0 none, 1 lower, 2 upper. *)
Definition plane (n : nat) (p : bool * nat) : nat :=
  if p.1 then 0 else if p.2 == 0 then 1 else if p.2 == n then 2 else 0.
Definition planes (extents : seq nat) (c : cell) : seq nat :=
  [seq plane q.1 q.2 | q <- zip extents c].

(** A walk through [n] edges with end points given by [edge]. *)
Definition path_nodes (L : nat) (v : nat -> nat) (edges : nat -> outcome (seq nat)) : Prop :=
  forall p, p < L -> edges p = Ok [:: v p; v p.+1].

(** The base-3 number with these digits, lowest first. *)
Definition base3 (ps : seq nat) : nat := \sum_(i < size ps) nth 0 ps i * 3 ^ i.

(** The type of face [f] of the grid refined [L] times: the code of its boundary planes if it is part of
    a face of the unrefined grid, 0 otherwise. *)
Definition fine_code (L : nat) (extents : seq nat) (f : cell) : nat :=
  if all (fun x => L %| x) (across f) then base3 (planes [seq L * n | n <- extents] f) else 0.

(** An enumeration and a slice numbering that meet the contract (non-vacuity). *)
Fixpoint enum_cells (bnd : bool) (dims : seq nat) (k : nat) : seq cell :=
  match dims with
  | [::] => if k == 0 then [:: [::]] else [::]
  | n :: dims' =>
      [seq (false, x) :: c | x <- (if bnd then iota 0 n.+1 else iota 1 n.-1), c <- enum_cells bnd dims' k]
      ++ (if k is k'.+1 then [seq (true, x) :: c | x <- iota 0 n, c <- enum_cells bnd dims' k'] else [::])
  end.
Definition ex_enum (t : tpcc) : seq cell := enum_cells (t_bnd t) (t_dims t) (t_k t).
Definition ex_slice (L : nat) (c : seq nat) : nat := foldr (fun x acc => x + L * acc) 0 c.
