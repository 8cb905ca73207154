(** Vocabulary for the properties of the global loops. *)
From mathcomp Require Import all_ssreflect all_algebra.
From Verif Require Import M_Base M_Global.
Set Implicit Arguments. Unset Strict Implicit. Unset Printing Implicit Defensive.
Import GRing.Theory Num.Theory.
Local Open Scope ring_scope.

Section S.
Variables (F : realFieldType) (E : Type) (dim n : nat).
Local Notation m := (2 * dim)%N.

(** Local arrays of m hypernodes with n dofs each, and the matrix they hold. *)
Definition shaped (d : seq (seq F)) : Prop :=
  size d = m /\ forall k, (k < m)%N -> size (nth [::] d k) = n.
Definition dmx (d : seq (seq F)) : 'M[F]_(m, n) := \matrix_(k, j) nth 0 (nth [::] d k) j.

(** Every hyperedge has m hypernodes with numbers below n_nodes. *)
Definition valid_graph (n_nodes : nat) (edges : seq (seq nat * E)) : bool :=
  all (fun e => (size e.1 == m) && all (fun i => i < n_nodes)%N e.1) edges.

(** The local function [f] succeeds and computes [phi] from the old dofs, given zeroed new dofs. *)
Definition computes (f : local_fun F E) (phi : E -> 'M[F]_(m, n) -> 'M[F]_(m, n)) : Prop :=
  forall e old new, shaped old -> shaped new -> dmx new = 0 ->
  exists new', [/\ f e old new = Ok new', shaped new' & dmx new' = phi e (dmx old)].

(** Dofs of the global vector at the hypernodes of a hyperedge. *)
Definition local_part (nodes : seq nat) (x : seq F) : 'M[F]_(m, n) :=
  \matrix_(k, j) nth 0 x (nth 0%N nodes k * n + j).
(** Contribution of local values to global entry [d]. *)
Definition scattered (nodes : seq nat) (A : 'M[F]_(m, n)) (d : nat) : F :=
  \sum_(k < m) \sum_(j < n) (if (nth 0%N nodes k * n + j == d)%N then A k j else 0).
(** The mathematical global operator. *)
Definition global_op (edges : seq (seq nat * E)) (phi : E -> 'M[F]_(m, n) -> 'M[F]_(m, n))
    (x : seq F) (d : nat) : F :=
  \sum_(e <- edges) scattered e.1 (phi e.2 (local_part e.1 x)) d.

Definition local_linear (phi : E -> 'M[F]_(m, n) -> 'M[F]_(m, n)) : Prop :=
  forall e a A B, phi e (a *: A + B) = a *: phi e A + phi e B.
(** Frobenius inner product of local arrays, inner product of vectors of length N. *)
Definition fdot (A B : 'M[F]_(m, n)) : F := \sum_(k < m) \sum_(j < n) A k j * B k j.
Definition vdot (N : nat) (x y : seq F) : F := \sum_(i < N) nth 0 x i * nth 0 y i.
(** a x + y. *)
Definition axpy (a : F) (x y : seq F) : seq F :=
  [seq a * nth 0 x i + nth 0 y i | i <- iota 0 (size x)].

(** Product of a coordinate matrix with a vector, entry d. *)
Definition coo_times (A : coo F) (x : seq F) (d : nat) : F :=
  \sum_(t < size (c_val A)) (if nth 0%N (c_row A) t == d then nth 0 (c_val A) t * nth 0 x (nth 0%N (c_col A) t)
                             else 0).
(** The local error function succeeds and computes the w values [err] from the local dofs. *)
Definition err_computes (w : nat) (f : E -> seq (seq F) -> outcome (seq F))
    (err : E -> 'M[F]_(m, n) -> nat -> F) : Prop :=
  forall e d, shaped d -> exists v, [/\ f e d = Ok v, size v = w &
    forall k, (k < w)%N -> nth 0 v k = err e (dmx d) k].
(** The local initial values at time t are [v t e]. *)
Definition init_computes (f : F -> E -> seq (seq F) -> outcome (seq (seq F)))
    (v : F -> E -> 'M[F]_(m, n)) : Prop :=
  forall t e d, shaped d -> dmx d = 0 ->
  exists d', [/\ f t e d = Ok d', shaped d' & dmx d' = v t e].
(** The local Jacobian succeeds and computes [phi] from direction and linearization point. *)
Definition computes2 (f : local_fun2 F E)
    (phi : E -> 'M[F]_(m, n) -> 'M[F]_(m, n) -> 'M[F]_(m, n)) : Prop :=
  forall e old new vals, shaped old -> shaped new -> shaped vals -> dmx new = 0 ->
  exists new', [/\ f e old new vals = Ok new', shaped new' & dmx new' = phi e (dmx old) (dmx vals)].
End S.

(** History of a hypergraph: a sequence of refinements. *)
Definition runs (E D : Type) (d0 : D) (graph : nat -> seq (seq nat * E) * nat) (s : state D)
    (ls : seq nat) : state D := foldl (fun s l => set_refinement d0 graph l s) s ls.

(** Nodes all of whose n dofs are listed, and nodes joined to such nodes by chains of hyperedges. *)
Definition fixed_node (n : nat) (dir : seq nat) (v : nat) : Prop :=
  forall j, (j < n)%N -> (v * n + j)%N \in dir.
Inductive anchored (E : Type) (edges : seq (seq nat * E)) (fixed : nat -> Prop) : nat -> Prop :=
| anchored_fixed v : fixed v -> anchored edges fixed v
| anchored_step e v w : List.In e edges -> v \in e.1 -> w \in e.1 -> anchored edges fixed v ->
    anchored edges fixed w.
