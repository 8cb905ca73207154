(** Properties C12-C15: tensor indices and degrees of freedom of hypernodes. *)
From mathcomp Require Import all_ssreflect all_algebra.
From Verif Require Import M_Base M_Index S_Index L_Index.
Set Implicit Arguments. Unset Strict Implicit. Unset Printing Implicit Defensive.

(** * C12 tensor indices enumerate the full grid *)
(** Every flat index below n^dim is decomposed, into a tuple that represents it. *)
Theorem C12_decompose (dim i r : nat) : 0 < dim -> 0 < r -> i < r ^ dim ->
  exists d, [/\ index_decompose dim i r = Ok d, size d = dim, all (fun x => x < r) d & compose r d = i].
Proof. exact: decompose_ok. Qed.
Print Assumptions C12_decompose.
(** Every tuple is the decomposition of exactly its own value. *)
Theorem C12_onto (dim r : nat) (d : seq nat) : 0 < dim -> size d = dim -> all (fun x => x < r) d ->
  compose r d < r ^ dim /\ index_decompose dim (compose r d) r = Ok d.
Proof. exact: decompose_onto. Qed.
Print Assumptions C12_onto.
Theorem C12_reject (dim i r : nat) : 0 < dim -> 0 < r -> r ^ dim <= i ->
  index_decompose dim i r = Abort.
Proof. exact: decompose_abort. Qed.
Print Assumptions C12_reject.
(** Each tensor grid point is visited, and only once when the points are distinct. *)
Theorem C12_points_onto (T : Type) (x0 : T) (dim : nat) (pts : seq T) (d : seq nat) : 0 < dim ->
  size d = dim -> all (fun k => k < size pts) d ->
  exists2 i, i < size pts ^ dim & tensorial_pt x0 dim i pts = Ok [seq nth x0 pts k | k <- d].
Proof. exact: tensorial_once. Qed.
Print Assumptions C12_points_onto.
Theorem C12_points_once (T : eqType) (x0 : T) (dim : nat) (pts : seq T) (i j : nat) : 0 < dim ->
  uniq pts -> i < size pts ^ dim -> j < size pts ^ dim ->
  tensorial_pt x0 dim i pts = tensorial_pt x0 dim j pts -> i = j.
Proof. exact: tensorial_inj. Qed.
Print Assumptions C12_points_once.
(** pow is the power (modulo the word size). *)
Theorem C12_pow (W dim base : nat) :
  hc_pow dim base = base ^ dim /\ hc_pow_w W dim base = base ^ dim %% W.
Proof. by split; [exact: hc_powE | exact: hc_pow_wE]. Qed.
Print Assumptions C12_pow.
Example C12_example : index_decompose 3 23 4 = Ok [:: 3; 1; 1] /\
  tensorial_pt 0 3 23 [:: 5; 6; 7; 8] = Ok [:: 8; 6; 6].
Proof. by []. Qed.

(** * C13 dofs are partitioned among the hypernodes *)
Theorem C13_cover (n_nodes n d : nat) : d < n_global_dofs n_nodes n ->
  exists i, [/\ i < n_nodes, d \in get_dof_indices n i & node_of_dof n_nodes n d = Ok i].
Proof. exact: dofs_cover. Qed.
Print Assumptions C13_cover.
Theorem C13_inverse (n_nodes n i d : nat) : i < n_nodes -> d \in get_dof_indices n i ->
  d < n_global_dofs n_nodes n /\ node_of_dof n_nodes n d = Ok i.
Proof. exact: dofs_in_range. Qed.
Print Assumptions C13_inverse.
Theorem C13_disjoint (n i j d : nat) :
  d \in get_dof_indices n i -> d \in get_dof_indices n j -> i = j.
Proof. exact: dofs_disjoint. Qed.
Print Assumptions C13_disjoint.
(** Each hypernode has its n dofs, consecutively. *)
Theorem C13_block (n i : nat) : get_dof_indices n i = iota (i * n) n.
Proof. exact: dof_indicesE. Qed.
Print Assumptions C13_block.
Theorem C13_outside (n_nodes n d : nat) :
  n_global_dofs n_nodes n <= d -> node_of_dof n_nodes n d = Abort.
Proof. exact: dofs_outside. Qed.
Print Assumptions C13_outside.
Example C13_example : 7 < n_global_dofs 4 3 /\ 7 \in get_dof_indices 3 2.
Proof. by []. Qed.

(** * C14 access to hypernode dofs *)
Theorem C14_get (R : ringType) (n i : nat) (x : seq R) : i * n + n <= size x ->
  get_dof_values n i x = Ok (take n (drop (i * n) x)).
Proof. exact: get_dof_valuesE. Qed.
Print Assumptions C14_get.
Theorem C14_set_get (R : ringType) (n i : nat) (x v : seq R) : size v = n -> i * n + n <= size x ->
  exists2 y, set_dof_values n i x v = Ok y & get_dof_values n i y = Ok v.
Proof. exact: set_get. Qed.
Print Assumptions C14_set_get.
Theorem C14_set_frame (R : ringType) (n i : nat) (x v : seq R) :
  size v = n -> i * n + n <= size x ->
  exists y, [/\ set_dof_values n i x v = Ok y, size y = size x &
   forall d, nth 0%R y d = if d \in get_dof_indices n i then nth 0%R v (d - i * n) else nth 0%R x d].
Proof. exact: set_dof_valuesE. Qed.
Print Assumptions C14_set_frame.
Theorem C14_set_const (R : ringType) (n i : nat) (x : seq R) (c : R) : i * n + n <= size x ->
  exists y, [/\ set_dof_values_const n i x c = Ok y, size y = size x &
   forall d, nth 0%R y d = if d \in get_dof_indices n i then c else nth 0%R x d].
Proof. exact: set_dof_values_constE. Qed.
Print Assumptions C14_set_const.
Theorem C14_add_frame (R : ringType) (n i : nat) (x v : seq R) :
  size v = n -> i * n + n <= size x ->
  exists y, [/\ add_to_dof_values n i x v = Ok y, size y = size x &
   forall d, nth 0%R y d = if d \in get_dof_indices n i then (nth 0%R x d + nth 0%R v (d - i * n))%R
                           else nth 0%R x d].
Proof. exact: add_to_dof_valuesE. Qed.
Print Assumptions C14_add_frame.
Theorem C14_in_range (R : ringType) (n_nodes n i : nat) (x : seq R) :
  size x = n_global_dofs n_nodes n -> i < n_nodes -> i * n + n <= size x.
Proof. exact: node_range_ok. Qed.
Print Assumptions C14_in_range.
Theorem C14_reject (R : ringType) (n_nodes n i : nat) (x v : seq R) :
  size x = n_global_dofs n_nodes n -> 0 < n -> n_nodes <= i ->
  [/\ get_dof_values n i x = Abort, set_dof_values n i x v = Abort,
      add_to_dof_values n i x v = Abort & forall c, set_dof_values_const n i x c = Abort].
Proof. exact: node_range_abort. Qed.
Print Assumptions C14_reject.
Example C14_example : size [:: 1%R; 1%R : int] = 2 /\ 1 * 2 + 2 <= size (nseq 4 (0%R : int)).
Proof. by []. Qed.

(** * C15 numbering with fixed-width indices (W = 2^32 for unsigned int) *)
Theorem C15_distinct (W n n_nodes i : nat) : n_nodes * n <= W -> i < n_nodes ->
  get_dof_indices_w W n i = get_dof_indices n i.
Proof. exact: no_wrap. Qed.
Print Assumptions C15_distinct.
Theorem C15_collision (W n n_nodes : nat) : 0 < n <= W -> W < n_nodes * n ->
  exists i j, [/\ i < j, j < n_nodes &
    exists2 d, d \in get_dof_indices_w W n i & d \in get_dof_indices_w W n j].
Proof. exact: wrap_collision. Qed.
Print Assumptions C15_collision.
(** Both together: distinct exactly up to the word size. *)
Theorem C15_exact (W n n_nodes : nat) : 0 < n <= W ->
  (forall i j d, i < j -> j < n_nodes -> d \in get_dof_indices_w W n i ->
                 d \in get_dof_indices_w W n j -> False) <-> n_nodes * n <= W.
Proof. exact: wrap_exact. Qed.
Print Assumptions C15_exact.
(** Beyond that the debug range check wraps as well and accepts a hypernode past the end. *)
Theorem C15_check_wraps (W n : nat) (R : ringType) (x : seq R) (i : nat) :
  0 < n < W -> n %| W -> n <= size x -> i * n = W ->
  get_dof_values_w W n i x = get_dof_values n 0 x.
Proof. exact: wrap_check. Qed.
Print Assumptions C15_check_wraps.
Example C15_example : (0 < 3 <= 2 ^ 8) /\ 2 ^ 8 < 86 * 3 /\ 85 * 3 <= 2 ^ 8.
Proof. by []. Qed.
