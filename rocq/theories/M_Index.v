(** Model of include/HyperHDG/hypercube.hxx and include/HyperHDG/hypernodefactory.hxx.
    Indices are unbounded natural numbers; the versions with suffix [_w] compute modulo a word size
    (2^32 for the default index type unsigned int). *)
From mathcomp Require Import all_ssreflect all_algebra.
From Verif Require Import M_Base.
Set Implicit Arguments. Unset Strict Implicit. Unset Printing Implicit Defensive.

(** hypercube.hxx:17 n_faces, 21 n_vertices. *)
Definition n_faces (dim : nat) : nat := 2 * dim.
Definition n_vertices (dim : nat) : nat := 2 ^ dim.
(** hypercube.hxx:25-32 pow. *)
Definition hc_pow (dim base : nat) : nat := for_ dim (fun _ r => r * base) 1.
Definition hc_pow_w (W dim base : nat) : nat := for_ dim (fun _ r => (r * base) %% W) (1 %% W).

(** hypercube.hxx:40-52 index_decompose; the array has max(dim, 1) entries. A zero range divides by
    zero; the final assertion makes a debug build abort. *)
Definition index_decompose (dim index range : nat) : outcome (seq nat) :=
  if range == 0 then UB else
  let m := maxn dim 1 in
  let: (d, rest) := for_ m (fun k st => (upd st.1 k (st.2 %% range), st.2 %/ range))
                         (nseq m 0, index) in
  if rest == 0 then Ok d else Abort.
(** hypercube.hxx:60-73 tensorial_pt; [x0] stands for the default constructed coordinate. *)
Definition tensorial_pt (T : Type) (x0 : T) (dim index : nat) (points : seq T) : outcome (seq T) :=
  if dim == 0 then Ok [::] else
  obind (index_decompose dim index (size points)) (fun dec =>
    Ok (for_ dim (fun k p => upd p k (nth x0 points (nth 0 dec k))) (nseq dim x0))).

(** hypernodefactory.hxx:88-92 n_global_dofs. *)
Definition n_global_dofs (n_nodes n : nat) : nat := n_nodes * n.
(** hypernodefactory.hxx:103-116 get_dof_indices (array of n entries). *)
Definition get_dof_indices (n i : nat) : seq nat :=
  for_ n (fun k s => upd s k (i * n + k)) (nseq n 0).
(** hypernodefactory.hxx:124-129 get_hyNode_from_dof_index. *)
Definition node_of_dof (n_nodes n dof : nat) : outcome nat :=
  if dof < n_global_dofs n_nodes n then (if n == 0 then UB else Ok (dof %/ n)) else Abort.

Section Values.
Variable R : ringType.
Implicit Types (x v : seq R).
Local Open Scope ring_scope.
(** hypernodefactory.hxx:144-168 get_dof_values, debug build. *)
Definition get_dof_values (n i : nat) x : outcome (seq R) :=
  if (i * n + n <= size x)%N
  then Ok (for_ n (fun k s => upd s k (nth 0 x (i * n + k))) (nseq n 0)) else Abort.
(** hypernodefactory.hxx:186-210 add_to_dof_values, debug build. *)
Definition add_to_dof_values (n i : nat) x v : outcome (seq R) :=
  if (size v == n) && (i * n + n <= size x)%N
  then Ok (for_ n (fun k x => add_at x (i * n + k) (nth 0 v k)) x) else Abort.
(** hypernodefactory.hxx:228-251 set_dof_values with a vector, debug build. *)
Definition set_dof_values (n i : nat) x v : outcome (seq R) :=
  if (size v == n) && (i * n + n <= size x)%N
  then Ok (for_ n (fun k x => upd x (i * n + k) (nth 0 v k)) x) else Abort.
(** hypernodefactory.hxx:263-279 set_dof_values with one value, debug build. *)
Definition set_dof_values_const (n i : nat) x (c : R) : outcome (seq R) :=
  if (i * n + n <= size x)%N then Ok (for_ n (fun k x => upd x (i * n + k) c) x) else Abort.
(** hypernodefactory.hxx:144-168 with index arithmetic modulo W. *)
Definition get_dof_values_w (W n i : nat) x : outcome (seq R) :=
  let initial := ((i * n) %% W)%N in
  if ((initial + n) %% W <= size x)%N
  then foro n (fun k s => obind (load x ((initial + k) %% W)%N) (fun y => Ok (upd s k y))) (nseq n 0)
  else Abort.
End Values.
(** hypernodefactory.hxx:103-116 with index arithmetic modulo W. *)
Definition get_dof_indices_w (W n i : nat) : seq nat :=
  for_ n (fun k s => upd s k (((i * n) %% W + k) %% W)) (nseq n 0).
