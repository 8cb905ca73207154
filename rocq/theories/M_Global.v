(** Model of include/HyperHDG/global_loop/*.hxx, hy_data_container.hxx and the iteration part of
    hdg_hypergraph.hxx. A hyperedge is the list of its hypernode numbers
    (topology.get_hyNode_indices()) and a payload [E] (geometry, node descriptor, ...); the local
    solver functions are parameters that may fail. Floating point numbers are elements of an
    ordered field. Assertions are on (debug build). *)
From mathcomp Require Import all_ssreflect all_algebra.
From Verif Require Import M_Base M_Index.
Set Implicit Arguments. Unset Strict Implicit. Unset Printing Implicit Defensive.
Import GRing.Theory Num.Theory.
Local Open Scope ring_scope.

(** hdg_hypergraph.hxx:114-235, 416-437: iterators are indices; the loop
    [for (it = begin; !(it == end); ++it) f( *it)] with at most [fuel] steps lists the indices at
    which the iterator is dereferenced, and [None] if it has not reached the end. *)
Fixpoint iterate (fuel : nat) (it last : nat) : option (seq nat) :=
  if it == last then Some [::] else
  if fuel is fuel'.+1 then
    if iterate fuel' it.+1 last is Some l then Some (it :: l) else None
  else None.
Definition hyEdge_begin : nat := 0.
Definition hyEdge_end (n_hyEdges : nat) : nat := n_hyEdges.

Section Loops.
Variables (F : realFieldType) (E : Type).
(** [dim] = hyEdge_dim, [n] = n_dofs_per_node. *)
Variables (dim n : nat).
Local Notation m := (2 * dim)%N.
Definition edge := (seq nat * E)%type.
(** Local solver functions: payload, dofs_old, dofs_new; the result is dofs_new afterwards. *)
Definition local_fun := E -> seq (seq F) -> seq (seq F) -> outcome (seq (seq F)).

(** prototype.hxx:30-34 (elliptic) and e.g. parabolic.hxx:189-194: gather and reset. *)
Definition gather (hyNodes : seq nat) (x : seq F) (old new : seq (seq F)) :=
  foro (size hyNodes) (fun k st =>
    obind (get_dof_values n (nth 0%N hyNodes k) x) (fun v =>
      Ok (upd st.1 k v, upd st.2 k (nseq n 0)))) (old, new).
(** prototype.hxx:53-54: scatter. *)
Definition scatter_add (hyNodes : seq nat) (new : seq (seq F)) (ax : seq F) : outcome (seq F) :=
  foro (size hyNodes) (fun k ax => add_to_dof_values n (nth 0%N hyNodes k) ax (nth [::] new k)) ax.

(** prototype.hxx:18-58 prototype_mat_vec_multiply; the same loop is written out in
    parabolic.hxx:172-223 and 238-294, mass_approx_eigenvalue.hxx:184-235 and 248-303,
    shifted_inverse_eigenvalue.hxx:176-227, nonlinear_eigenvalue.hxx:143-194. The local arrays are
    declared outside the loop without initial values: [junk] is their content. *)
Definition mat_vec (junk : seq (seq F)) (edges : seq edge) (f : local_fun) (x : seq F)
    : outcome (seq F) :=
  omap (fun st => st.1.1)
    (foldo (fun e st => let: (ax, old, new) := st in
       obind (gather e.1 x old new) (fun on =>
       obind (f e.2 on.1 on.2) (fun new' =>
       obind (scatter_add e.1 new' ax) (fun ax' => Ok (ax', on.1, new')))))
     (nseq (size x) 0, junk, junk) edges).

(** nonlinear_eigenvalue.hxx:208-274 jacobian_of_trace_to_flux: two vectors are gathered. *)
Definition local_fun2 := E -> seq (seq F) -> seq (seq F) -> seq (seq F) -> outcome (seq (seq F)).
Definition gather2 (hyNodes : seq nat) (x y : seq F) (old vals new : seq (seq F)) :=
  foro (size hyNodes) (fun k st => let: (old, vals, new) := st in
    obind (get_dof_values n (nth 0%N hyNodes k) x) (fun v =>
    obind (get_dof_values n (nth 0%N hyNodes k) y) (fun w =>
      Ok (upd old k v, upd vals k w, upd new k (nseq n 0))))) (old, vals, new).
Definition mat_vec2 (junk : seq (seq F)) (edges : seq edge) (f : local_fun2) (x y : seq F)
    : outcome (seq F) :=
  omap (fun st => st.1)
    (foldo (fun e st => let: (ax, (old, vals, new)) := st in
       obind (gather2 e.1 x y old vals new) (fun ovn => let: (old, vals, new) := ovn in
       obind (f e.2 old new vals) (fun new' =>
       obind (scatter_add e.1 new' ax) (fun ax' => Ok (ax', (old, vals, new'))))))
     (nseq (size x) 0, (junk, junk, junk)) edges).

(** prototype.hxx:60-70 sparse_mat. *)
Record coo := Coo { c_row : seq nat; c_col : seq nat; c_val : seq F }.
(** prototype.hxx:139-141: the three iterators advance together; [pos] is their position. *)
Definition emit (st : coo * nat) (r c : nat) (v : F) : outcome (coo * nat) :=
  let: (a, pos) := st in
  obind (store (c_row a) pos r) (fun row =>
  obind (store (c_col a) pos c) (fun col =>
  obind (store (c_val a) pos v) (fun val => Ok (Coo row col val, pos.+1)))).
(** The result of a column computation is written for all local rows, prototype.hxx:136-142. *)
Definition emit_column (idx : seq (seq nat)) (new : seq (seq F)) (nj dj : nat) (st : coo * nat) :=
  foro (size idx) (fun ni st => foro n (fun di st =>
    emit st (nth 0%N (nth [::] idx ni) di) (nth 0%N (nth [::] idx nj) dj)
            (nth 0 (nth [::] new ni) di)) st) st.
(** prototype.hxx:111-116 the unit vector. *)
Definition unit_dofs (k nj dj : nat) (old new : seq (seq F)) : seq (seq F) * seq (seq F) :=
  let: (old, new) := for_ k (fun i st => (upd st.1 i (nseq n 0), upd st.2 i (nseq n 0))) (old, new) in
  (upd old nj (upd (nth [::] old nj) dj 1), new).
(** prototype.hxx:87-147 prototype_mat_generate. *)
Definition mat_generate (junk : seq (seq F)) (edges : seq edge) (f : local_fun) : outcome coo :=
  let len := (size edges * 4 * dim * dim * n * n)%N in
  omap (fun st => st.1.1)
   (foldo (fun e st =>
      let idx := for_ (size e.1) (fun k s => upd s k (get_dof_indices n (nth 0%N e.1 k)))
                      (nseq (size e.1) [::]) in
      foro (size e.1) (fun nj st => foro n (fun dj st =>
        let: (a, on) := st in
        let: (old, new) := unit_dofs (size e.1) nj dj on.1 on.2 in
        obind (f e.2 old new) (fun new' =>
        obind (emit_column idx new' nj dj a) (fun a' => Ok (a', (old, new'))))) st) st)
    ((Coo (nseq len 0%N) (nseq len 0%N) (nseq len 0), 0%N), (junk, junk)) edges).

(** prototype.hxx:164-198 prototype_errors with error_def of the local solvers
    (diffusion_ldgh.hxx:130-163 and identical copies in the others): arrays of [w] entries
    (w = 1 in all solvers). *)
Definition initial_error (w : nat) : seq F := nseq w 0.
Definition sum_error (s e : seq F) : seq F := for_ (size s) (fun k s => add_at s k (nth 0 e k)) s.
Definition postprocess_error (sqrt : F -> F) (s : seq F) : seq F :=
  for_ (size s) (fun k s => upd s k (sqrt (nth 0 s k))) s.
Definition errors (w : nat) (sqrt : F -> F) (junk : seq (seq F)) (edges : seq edge)
    (f : E -> seq (seq F) -> outcome (seq F)) (x : seq F) : outcome (seq F) :=
  omap (fun st => postprocess_error sqrt st.1)
   (foldo (fun e st => let: (res, dofs) := st in
      obind (foro (size e.1) (fun k dofs => obind (get_dof_values n (nth 0%N e.1 k) x) (fun v =>
               Ok (upd dofs k v))) dofs) (fun dofs =>
      obind (f e.2 dofs) (fun err => Ok (sum_error res err, dofs))))
    (initial_error w, junk) edges).

(** parabolic.hxx:302-339 set_data: the payload and the data entry of the hyperedge. *)
Definition set_data (D : Type) (junk : seq (seq F)) (edges : seq edge)
    (f : E -> seq (seq F) -> D -> outcome D) (x : seq F) (data : seq D) : outcome (seq D) :=
  omap (fun st => st.1)
   (foro (size edges) (fun i st => let: (data, dofs) := st in
      obind (load edges i) (fun e =>
      obind (foro (size e.1) (fun k dofs => obind (get_dof_values n (nth 0%N e.1 k) x) (fun v =>
               Ok (upd dofs k v))) dofs) (fun dofs =>
      if (i < size data)%N then
        obind (load data i) (fun d => obind (f e.2 dofs d) (fun d' =>
        obind (store data i d') (fun data' => Ok (data', dofs))))
      else Abort))) (data, junk)).

(** parabolic.hxx:347-396 make_initial; [conv] is the conversion of the caller's time to
    dof_index_t and back. *)
Definition make_initial (conv : F -> F) (junk : seq (seq F)) (edges : seq edge)
    (f : F -> E -> seq (seq F) -> outcome (seq (seq F))) (x : seq F) (time : F) : outcome (seq F) :=
  omap (fun st => st.1)
   (foldo (fun e st => let: (ax, dofs) := st in
      let dofs := for_ (size e.1) (fun k d => upd d k (nseq n 0)) dofs in
      obind (f (conv time) e.2 dofs) (fun dofs =>
      obind (foro (size e.1) (fun k ax => set_dof_values n (nth 0%N e.1 k) ax (nth [::] dofs k)) ax)
            (fun ax => Ok (ax, dofs))))
    (nseq (size x) 0, junk) edges).

(** ** Dirichlet indices *)
(** std::unique followed by erase. *)
Fixpoint unique_after (x : nat) (s : seq nat) : seq nat :=
  if s is y :: s' then if y == x then unique_after x s' else y :: unique_after y s' else [::].
Definition std_unique (s : seq nat) : seq nat := if s is x :: s' then x :: unique_after x s' else [::].
(** elliptic.hxx:160-176 read_dirichlet_indices; [N] = n_global_dofs. *)
Definition read_dirichlet_indices (N : nat) (indices : seq nat) : outcome (seq nat) :=
  omap (fun d => std_unique (sort leq d))
   (foro (size indices) (fun i d =>
      if (nth 0%N indices i < N)%N then Ok (upd d i (nth 0%N indices i)) else Abort)
    (nseq (size indices) 0%N)).
(** elliptic.hxx:205-213 and 257-265. *)
Definition zero_rows (N : nat) (dir : seq nat) (y : seq F) : outcome (seq F) :=
  foro (size dir) (fun i y =>
    if (nth 0%N dir i < N)%N then store y (nth 0%N dir i) 0 else Abort) y.
(** elliptic.hxx:200-216 trace_to_flux and 252-268 residual_flux. *)
Definition elliptic_flux (N : nat) (dir : seq nat) (junk : seq (seq F)) (edges : seq edge)
    (f : local_fun) (x : seq F) : outcome (seq F) :=
  obind (mat_vec junk edges f x) (zero_rows N dir).
(** elliptic.hxx:232-235 trace_to_flux_mat. *)
Definition elliptic_mat (dir : seq nat) (junk : seq (seq F)) (edges : seq edge) (f : local_fun) :=
  mat_generate junk edges f.
(** mass_approx_eigenvalue.hxx:139-169 and shifted_inverse_eigenvalue.hxx:135-165
    dirichlet_indices; [types] is local_solver_.node_types. The second argument is the member
    dirichlet_indices_ before the call; the result is its new value, which is also returned. *)
Definition dirichlet_indices (types : E -> seq nat) (dir : seq nat) (edges : seq edge) : seq nat :=
  std_unique (sort leq
   (foldl (fun dir e => for_ (size (types e.2)) (fun i dir =>
       if nth 0%N (types e.2) i == 1%N then dir ++ get_dof_indices n (nth 0%N e.1 i) else dir) dir)
     dir edges)).
End Loops.

(** ** State of a global loop object across refinements *)
Section State.
Variables (E D : Type) (d0 : D).
(** The hypergraph as a function of the refinement level: hyperedges and number of hypernodes. *)
Variable graph : nat -> seq (seq nat * E) * nat.
(** hdg_hypergraph.hxx:257-293 and elliptic.hxx:66-75: refinement level of topology, geometry and
    node descriptor, number of hypernodes known to the factory, data container, Dirichlet indices. *)
Record state := State { st_level : nat; st_nodes : nat; st_data : seq D; st_dir : seq nat }.
(** hdg_hypergraph.hxx:306-325, hy_data_container.hxx:45. *)
Definition construct (level : nat) : state :=
  State level (graph level).2 (nseq (size (graph level).1) d0) [::].
(** hdg_hypergraph.hxx:525-533 and elliptic.hxx:329. *)
Definition set_refinement (level : nat) (s : state) : state :=
  State level (graph level).2 (nseq (size (graph level).1) d0) (st_dir s).
(** hy_data_container.hxx:60-67 get_hyEdge. *)
Definition get_data (s : state) (i : nat) : outcome D :=
  if (i < size (st_data s))%N then load (st_data s) i else Abort.

(** hdg_hypergraph.hxx:370-391: several hypergraphs built on the same shared topology, geometry and
    node descriptor. The level is stored in the shared objects; each hypergraph has its own number
    of hypernodes and data. *)
Record pool := Pool { pl_level : nat; pl_views : seq (nat * seq D) }.
Definition pool_construct (level k : nat) : pool :=
  Pool level (nseq k ((graph level).2, nseq (size (graph level).1) d0)).
(** hdg_hypergraph.hxx:525-533 called on hypergraph number [k]. *)
Definition pool_refine (k level : nat) (p : pool) : pool :=
  Pool level (upd (pl_views p) k ((graph level).2, nseq (size (graph level).1) d0)).
(** Dereferencing the iterator (hdg_hypergraph.hxx:404-408, hy_data_container.hxx:60-67). *)
Definition pool_get (k : nat) (p : pool) (i : nat) : outcome ((seq nat * E) * D) :=
  obind (load (pl_views p) k) (fun v =>
  obind (load (graph (pl_level p)).1 i) (fun e =>
  if (i < size v.2)%N then omap (fun d => (e, d)) (load v.2 i) else Abort)).
End State.

(** parabolic.hxx:348: the parameter [time] of make_initial has the type dof_index_t, so a caller's
    nonnegative floating point time is truncated to an integer before it is used. *)
Definition index_of_time (t : rat) : rat := (absz (numq t) %/ absz (denq t))%N%:R.
