(** Properties C33-C44, C56-C58: global loops, iteration, data container. *)
From mathcomp Require Import all_ssreflect all_algebra.
From Verif Require Import M_Base M_Index M_Global S_Global L_Global L_Global2 L_Global3.
Set Implicit Arguments. Unset Strict Implicit. Unset Printing Implicit Defensive.
Local Open Scope ring_scope.

(** * C33 linearity *)
Theorem C33_linear (F : realFieldType) (E : Type) (dim n n_nodes : nat) (edges : seq (seq nat * E))
    (f : local_fun F E) (phi : E -> 'M[F]_(2 * dim, n) -> 'M[F]_(2 * dim, n)) (junk : seq (seq F))
    (a b : F) (x y : seq F) :
  computes f phi -> local_linear phi -> valid_graph dim n_nodes edges -> size junk = (2 * dim)%N ->
  size x = (n_nodes * n)%N -> size y = (n_nodes * n)%N ->
  exists u v, [/\ mat_vec n junk edges f x = Ok u, mat_vec n junk edges f y = Ok v, size u = size x &
    mat_vec n junk edges f (axpy a x (axpy b y (nseq (size y) 0))) =
      Ok (axpy a u (axpy b v (nseq (size v) 0)))].
Proof. exact: mat_vec_linear. Qed.
Print Assumptions C33_linear.
Example C33_example : computes (@ex_flux [realFieldType of rat]) (@ex_flux_mx _) /\
  local_linear (@ex_flux_mx [realFieldType of rat]) /\
  valid_graph 1 3 [:: ([:: 0; 1], tt); ([:: 1; 2], tt)]%N.
Proof. split; [exact: ex_fluxP | split; [exact: ex_flux_linear | reflexivity]]. Qed.

(** * C34 order of hyperedges *)
Theorem C34_order (F : realFieldType) (E : eqType) (dim n n_nodes : nat)
    (edges edges' : seq (seq nat * E)) (f : local_fun F E)
    (phi : E -> 'M[F]_(2 * dim, n) -> 'M[F]_(2 * dim, n)) (junk junk' : seq (seq F)) (x : seq F) :
  computes f phi -> valid_graph dim n_nodes edges -> size junk = (2 * dim)%N ->
  size junk' = (2 * dim)%N -> size x = (n_nodes * n)%N -> perm_eq edges edges' ->
  mat_vec n junk edges f x = mat_vec n junk' edges' f x /\
  exists y, [/\ mat_vec n junk edges f x = Ok y, size y = size x &
    forall d, nth 0 y d = \sum_(e <- edges) scattered e.1 (phi e.2 (local_part dim n e.1 x)) d].
Proof. exact: mat_vec_order. Qed.
Print Assumptions C34_order.
Example C34_example : if mat_vec 1 (nseq 2 [::]) [:: ([:: 0; 1], tt); ([:: 1; 2], tt)]%N
    (@ex_flux [realFieldType of rat]) [:: 0; 1; 3%:R] is Ok y then y == [:: 1; 1; - 2%:R] else false.
Proof. by vm_compute. Qed.

(** * C35 the sparse matrix *)
Theorem C35_matrix (F : realFieldType) (E : Type) (dim n n_nodes : nat) (edges : seq (seq nat * E))
    (f : local_fun F E) (phi : E -> 'M[F]_(2 * dim, n) -> 'M[F]_(2 * dim, n)) (junk : seq (seq F))
    (x : seq F) :
  computes f phi -> local_linear phi -> valid_graph dim n_nodes edges -> size junk = (2 * dim)%N ->
  size x = (n_nodes * n)%N ->
  exists A y, [/\ elliptic_mat dim n [::] junk edges f = Ok A,
    elliptic_flux n (n_nodes * n) [::] junk edges f x = Ok y,
    forall d, coo_times A x d = nth 0 y d,
    size (c_row A) = size (c_val A) /\ size (c_col A) = size (c_val A) &
    forall t, (t < size (c_val A))%N ->
      (nth 0 (c_row A) t < n_nodes * n)%N /\ (nth 0 (c_col A) t < n_nodes * n)%N].
Proof. exact: mat_matches. Qed.
Print Assumptions C35_matrix.
(** The matrix does not depend on x. *)
Theorem C35_one_matrix (F : realFieldType) (E : Type) (dim n n_nodes : nat) (edges : seq (seq nat * E))
    (f : local_fun F E) (phi : E -> 'M[F]_(2 * dim, n) -> 'M[F]_(2 * dim, n)) (junk : seq (seq F)) :
  computes f phi -> valid_graph dim n_nodes edges -> size junk = (2 * dim)%N -> local_linear phi ->
  exists A, mat_generate dim n junk edges f = Ok A /\
  forall x d, coo_times A x d = global_op edges phi x d.
Proof. by move=> hf; exact: mat_is_op. Qed.
Print Assumptions C35_one_matrix.
Example C35_example : if mat_generate 1 1 (nseq 2 [::]) [:: ([:: 0; 1], tt); ([:: 1; 2], tt)]%N
    (@ex_flux [realFieldType of rat]) is Ok A then
  [&& c_row A == [:: 0; 1; 0; 1; 1; 2; 1; 2]%N, c_col A == [:: 0; 0; 1; 1; 1; 1; 2; 2]%N &
      c_val A == [:: -1; 1; 1; -1; -1; 1; 1; -1]] else false.
Proof. by vm_compute. Qed.

(** * C36 the sparse matrix ignores the Dirichlet indices *)
Theorem C36_refuted : exists dir A y d,
  [/\ read_dirichlet_indices 2 [:: 0%N] = Ok dir,
      elliptic_mat 1 1 dir (nseq 2 [::]) [:: ([:: 0; 1]%N, tt)] ex_id = Ok A,
      elliptic_flux 1 2 dir (nseq 2 [::]) [:: ([:: 0; 1]%N, tt)] ex_id [:: 1; 1] = Ok y &
      coo_times A [:: 1; 1] d <> nth 0 y d].
Proof. exact: dirichlet_mismatch. Qed.
Print Assumptions C36_refuted.
Theorem C36_partial (F : realFieldType) (E : Type) (dim n n_nodes : nat) (edges : seq (seq nat * E))
    (f : local_fun F E) (phi : E -> 'M[F]_(2 * dim, n) -> 'M[F]_(2 * dim, n)) (junk : seq (seq F))
    (dir : seq nat) (x : seq F) :
  computes f phi -> local_linear phi -> valid_graph dim n_nodes edges -> size junk = (2 * dim)%N ->
  size x = (n_nodes * n)%N -> all (fun i => i < n_nodes * n)%N dir ->
  exists A y, [/\ elliptic_mat dim n dir junk edges f = Ok A,
    elliptic_flux n (n_nodes * n) dir junk edges f x = Ok y &
    forall d, nth 0 y d = if d \in dir then 0 else coo_times A x d].
Proof. exact: mat_matches_dir. Qed.
Print Assumptions C36_partial.

(** * C37 Dirichlet rows *)
(** For trace_to_flux and, with the other local function, for residual_flux. *)
Theorem C37_rows (F : realFieldType) (E : Type) (dim n n_nodes : nat) (edges : seq (seq nat * E))
    (f : local_fun F E) (phi : E -> 'M[F]_(2 * dim, n) -> 'M[F]_(2 * dim, n)) (junk : seq (seq F))
    (l : seq nat) (x : seq F) :
  computes f phi -> valid_graph dim n_nodes edges -> size junk = (2 * dim)%N ->
  size x = (n_nodes * n)%N -> all (fun i => i < n_nodes * n)%N l ->
  exists dir z, [/\ read_dirichlet_indices (n_nodes * n) l = Ok dir,
    elliptic_flux n (n_nodes * n) dir junk edges f x = Ok z, size z = size x &
    forall d, nth 0 z d = if d \in l then 0 else global_op edges phi x d].
Proof. exact: dirichlet_flux. Qed.
Print Assumptions C37_rows.
Theorem C37_order (N : nat) (l l' : seq nat) : l =i l' ->
  read_dirichlet_indices N l = read_dirichlet_indices N l'.
Proof. exact: dirichlet_order. Qed.
Print Assumptions C37_order.
Theorem C37_out_of_range (N : nat) (l : seq nat) : ~~ all (fun i => i < N)%N l ->
  read_dirichlet_indices N l = Abort.
Proof. exact: read_dirichlet_abort. Qed.
Print Assumptions C37_out_of_range.
Example C37_example : read_dirichlet_indices 5 [:: 3; 1; 3]%N = Ok [:: 1; 3]%N /\
  read_dirichlet_indices 3 [:: 3; 1; 3]%N = Abort.
Proof. by []. Qed.

(** * C38 Dirichlet indices and refinement *)
(** One square with Dirichlet values on its second face; four squares after refinement. The payload
    is the list of node types. *)
Definition C38_graph (level : nat) : seq (seq nat * seq nat) * nat :=
  if level == 1%N then ([:: ([:: 0; 1; 2; 3], [:: 0; 1; 0; 0])], 4)%N else
  ([:: ([:: 0; 8; 4; 10], [:: 0; 0; 0; 0]); ([:: 8; 2; 5; 11], [:: 0; 1; 0; 0]);
       ([:: 1; 9; 10; 6], [:: 0; 0; 0; 0]); ([:: 9; 3; 11; 7], [:: 0; 1; 0; 0])], 12)%N.
Theorem C38_accumulated_refuted :
  let dir := dirichlet_indices 1 id [::] (C38_graph 1).1 in
  dirichlet_indices 1 id [::] (C38_graph 2).1 = [:: 2; 3]%N /\
  dirichlet_indices 1 id dir (C38_graph 2).1 = [:: 1; 2; 3]%N.
Proof. by []. Qed.
Print Assumptions C38_accumulated_refuted.
(** GlobalLoop::Elliptic keeps the indices given before the refinement. *)
Theorem C38_kept_refuted :
  let s := State 1 (C38_graph 1).2 [:: tt] [:: 1%N] in
  st_dir (set_refinement tt C38_graph 2 s) = [:: 1%N] /\
  1%N \notin dirichlet_indices 1 id [::] (C38_graph 2).1.
Proof. by []. Qed.
Print Assumptions C38_kept_refuted.
(** In general: indices are kept, and too large ones end the next call. *)
Theorem C38_actual (F : realFieldType) (E : Type) (dim n : nat) (D : Type) (d0 : D)
    (graph : nat -> seq (seq nat * E) * nat) (s : state D) (level : nat)
    (f : local_fun F E) (phi : E -> 'M[F]_(2 * dim, n) -> 'M[F]_(2 * dim, n)) (junk : seq (seq F))
    (x : seq F) :
  let s' := set_refinement d0 graph level s in
  let N := (st_nodes s' * n)%N in
  computes f phi -> valid_graph dim (st_nodes s') (graph level).1 -> size junk = (2 * dim)%N ->
  size x = N -> ~~ all (fun i => i < N)%N (st_dir s) ->
  elliptic_flux n N (st_dir s') junk (graph level).1 f x = Abort.
Proof. exact: elliptic_flux_abort. Qed.
Print Assumptions C38_actual.
(** Without a refinement in between, dirichlet_indices() returns the right set, repeatedly. *)
Theorem C38_partial (E : Type) (n : nat) (types : E -> seq nat) (edges : seq (seq nat * E)) :
  (forall d, d \in dirichlet_indices n types [::] edges =
     has (fun e => has (fun i => (nth 0%N (types e.2) i == 1%N) &&
       (d \in get_dof_indices n (nth 0%N e.1 i))) (iota 0 (size (types e.2)))) edges) /\
  dirichlet_indices n types (dirichlet_indices n types [::] edges) edges = dirichlet_indices n types [::] edges.
Proof. split; [exact: dirichlet_mem | exact: dirichlet_idem]. Qed.
Print Assumptions C38_partial.

(** * C39 symmetry and definiteness *)
Theorem C39_symmetric (F : realFieldType) (E : Type) (dim n n_nodes : nat) (edges : seq (seq nat * E))
    (f : local_fun F E) (phi : E -> 'M[F]_(2 * dim, n) -> 'M[F]_(2 * dim, n)) (junk : seq (seq F))
    (dir : seq nat) (x y : seq F) :
  computes f phi -> (forall e A B, fdot A (phi e B) = fdot B (phi e A)) ->
  valid_graph dim n_nodes edges -> size junk = (2 * dim)%N ->
  size x = (n_nodes * n)%N -> size y = (n_nodes * n)%N -> all (fun i => i < n_nodes * n)%N dir ->
  (forall d, d \in dir -> nth 0 x d = 0) -> (forall d, d \in dir -> nth 0 y d = 0) ->
  exists u v, [/\ elliptic_flux n (n_nodes * n) dir junk edges f x = Ok u,
    elliptic_flux n (n_nodes * n) dir junk edges f y = Ok v &
    vdot (n_nodes * n) y u = vdot (n_nodes * n) x v].
Proof. exact: flux_symmetric. Qed.
Print Assumptions C39_symmetric.
Theorem C39_nonpositive (F : realFieldType) (E : Type) (dim n n_nodes : nat)
    (edges : seq (seq nat * E)) (f : local_fun F E)
    (phi : E -> 'M[F]_(2 * dim, n) -> 'M[F]_(2 * dim, n)) (junk : seq (seq F)) (dir : seq nat)
    (x : seq F) :
  computes f phi -> (forall e A, fdot A (phi e A) <= 0) ->
  valid_graph dim n_nodes edges -> size junk = (2 * dim)%N ->
  size x = (n_nodes * n)%N -> all (fun i => i < n_nodes * n)%N dir ->
  (forall d, d \in dir -> nth 0 x d = 0) ->
  exists u, [/\ elliptic_flux n (n_nodes * n) dir junk edges f x = Ok u,
    vdot (n_nodes * n) x u <= 0 &
    vdot (n_nodes * n) x u = 0 ->
      all (fun e => fdot (local_part dim n e.1 x) (phi e.2 (local_part dim n e.1 x)) == 0) edges].
Proof. exact: flux_nonpos. Qed.
Print Assumptions C39_nonpositive.
Example C39_example (e : unit) (A B : 'M[rat]_(2 * 1, 1)) :
  fdot (dim := 1) A (ex_flux_mx e B) = fdot B (ex_flux_mx e A) /\ fdot (dim := 1) A (ex_flux_mx e A) <= 0.
Proof. split; [exact: ex_flux_sym | exact: ex_flux_nonpos]. Qed.

(** * C40 residual *)
Theorem C40_affine (F : realFieldType) (E : Type) (dim n n_nodes : nat) (edges : seq (seq nat * E))
    (f g : local_fun F E) (phi : E -> 'M[F]_(2 * dim, n) -> 'M[F]_(2 * dim, n))
    (c : E -> 'M[F]_(2 * dim, n)) (junk : seq (seq F)) (dir : seq nat) (x : seq F) :
  computes f phi -> computes g (fun e A => phi e A + c e) -> local_linear phi ->
  valid_graph dim n_nodes edges -> size junk = (2 * dim)%N -> size x = (n_nodes * n)%N ->
  all (fun i => i < n_nodes * n)%N dir ->
  exists r t r0, [/\ elliptic_flux n (n_nodes * n) dir junk edges g x = Ok r,
    elliptic_flux n (n_nodes * n) dir junk edges f x = Ok t,
    elliptic_flux n (n_nodes * n) dir junk edges g (nseq (size x) 0) = Ok r0,
    forall d, nth 0 r d = nth 0 t d + nth 0 r0 d &
    (forall d, nth 0 r d = 0) <-> (forall d, nth 0 t d = - nth 0 r0 d)].
Proof. exact: residual_affine. Qed.
Print Assumptions C40_affine.

(** * C41 errors *)
Theorem C41_sum (F : realFieldType) (E : Type) (dim n w n_nodes : nat) (edges : seq (seq nat * E))
    (x : seq F) (junk : seq (seq F)) (sq : F -> F) (f : E -> seq (seq F) -> outcome (seq F))
    (err : E -> 'M[F]_(2 * dim, n) -> nat -> F) :
  size x = (n_nodes * n)%N -> valid_graph dim n_nodes edges -> size junk = (2 * dim)%N ->
  err_computes w f err ->
  errors n w sq junk edges f x =
    Ok [seq sq (\sum_(e <- edges) err e.2 (local_part dim n e.1 x) k) | k <- iota 0 w].
Proof. exact: errorsE. Qed.
Print Assumptions C41_sum.
Theorem C41_order (F : realFieldType) (E : eqType) (dim n w n_nodes : nat)
    (edges edges' : seq (seq nat * E)) (f : E -> seq (seq F) -> outcome (seq F))
    (err : E -> 'M[F]_(2 * dim, n) -> nat -> F) (sq : F -> F) (junk junk' : seq (seq F)) (x : seq F) :
  err_computes w f err -> valid_graph dim n_nodes edges -> size junk = (2 * dim)%N ->
  size junk' = (2 * dim)%N -> size x = (n_nodes * n)%N -> perm_eq edges edges' ->
  errors n w sq junk edges f x = errors n w sq junk' edges' f x.
Proof. exact: errors_order. Qed.
Print Assumptions C41_order.
Theorem C41_zero (F : realFieldType) (E : Type) (dim n w n_nodes : nat) (edges : seq (seq nat * E))
    (f : E -> seq (seq F) -> outcome (seq F)) (err : E -> 'M[F]_(2 * dim, n) -> nat -> F)
    (sq : F -> F) (junk : seq (seq F)) (x : seq F) :
  err_computes w f err -> (forall e A k, 0 <= err e A k) ->
  (forall a, 0 <= a -> (sq a == 0) = (a == 0)) ->
  valid_graph dim n_nodes edges -> size junk = (2 * dim)%N -> size x = (n_nodes * n)%N ->
  exists r, [/\ errors n w sq junk edges f x = Ok r, size r = w &
    forall k, (k < w)%N -> (nth 0 r k == 0) =
      all (fun e => err e.2 (local_part dim n e.1 x) k == 0) edges].
Proof. exact: errors_zero. Qed.
Print Assumptions C41_zero.
Example C41_example : if errors 1 1 id (nseq 2 [::]) [:: ([:: 0; 1], 2); ([:: 1; 2], 5)]%N
  (fun e _ => Ok [:: e%:R]) [:: 0; 0; 0 : rat] is Ok r then r == [:: 7%:R] else false.
Proof. by vm_compute. Qed.

(** * C42 make_initial *)
Theorem C42_refuted :
  let f (t : rat) (_ : unit) (_ : seq (seq rat)) := Ok [:: [:: t]; [:: t]] in
  exists y, make_initial 1 index_of_time (nseq 2 [::]) [:: ([:: 0; 1]%N, tt)] f [:: 0; 0] (5%:R / 2%:R) = Ok y /\
  nth 0 y 0 = 2%:R /\ nth 0 y 0 <> 5%:R / 2%:R.
Proof. exact: initial_truncated. Qed.
Print Assumptions C42_refuted.
(** What holds for a time that the conversion keeps: consistent values are stored. *)
Theorem C42_partial (F : realFieldType) (E : Type) (dim n : nat) (conv : F -> F) (n_nodes : nat)
    (edges : seq (seq nat * E)) (x : seq F) (t : F) (junk : seq (seq F))
    (f : F -> E -> seq (seq F) -> outcome (seq (seq F))) (v : F -> E -> 'M[F]_(2 * dim, n))
    (g : nat -> F) :
  size x = (n_nodes * n)%N -> valid_graph dim n_nodes edges -> size junk = (2 * dim)%N ->
  init_computes f v ->
  (forall e, List.In e edges -> forall (k : 'I_(2 * dim)) (j : 'I_n),
      v (conv t) e.2 k j = g (nth 0 e.1 k * n + j)%N) ->
  exists y, [/\ make_initial n conv junk edges f x t = Ok y, size y = size x &
    forall d, (d < n_nodes * n)%N ->
      nth 0 y d = if has (fun e => (d %/ n)%N \in e.1) edges then g d else 0].
Proof. exact: make_initialE. Qed.
Print Assumptions C42_partial.
Example C42_example :
  if make_initial 1 index_of_time (nseq 2 [::]) [:: ([:: 0; 1], tt); ([:: 1; 2], tt)]%N
   (fun t _ _ => Ok [:: [:: t]; [:: t]]) [:: 0; 0; 0] 3%:R is Ok y then y == [:: 3%:R; 3%:R; 3%:R : rat]
  else false.
Proof. by vm_compute. Qed.

(** * C43 set_data *)
Theorem C43_set_data (F : realFieldType) (E : Type) (dim n : nat) (D : Type) (d0 : D) (n_nodes : nat)
    (edges : seq (seq nat * E)) (x : seq F) (junk : seq (seq F))
    (f : E -> seq (seq F) -> D -> outcome D) (g : E -> 'M[F]_(2 * dim, n) -> D -> D) (data : seq D) :
  size x = (n_nodes * n)%N -> valid_graph dim n_nodes edges -> size junk = (2 * dim)%N ->
  (forall e dofs d, shaped dim n dofs -> f e dofs d = Ok (g e (dmx dim n dofs) d)) ->
  (size edges <= size data)%N ->
  exists data', [/\ set_data n junk edges f x data = Ok data', size data' = size data &
    forall i e0, nth d0 data' i = if (i < size edges)%N
      then g (nth e0 edges i).2 (local_part dim n (nth e0 edges i).1 x) (nth d0 data i)
      else nth d0 data i].
Proof. exact: set_dataE. Qed.
Print Assumptions C43_set_data.
Example C43_example : set_data 1 (nseq 2 [::]) [:: ([:: 0; 1], 10); ([:: 1; 2], 20)]%N
  (fun e (dofs : seq (seq rat)) d => Ok (e + d)%N) [:: 0; 0; 0] [:: 1; 2]%N = Ok [:: 11; 22]%N.
Proof. reflexivity. Qed.

(** * C44 iteration *)
Theorem C44_iteration (n_hyEdges fuel : nat) : (n_hyEdges <= fuel)%N ->
  iterate fuel hyEdge_begin (hyEdge_end n_hyEdges) = Some (iota 0 n_hyEdges) /\
  all (fun i => i < n_hyEdges)%N (iota 0 n_hyEdges).
Proof. exact: iterate_all. Qed.
Print Assumptions C44_iteration.
Example C44_example : iterate 4 hyEdge_begin (hyEdge_end 3) = Some [:: 0; 1; 2]%N.
Proof. reflexivity. Qed.

(** * C56 data container *)
Theorem C56_sizes (E D : Type) (d0 : D) (graph : nat -> seq (seq nat * E) * nat) (l0 : nat) (ls : seq nat) :
  let s := runs d0 graph (construct d0 graph l0) ls in
  st_level s = last l0 ls /\ st_nodes s = (graph (last l0 ls)).2 /\
  size (st_data s) = size (graph (last l0 ls)).1.
Proof. exact: state_sizes. Qed.
Print Assumptions C56_sizes.
Theorem C56_access (E D : Type) (d0 : D) (graph : nat -> seq (seq nat * E) * nat) (l0 : nat)
    (ls : seq nat) (i : nat) :
  let s := runs d0 graph (construct d0 graph l0) ls in
  ((i < size (graph (st_level s)).1)%N -> exists d, get_data s i = Ok d) /\
  ((size (graph (st_level s)).1 <= i)%N -> get_data s i = Abort).
Proof. split; [exact: data_in_range | exact: data_out_of_range]. Qed.
Print Assumptions C56_access.
Theorem C56_reset (E D : Type) (d0 : D) (graph : nat -> seq (seq nat * E) * nat) (l : nat)
    (s : state D) (i : nat) : (i < size (graph l).1)%N ->
  get_data (set_refinement d0 graph l s) i = Ok d0 /\ st_dir (set_refinement d0 graph l s) = st_dir s.
Proof. exact: refinement_resets. Qed.
Print Assumptions C56_reset.
Example C56_example : get_data (runs 7%N C38_graph (construct 7%N C38_graph 1) [:: 2]%N) 3 = Ok 7%N.
Proof. reflexivity. Qed.

(** * C57 the Jacobian loop *)
Theorem C57_jacobian (F : realFieldType) (E : Type) (dim n n_nodes : nat) (edges : seq (seq nat * E))
    (x y : seq F) (junk : seq (seq F)) (f : local_fun2 F E)
    (phi : E -> 'M[F]_(2 * dim, n) -> 'M[F]_(2 * dim, n) -> 'M[F]_(2 * dim, n)) :
  size x = (n_nodes * n)%N -> size y = (n_nodes * n)%N -> valid_graph dim n_nodes edges ->
  size junk = (2 * dim)%N -> computes2 f phi ->
  exists z, [/\ mat_vec2 n junk edges f x y = Ok z, size z = size x &
    forall d, nth 0 z d = \sum_(e <- edges)
      scattered e.1 (phi e.2 (local_part dim n e.1 x) (local_part dim n e.1 y)) d].
Proof. exact: mat_vec2E. Qed.
Print Assumptions C57_jacobian.
Theorem C57_derivative (F : realFieldType) (E : Type) (dim n n_nodes : nat) (edges : seq (seq nat * E))
    (x y : seq F) (t : F) (junk : seq (seq F)) (f : local_fun F E) (df : local_fun2 F E)
    (phi : E -> 'M[F]_(2 * dim, n) -> 'M[F]_(2 * dim, n))
    (dphi rest : E -> 'M[F]_(2 * dim, n) -> 'M[F]_(2 * dim, n) -> 'M[F]_(2 * dim, n)) :
  computes f phi -> computes2 df dphi ->
  (forall e A B s, phi e (s *: A + B) = phi e B + s *: dphi e A B + s ^+ 2 *: rest e A B) ->
  size x = (n_nodes * n)%N -> size y = (n_nodes * n)%N -> valid_graph dim n_nodes edges ->
  size junk = (2 * dim)%N ->
  exists u v j, [/\ mat_vec n junk edges f (axpy t x y) = Ok u, mat_vec n junk edges f y = Ok v,
    mat_vec2 n junk edges df x y = Ok j &
    forall d, nth 0 u d = nth 0 v d + t * nth 0 j d + t ^+ 2 *
      \sum_(e <- edges) scattered e.1 (rest e.2 (local_part dim n e.1 x) (local_part dim n e.1 y)) d].
Proof. exact: jacobian_derivative. Qed.
Print Assumptions C57_derivative.
Example C57_example : if mat_vec2 1 (nseq 2 [::]) [:: ([:: 0; 1]%N, tt)]
  (fun _ old _ vals => Ok [:: [:: 2%:R * nth 0 (nth [::] vals 0) 0 * nth 0 (nth [::] old 0) 0]; [:: 0]])
  [:: 1; 1] [:: 3%:R; 0 : rat] is Ok z then z == [:: 6%:R; 0] else false.
Proof. by vm_compute. Qed.

(** * C58 hypergraphs sharing a topology *)
Theorem C58_refuted (E D : Type) (d0 : D) (graph : nat -> seq (seq nat * E) * nat)
    (k k' l0 level n_views i : nat) : (k < n_views)%N -> (k' < n_views)%N -> k != k' ->
  (size (graph l0).1 <= i < size (graph level).1)%N ->
  pool_get graph k (pool_refine d0 graph k' level (pool_construct d0 graph l0 n_views)) i = Abort.
Proof. exact: pool_stale. Qed.
Print Assumptions C58_refuted.
Theorem C58_partial (E D : Type) (d0 : D) (graph : nat -> seq (seq nat * E) * nat) (k level : nat)
    (p : pool D) (i : nat) : (k < size (pl_views p))%N -> (i < size (graph level).1)%N ->
  exists e, pool_get graph k (pool_refine d0 graph k level p) i = Ok (e, d0).
Proof. exact: pool_own. Qed.
Print Assumptions C58_partial.
Example C58_example : pool_get C38_graph 0
  (pool_refine 7%N C38_graph 1 2 (pool_construct 7%N C38_graph 1 2)) 3 = Abort.
Proof. reflexivity. Qed.
