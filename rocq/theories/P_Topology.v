(** C16-C20: numbering of hypernodes, refinement, node types. [enum] and [slice] stand for the TPCC
    library and are only assumed to meet its contract (S_Topology). *)
From mathcomp Require Import all_ssreflect all_algebra.
From Verif Require Import M_Base M_Index M_Topology S_Topology L_Topology L_Topology2.
Set Implicit Arguments. Unset Strict Implicit. Unset Printing Implicit Defensive.

Theorem tpcc_contract_satisfiable : tpcc_spec ex_enum /\ slice_spec ex_slice.
Proof. exact: conj ex_enum_spec ex_slice_spec. Qed.
Print Assumptions tpcc_contract_satisfiable.

Section P.
Variable enum : tpcc -> seq cell.
Variable slice : nat -> seq nat -> nat.
Hypothesis henum : tpcc_spec enum.
Hypothesis hslice : slice_spec slice.

Theorem C16_dense (d L : nat) (dims : seq nat) (idx : nat) : 0 < d -> 0 < L ->
  let T := cubic_refine enum L (cubic_new enum d dims) in
  idx < cu_n_edges T ->
  exists v, [/\ cubic_at enum slice T idx = Ok v, size v = 2 * d, uniq v
    & all (fun k => k < cu_n_nodes T) v].
Proof. by move=> hd hL; exact: cubic_dense. Qed.

Theorem C16_onto (d L : nat) (dims : seq nat) : 0 < d -> 0 < L ->
  let T := cubic_refine enum L (cubic_new enum d dims) in
  all (fun n => 0 < n) dims -> d <= size dims ->
  forall k, k < cu_n_nodes T -> exists idx v i,
    [/\ idx < cu_n_edges T, cubic_at enum slice T idx = Ok v, i < 2 * d & nth 0 v i = k].
Proof. exact: cubic_onto. Qed.

Theorem C17_cells (d L : nat) (dims : seq nat) (idx idx' i i' : nat) (v v' : seq nat) :
  0 < d -> 0 < L ->
  let T := cubic_refine enum L (cubic_new enum d dims) in
  cubic_at enum slice T idx = Ok v -> cubic_at enum slice T idx' = Ok v' -> i < 2 * d -> i' < 2 * d ->
  (nth 0 v i = nth 0 v' i' <->
   facet_at (grid_cell enum d dims L idx) (i %/ 2) (i %% 2) =
   facet_at (grid_cell enum d dims L idx') (i' %/ 2) (i' %% 2)).
Proof. exact: share_cells. Qed.

(** [pos p] is the number of the part at position [p], [w e p] the [p]-th node along edge [e]. *)
Theorem C18_path (L : nat) (D : domain) : 0 < L -> size (do_nodes D) = do_n_edges D ->
  (forall e, e < do_n_edges D -> size (nth [::] (do_nodes D) e) = 2) ->
  let T := file_refine enum L (file_new enum 1 D) in
  exists (pos : nat -> nat) (w : nat -> nat -> nat),
  [/\ fi_n_edges T = do_n_edges D * L /\ fi_n_nodes T = do_n_nodes D + do_n_edges D * L.-1,
      forall e, e < do_n_edges D ->
        w e 0 = nth 0 (nth [::] (do_nodes D) e) 0 /\ w e L = nth 0 (nth [::] (do_nodes D) e) 1,
      (forall p, p < L -> pos p < L) /\ {in gtn L &, injective pos},
      forall e p, e < do_n_edges D -> p < L ->
        file_at enum slice T (e * L + pos p) = Ok [:: w e p; w e p.+1]
    & [/\ forall e p, e < do_n_edges D -> 0 < p < L -> do_n_nodes D <= w e p < fi_n_nodes T,
          forall e e' p p', e < do_n_edges D -> e' < do_n_edges D -> 0 < p < L -> 0 < p' < L ->
            w e p = w e' p' -> e = e' /\ p = p'
        & forall k, do_n_nodes D <= k < fi_n_nodes T ->
            exists e p, [/\ e < do_n_edges D, 0 < p < L & w e p = k]]].
Proof. exact: file_path. Qed.

(** In any dimension: parts of hyperedges share a node exactly if they have the same face inside one
    coarse hyperedge, or the same position in the same coarse node. *)
Theorem C18_share (d L : nat) (D : domain) (idx idx' i i' : nat) (v v' : seq nat) :
  0 < d -> 0 < L -> size (do_nodes D) = do_n_edges D ->
  (forall e, e < do_n_edges D -> size (nth [::] (do_nodes D) e) = 2 * d /\
                                 all (fun k => k < do_n_nodes D) (nth [::] (do_nodes D) e)) ->
  let T := file_refine enum L (file_new enum d D) in
  file_at enum slice T idx = Ok v -> file_at enum slice T idx' = Ok v' -> i < 2 * d -> i' < 2 * d ->
  (nth 0 v i = nth 0 v' i' <->
   if on_coarse enum d L idx i
   then [/\ on_coarse enum d L idx' i',
            nth 0 (nth [::] (do_nodes D) (idx %/ L ^ d)) i = nth 0 (nth [::] (do_nodes D) (idx' %/ L ^ d)) i'
          & along (local_face enum d L idx i) = along (local_face enum d L idx' i')]
   else [/\ ~~ on_coarse enum d L idx' i', idx %/ L ^ d = idx' %/ L ^ d
          & local_face enum d L idx i = local_face enum d L idx' i']).
Proof. exact: share_file. Qed.

Theorem C19_last_level (d l : nat) (dims ls : seq nat) (H : hypergraph) :
  hg_new enum d dims = Ok H ->
  foldl (fun H l => hg_refine enum l H) H (rcons ls l) = hg_refine enum l H.
Proof. move=> _; exact: hg_refine_last. Qed.

Theorem C19_agree (d : nat) (dims ls : seq nat) (H : hypergraph) : hg_new enum d dims = Ok H ->
  let H' := foldl (fun H l => hg_refine enum l H) H ls in
  let l := last 1 ls in
  [/\ cu_level (hg_topo H') = l /\ uc_level (hg_geom H') = l, cn_level (hg_node H') = l,
      hg_n_nodes H' = cu_n_nodes (hg_topo H'), hg_n_data H' = cu_n_edges (hg_topo H')
    & [/\ cn_n_edges (hg_node H') = cu_n_edges (hg_topo H'),
          n_elements enum (uc_elements (hg_geom H')) * uc_n_loc (hg_geom H') = cu_n_edges (hg_topo H'),
          uc_n_loc (hg_geom H') = cu_epe (hg_topo H')
        & n_elements enum (cn_ref_elem (hg_node H')) = cu_epe (hg_topo H')]].
Proof. exact: hg_agree. Qed.

(** Geometry and node descriptor built from a refined topology are those refined afterwards. *)
Theorem C19_late_construction (d l : nat) (dims : seq nat) :
  let T := cubic_new enum d dims in
  [/\ ucube_of (cubic_refine enum l T) = ucube_refine l (ucube_of T),
      cnode_of (cubic_refine enum l T) = cnode_refine enum l (cnode_of T),
      cnode_refine enum l (cnode_of T) = cnode_refine enum l (cnode_new enum d dims)
    & ucube_of T = ucube_new d dims].
Proof. exact: refined_parts. Qed.

Theorem C19_file (d : nat) (D : domain) (ls : seq nat) (H : fgraph) : fg_new enum d D = Ok H ->
  let H' := foldl (fun H l => fg_refine enum l H) H ls in
  let l := last 1 ls in
  [/\ fi_level (fg_topo H') = l /\ gf_level (fg_geom H') = l, fn_level (fg_node H') = l,
      fg_n_nodes H' = fi_n_nodes (fg_topo H'), fg_n_data H' = fi_n_edges (fg_topo H')
    & [/\ fn_n_edges (fg_node H') = fi_n_edges (fg_topo H'),
          do_n_edges D * gf_n_loc (fg_geom H') = fi_n_edges (fg_topo H'),
          gf_n_loc (fg_geom H') = fi_epe (fg_topo H')
        & H' = (if ls is [::] then H else fg_refine enum l H)]].
Proof. exact: fg_agree. Qed.

(** The property as stated fails: refining a hyperedge that lies in a boundary plane creates faces in
    that plane which get type 0. *)
Theorem C20_refuted :
  exists d L dims idx i v, [/\ 0 < d <= size dims, 0 < L & all (fun n => 0 < n) dims] /\
    let T := cubic_refine enum L (cubic_new enum d dims) in
    let N := cnode_refine enum L (cnode_new enum d dims) in
    let f := facet_at (grid_cell enum d dims L idx) (i %/ 2) (i %% 2) in
    [/\ idx < cu_n_edges T, i < 2 * d, cnode_at enum N idx = Ok v, nth 0 v i = 0
      & ~~ all (fun x => x == 0) (planes [seq L * n | n <- dims] f)].
Proof. exact: types_refuted henum hslice. Qed.

(** It holds for hyperedges of full dimension and for unrefined hypergraphs. *)
Theorem C20_partial (d L : nat) (dims : seq nat) (idx i : nat) (v : seq nat) :
  0 < d -> 0 < L -> d <= size dims -> all (fun n => 0 < n) dims -> d = size dims \/ L = 1 ->
  let T := cubic_refine enum L (cubic_new enum d dims) in
  let N := cnode_refine enum L (cnode_new enum d dims) in
  idx < cu_n_edges T -> i < 2 * d -> cnode_at enum N idx = Ok v ->
  nth 0 v i = base3 (planes [seq L * n | n <- dims]
                       (facet_at (grid_cell enum d dims L idx) (i %/ 2) (i %% 2))).
Proof. exact: types_exact. Qed.

(** What the types are in general. *)
Theorem C20_types (d L : nat) (dims : seq nat) (idx : nat) :
  0 < d -> 0 < L -> d <= size dims -> all (fun n => 0 < n) dims ->
  let T := cubic_refine enum L (cubic_new enum d dims) in
  let N := cnode_refine enum L (cnode_new enum d dims) in
  idx < cu_n_edges T ->
  exists v, [/\ cnode_at enum N idx = Ok v, size v = 2 * d
    & forall i, i < 2 * d ->
      nth 0 v i = fine_code L dims (facet_at (grid_cell enum d dims L idx) (i %/ 2) (i %% 2))].
Proof. exact: types_total. Qed.

Theorem C20_shared (d L : nat) (dims : seq nat) (idx idx' i i' : nat) (v v' t t' : seq nat) :
  0 < d -> 0 < L -> d <= size dims -> all (fun n => 0 < n) dims ->
  let T := cubic_refine enum L (cubic_new enum d dims) in
  let N := cnode_refine enum L (cnode_new enum d dims) in
  cubic_at enum slice T idx = Ok v -> cubic_at enum slice T idx' = Ok v' ->
  cnode_at enum N idx = Ok t -> cnode_at enum N idx' = Ok t' -> i < 2 * d -> i' < 2 * d ->
  nth 0 v i = nth 0 v' i' -> nth 0 t i = nth 0 t' i'.
Proof. exact: types_shared. Qed.
End P.
Print Assumptions C16_dense.
Print Assumptions C16_onto.
Print Assumptions C17_cells.
Print Assumptions C18_path.
Print Assumptions C18_share.
Print Assumptions C19_last_level.
Print Assumptions C19_agree.
Print Assumptions C19_late_construction.
Print Assumptions C19_file.
Print Assumptions C20_refuted.
Print Assumptions C20_partial.
Print Assumptions C20_types.
Print Assumptions C20_shared.

(** Codes of different boundary patterns differ; 0 means no boundary plane. *)
Theorem C20_codes (dims : seq nat) (A A' : cell) : size A = size dims -> size A' = size dims ->
  (base3 (planes dims A) = base3 (planes dims A') <-> planes dims A = planes dims A') /\
  (base3 (planes dims A) = 0 <-> all (fun x => x == 0) (planes dims A)).
Proof. exact: codes_distinct. Qed.
Print Assumptions C20_codes.

(** Non-vacuity: two squares side by side, each cut into four: the parts 1 and 4 meet. *)
Definition okn (x : outcome (seq nat)) : seq nat := if x is Ok v then v else [::].
Example C16_example :
  let T := cubic_refine ex_enum 2 (cubic_new ex_enum 2 [:: 2; 1]) in
  cu_n_edges T == 8 /\ cu_n_nodes T == 22 /\
  sort leq (undup (flatten [seq okn (cubic_at ex_enum ex_slice T e) | e <- iota 0 8])) == iota 0 22.
Proof. by vm_compute. Qed.
Example C18_example :
  let D := Domain 2 3 [:: [:: 0; 1]; [:: 1; 2]] [:: [:: 1; 0]; [:: 0; 1]] in
  let T := file_refine ex_enum 3 (file_new ex_enum 1 D) in
  [seq okn (file_at ex_enum ex_slice T e) | e <- iota 0 6]
    == [:: [:: 0; 3]; [:: 3; 4]; [:: 4; 1]; [:: 1; 5]; [:: 5; 6]; [:: 6; 2]].
Proof. by vm_compute. Qed.
Example C19_example : if hg_new ex_enum 1 [:: 2; 1] is Ok H
  then cu_n_edges (hg_topo (foldl (fun H l => hg_refine ex_enum l H) H [:: 3; 2])) == 14 else false.
Proof. by vm_compute. Qed.
Example C20_example :
  let N := cnode_refine ex_enum 2 (cnode_new ex_enum 2 [:: 2; 1]) in
  [seq okn (cnode_at ex_enum N e) | e <- [:: 0; 7]] == [:: [:: 1; 0; 3; 0]; [:: 0; 2; 0; 6]].
Proof. by vm_compute. Qed.
