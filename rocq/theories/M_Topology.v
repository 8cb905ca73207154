(** Model of topology/cubic.hxx, topology/file.hxx, node_descriptor/{cubic,file}.hxx,
    wrapper/tpcc.hxx and the parts of hdg_hypergraph.hxx that combine them.
    Simplification: indices are natural numbers (no wrap around modulo 2^32). *)
From mathcomp Require Import all_ssreflect all_algebra.
From Verif Require Import M_Base M_Index.
Set Implicit Arguments. Unset Strict Implicit. Unset Printing Implicit Defensive.

(** ** Cells of a tensor product complex
    TPCC::Element<n, k> (external library, wrapper/tpcc.hxx:48-49) is a k-dimensional face of a cell
    of an n-dimensional grid: in every direction it either runs along the grid interval number x
    ([(true, x)]) or sits across at grid point number x ([(false, x)]).
    Assumption on TPCC: the along (and across) directions of an element are counted in increasing
    order of the direction. *)
Definition cell := seq (bool * nat).
Definition along (c : cell) : seq nat := [seq p.2 | p <- c & p.1].
Definition across (c : cell) : seq nat := [seq p.2 | p <- c & ~~ p.1].
Definition across_dirs (c : cell) : seq nat :=
  [seq i <- iota 0 (size c) | ~~ (nth (false, 0) c i).1].
Definition n_along (c : cell) : nat := count fst c.

(** TPCC::Element::facet, called in wrapper/tpcc.hxx:126: facet 2 j + s of an element is across its
    [j]-th along direction, at the lower (s = 0) or upper (s = 1) end. *)
Fixpoint facet_at (c : cell) (j s : nat) : cell :=
  match c with
  | [::] => [::]
  | (true, x) :: c' => if j is j'.+1 then (true, x) :: facet_at c' j' s else (false, x + s) :: c'
  | p :: c' => p :: facet_at c' j s
  end.
(** wrapper/tpcc.hxx:121-127. *)
Definition get_face (c : cell) (i : nat) : outcome cell :=
  if i < 2 * n_along c then Ok (facet_at c (i %/ 2) (i %% 2)) else Abort.
(** wrapper/tpcc.hxx:138-146, 150-155, 159-164. *)
Definition exterior_direction (c : cell) (i : nat) : outcome nat :=
  if i < size c - n_along c then Ok (nth 0 (across_dirs c) i) else Abort.
Definition exterior_coordinate (c : cell) (i : nat) : outcome nat :=
  if i < size c - n_along c then Ok (nth 0 (across c) i) else Abort.
Definition interior_coordinate (c : cell) (i : nat) : outcome nat :=
  if i < n_along c then Ok (nth 0 (along c) i) else Abort.

(** TPCC::Lexicographic<n, k, bnd> (wrapper/tpcc.hxx:39-44): determined by whether the cells at the
    boundary of the grid belong to it, the dimension of its cells and the extents of the grid. *)
Record tpcc := Tpcc { t_bnd : bool; t_k : nat; t_dims : seq nat }.
(** wrapper/tpcc.hxx:58-67 with boundaries::both; 71-75. *)
Definition create_tpcc (k : nat) (dims : seq nat) : tpcc := Tpcc true k dims.
Definition tpcc_faces (bnd : bool) (t : tpcc) : tpcc := Tpcc bnd (t_k t).-1 (t_dims t).

Section TPCC.
(** The enumeration of the cells of a complex and the number of a cell within its slice (the cells
    with the same across coordinates) are computed by TPCC, which is not part of the repository;
    their contract is in S_Topology. *)
Variable enum : tpcc -> seq cell.
Variable slice : nat -> seq nat -> nat.

(** wrapper/tpcc.hxx:79-83, 92-97. *)
Definition n_elements (t : tpcc) : nat := size (enum t).
Definition get_element (t : tpcc) (i : nat) : outcome cell :=
  if i < n_elements t then Ok (nth [::] (enum t) i) else Abort.
(** wrapper/tpcc.hxx:101-107. TPCC does not say what the index of a cell outside the complex is; here
    the assertion catches it. *)
Definition get_index (t : tpcc) (c : cell) : outcome nat :=
  if c \in enum t then Ok (index c (enum t)) else Abort.
(** wrapper/tpcc.hxx:111-117 for faces of a refinement with [L] subintervals in each direction. *)
Definition get_index_in_slice (L : nat) (c : cell) : nat := slice L (along c).

(** ** Topology::Cubic *)
(** topology/cubic.hxx:115-172; [cu_dim] is the template argument hyEdge_dimT. *)
Record cubic := Cubic {
  cu_dim : nat; cu_extents : seq nat; cu_elements : tpcc; cu_faces : tpcc; cu_level : nat;
  cu_ref_elem : tpcc; cu_ref_faces : tpcc; cu_epe : nat; cu_fpf : nat; cu_fpe : nat;
  cu_n_elem : nat; cu_n_face : nat; cu_n_edges : nat; cu_n_nodes : nat }.
(** topology/cubic.hxx:188-207. *)
Definition cubic_new (d : nat) (extents : seq nat) : cubic :=
  let elements := create_tpcc d extents in
  let faces := tpcc_faces true elements in
  let ref_elem := create_tpcc d (nseq d 1) in
  let ref_faces := tpcc_faces false ref_elem in
  let epe := n_elements ref_elem in
  let fpf := hc_pow d.-1 1 in
  let fpe := n_elements ref_faces in
  let ce := n_elements elements in
  let cf := n_elements faces in
  Cubic d extents elements faces 1 ref_elem ref_faces epe fpf fpe ce cf
        (ce * epe) (cf * fpf + ce * fpe).
(** topology/cubic.hxx:298-312. *)
Definition cubic_refine (level : nat) (T : cubic) : cubic :=
  let ref_elem := create_tpcc (cu_dim T) (nseq (cu_dim T) level) in
  let ref_faces := tpcc_faces false ref_elem in
  let epe := n_elements ref_elem in
  let fpf := hc_pow (cu_dim T).-1 level in
  let fpe := n_elements ref_faces in
  let ce := n_elements (cu_elements T) in
  let cf := n_elements (cu_faces T) in
  Cubic (cu_dim T) (cu_extents T) (cu_elements T) (cu_faces T) level ref_elem ref_faces epe fpf fpe
        ce cf (ce * epe) (cf * fpf + ce * fpe).
(** topology/cubic.hxx:215-230 copies every member. *)
Definition cubic_copy (T : cubic) : cubic :=
  Cubic (cu_dim T) (cu_extents T) (cu_elements T) (cu_faces T) (cu_level T) (cu_ref_elem T)
        (cu_ref_faces T) (cu_epe T) (cu_fpf T) (cu_fpe T) (cu_n_elem T) (cu_n_face T) (cu_n_edges T)
        (cu_n_nodes T).

(** topology/cubic.hxx:74-87 and topology/file.hxx:81-94 (the same loop): replace the coarse
    hypernode numbers [v] of the faces of coarse hyperedge [e] by those of its part [ref]. *)
Definition refine_nodes (d level fpf fpe cf : nat) (ref_faces : tpcc) (ref : cell) (e : nat)
    (v : seq nat) : outcome (seq nat) :=
  foro (2 * d) (fun i v =>
    obind (get_face ref i) (fun face =>
    obind (exterior_coordinate face 0) (fun x =>
      if (x == 0) || (x == level)
      then Ok (upd v i (fpf * nth 0 v i + get_index_in_slice level face))
      else obind (get_index ref_faces face) (fun k =>
           Ok (upd v i (cf * fpf + fpe * e + k)))))) v.
(** topology/cubic.hxx:64-88, hyEdge::hyEdge. *)
Definition cubic_edge (T : cubic) (idx : nat) : outcome (seq nat) :=
  obind (get_element (cu_elements T) (idx %/ cu_epe T)) (fun elem =>
  obind (foro (2 * cu_dim T) (fun i v =>
           obind (get_face elem i) (fun face =>
           obind (get_index (cu_faces T) face) (fun k => Ok (upd v i k))))
         (nseq (2 * cu_dim T) 0)) (fun v =>
  obind (get_element (cu_ref_elem T) (idx %% cu_epe T)) (fun ref =>
    refine_nodes (cu_dim T) (cu_level T) (cu_fpf T) (cu_fpe T) (cu_n_face T) (cu_ref_faces T) ref
                 (idx %/ cu_epe T) v))).
(** topology/cubic.hxx:241-248. *)
Definition cubic_at (T : cubic) (idx : nat) : outcome (seq nat) :=
  if idx < cu_n_edges T then cubic_edge T idx else Abort.

(** ** Topology::File *)
(** The part of DomainInfo (read_domain.hxx:42-106) the topology and node descriptor use. *)
Record domain := Domain {
  do_n_edges : nat; do_n_nodes : nat; do_nodes : seq (seq nat); do_types : seq (seq nat) }.
(** topology/file.hxx:116-170. *)
Record filet := FileT {
  fi_dim : nat; fi_domain : domain; fi_level : nat; fi_ref_elem : tpcc; fi_ref_faces : tpcc;
  fi_epe : nat; fi_fpf : nat; fi_fpe : nat; fi_n_elem : nat; fi_n_face : nat;
  fi_n_edges : nat; fi_n_nodes : nat }.
(** topology/file.hxx:186-207, after the domain has been read. *)
Definition file_new (d : nat) (D : domain) : filet :=
  let ref_elem := create_tpcc d (nseq d 1) in
  let ref_faces := tpcc_faces false ref_elem in
  let epe := n_elements ref_elem in
  let fpf := hc_pow d.-1 1 in
  let fpe := n_elements ref_faces in
  FileT d D 1 ref_elem ref_faces epe fpf fpe (do_n_edges D) (do_n_nodes D)
        (do_n_edges D * epe) (do_n_nodes D * fpf + do_n_edges D * fpe).
(** topology/file.hxx:294-306. *)
Definition file_refine (level : nat) (T : filet) : filet :=
  let ref_elem := create_tpcc (fi_dim T) (nseq (fi_dim T) level) in
  let ref_faces := tpcc_faces false ref_elem in
  let epe := n_elements ref_elem in
  let fpf := hc_pow (fi_dim T).-1 level in
  let fpe := n_elements ref_faces in
  FileT (fi_dim T) (fi_domain T) level ref_elem ref_faces epe fpf fpe (fi_n_elem T) (fi_n_face T)
        (fi_n_elem T * epe) (fi_n_face T * fpf + fi_n_elem T * fpe).
(** topology/file.hxx:75-95, 243-250. *)
Definition file_at (T : filet) (idx : nat) : outcome (seq nat) :=
  if idx < fi_n_edges T then
    obind (load (do_nodes (fi_domain T)) (idx %/ fi_epe T)) (fun v =>
    obind (get_element (fi_ref_elem T) (idx %% fi_epe T)) (fun ref =>
      refine_nodes (fi_dim T) (fi_level T) (fi_fpf T) (fi_fpe T) (fi_n_face T) (fi_ref_faces T) ref
                   (idx %/ fi_epe T) v))
  else Abort.

(** ** NodeDescriptor::Cubic *)
(** node_descriptor/cubic.hxx:103-124. *)
Record cnode := CNode {
  cn_dim : nat; cn_extents : seq nat; cn_elements : tpcc; cn_level : nat; cn_ref_elem : tpcc;
  cn_n_edges : nat }.
(** node_descriptor/cubic.hxx:140-151 and 157-164. *)
Definition cnode_new (d : nat) (extents : seq nat) : cnode :=
  let elements := create_tpcc d extents in
  CNode d extents elements 1 (create_tpcc d (nseq d 1)) (n_elements elements).
Definition cnode_of (T : cubic) : cnode :=
  CNode (cu_dim T) (cu_extents T) (cu_elements T) (cu_level T) (cu_ref_elem T) (cu_n_edges T).
(** node_descriptor/cubic.hxx:201-208. *)
Definition cnode_refine (level : nat) (N : cnode) : cnode :=
  let ref_elem := create_tpcc (cn_dim N) (nseq (cn_dim N) level) in
  CNode (cn_dim N) (cn_extents N) (cn_elements N) level ref_elem
        (n_elements (cn_elements N) * n_elements ref_elem).
(** node_descriptor/cubic.hxx:59-66: the code of a coarse face; std::pow(3, direction) is an exact
    double for the directions that occur. *)
Definition face_code (extents : seq nat) (n_ext : nat) (face : cell) : outcome nat :=
  foro n_ext (fun k code =>
    obind (exterior_coordinate face k) (fun x =>
    obind (exterior_direction face k) (fun dir =>
      Ok (if (x == 0) || (x == nth 0 extents dir) then code + (1 + (x != 0)) * 3 ^ dir else code))))
    0.
(** node_descriptor/cubic.hxx:69-77 and node_descriptor/file.hxx:69-77 (the same loop). *)
Definition refine_types (d level : nat) (ref : cell) (v : seq nat) : outcome (seq nat) :=
  foro (2 * d) (fun i v =>
    obind (get_face ref i) (fun face =>
    obind (exterior_coordinate face 0) (fun x =>
      Ok (if (x != 0) && (x != level) then upd v i 0 else v)))) v.
(** node_descriptor/cubic.hxx:52-78, 174-181. *)
Definition cnode_at (N : cnode) (idx : nat) : outcome (seq nat) :=
  if idx < cn_n_edges N then
    obind (get_element (cn_elements N) (idx %/ n_elements (cn_ref_elem N))) (fun elem =>
    obind (foro (2 * cn_dim N) (fun i v =>
             obind (get_face elem i) (fun face =>
             obind (face_code (cn_extents N) (size (cn_extents N) - cn_dim N + 1) face) (fun c =>
               Ok (upd v i c))))
           (nseq (2 * cn_dim N) 0)) (fun v =>
    obind (get_element (cn_ref_elem N) (idx %% n_elements (cn_ref_elem N))) (fun ref =>
      refine_types (cn_dim N) (cn_level N) ref v)))
  else Abort.

(** ** NodeDescriptor::File *)
(** node_descriptor/file.hxx:99-122. *)
Record fnode := FNode {
  fn_dim : nat; fn_domain : domain; fn_level : nat; fn_ref_elem : tpcc; fn_n_edges : nat }.
(** node_descriptor/file.hxx:138-144, 186-193. *)
Definition fnode_of (T : filet) : fnode :=
  FNode (fi_dim T) (fi_domain T) (fi_level T) (fi_ref_elem T) (fi_n_edges T).
Definition fnode_refine (level : nat) (N : fnode) : fnode :=
  let ref_elem := create_tpcc (fn_dim N) (nseq (fn_dim N) level) in
  FNode (fn_dim N) (fn_domain N) level ref_elem (do_n_edges (fn_domain N) * n_elements ref_elem).
(** node_descriptor/file.hxx:63-78, 171-178. *)
Definition fnode_at (N : fnode) (idx : nat) : outcome (seq nat) :=
  let epe := n_elements (fn_ref_elem N) in
  if idx < do_n_edges (fn_domain N) * epe then
    obind (load (do_types (fn_domain N)) (idx %/ epe)) (fun v =>
    obind (get_element (fn_ref_elem N) (idx %% epe)) (fun ref =>
      refine_types (fn_dim N) (fn_level N) ref v))
  else Abort.

(** ** Geometry::UnitCube: the state that depends on the refinement *)
(** geometry/unit_cube.hxx:396-419. *)
Record ucube := UCube {
  uc_dim : nat; uc_extents : seq nat; uc_elements : tpcc; uc_level : nat; uc_ref_elem : tpcc;
  uc_n_loc : nat }.
(** geometry/unit_cube.hxx:449-460 and 469-480. *)
Definition ucube_new (d : nat) (extents : seq nat) : ucube :=
  UCube d extents (create_tpcc d extents) 1 (create_tpcc d (nseq d 1)) (hc_pow d 1).
Definition ucube_of (T : cubic) : ucube :=
  UCube (cu_dim T) (cu_extents T) (create_tpcc (cu_dim T) (cu_extents T)) (cu_level T)
        (create_tpcc (cu_dim T) (nseq (cu_dim T) (cu_level T))) (hc_pow (cu_dim T) (cu_level T)).
(** geometry/unit_cube.hxx:499-506. *)
Definition ucube_refine (level : nat) (G : ucube) : ucube :=
  UCube (uc_dim G) (uc_extents G) (uc_elements G) level
        (create_tpcc (uc_dim G) (nseq (uc_dim G) level)) (hc_pow (uc_dim G) level).

(** ** HDGHyperGraph over cubic topology, unit cube geometry and cubic node descriptor *)
(** hdg_hypergraph.hxx:257-293: the node factory is its number of hypernodes
    (hypernodefactory.hxx), the data container its number of entries (hy_data_container.hxx:45). *)
Record hypergraph := HyperGraph {
  hg_topo : cubic; hg_geom : ucube; hg_node : cnode; hg_n_nodes : nat; hg_n_data : nat }.
(** hdg_hypergraph.hxx:306-325 with its assertions. *)
Definition hg_new (d : nat) (extents : seq nat) : outcome hypergraph :=
  let T := cubic_new d extents in
  if (2 <= cu_n_nodes T) && (0 < cu_n_edges T)
  then Ok (HyperGraph T (ucube_of T) (cnode_of T) (cu_n_nodes T) (cu_n_edges T)) else Abort.
(** hdg_hypergraph.hxx:525-533. *)
Definition hg_refine (level : nat) (H : hypergraph) : hypergraph :=
  let T := cubic_refine level (hg_topo H) in
  HyperGraph T (ucube_refine level (hg_geom H)) (cnode_refine level (hg_node H))
             (cu_n_nodes T) (cu_n_edges T).
(** ** Geometry::File: the state that depends on the refinement *)
(** geometry/file.hxx:313-336. *)
Record gfile := GFile { gf_dim : nat; gf_domain : domain; gf_level : nat; gf_ref_elem : tpcc;
  gf_n_loc : nat }.
(** geometry/file.hxx:362-370 and 409-416. *)
Definition gfile_of (T : filet) : gfile :=
  GFile (fi_dim T) (fi_domain T) (fi_level T)
        (create_tpcc (fi_dim T) (nseq (fi_dim T) (fi_level T))) (hc_pow (fi_dim T) (fi_level T)).
Definition gfile_refine (level : nat) (G : gfile) : gfile :=
  GFile (gf_dim G) (gf_domain G) level (create_tpcc (gf_dim G) (nseq (gf_dim G) level))
        (hc_pow (gf_dim G) level).

(** HDGHyperGraph over Topology::File, Geometry::File and NodeDescriptor::File. *)
Record fgraph := FGraph {
  fg_topo : filet; fg_geom : gfile; fg_node : fnode; fg_n_nodes : nat; fg_n_data : nat }.
Definition fg_new (d : nat) (D : domain) : outcome fgraph :=
  let T := file_new d D in
  if (2 <= fi_n_nodes T) && (0 < fi_n_edges T)
  then Ok (FGraph T (gfile_of T) (fnode_of T) (fi_n_nodes T) (fi_n_edges T)) else Abort.
Definition fg_refine (level : nat) (H : fgraph) : fgraph :=
  let T := file_refine level (fg_topo H) in
  FGraph T (gfile_refine level (fg_geom H)) (fnode_refine level (fg_node H)) (fi_n_nodes T)
         (fi_n_edges T).
End TPCC.
