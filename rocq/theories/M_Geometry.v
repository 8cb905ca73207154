(** Model of geometry/unit_cube.hxx, mapping/linear.hxx and geometry/file.hxx.
    Coordinates are elements of an ordered field (no rounding); indices are natural numbers. *)
From mathcomp Require Import all_ssreflect all_algebra.
From Verif Require Import M_Base M_DenseLA M_Lapack M_Index M_Topology.
Set Implicit Arguments. Unset Strict Implicit. Unset Printing Implicit Defensive.
Import Order.TTheory GRing.Theory Num.Theory.
Local Open Scope ring_scope.

Section Geometry.
Variable F : realFieldType.
Implicit Types (points p : seq F).

(** The assertions geometry/unit_cube.hxx:170-171, 192-193, file.hxx:131-132, 145-146. *)
Definition in_ref (n : nat) (points : seq F) : bool :=
  all (fun i => (points`_i >= 0) && (points`_i <= 1)) (iota 0 n).

(** ** Geometry::UnitCube::hyEdge *)
(** geometry/unit_cube.hxx:50-62; default constructed vectors are zero (dense_la.hxx:109). *)
Record hgeo := HGeo { g_trans : seq F; g_dirs : seq nat; g_char : seq F }.
Definition hgeo0 (n d : nat) : hgeo := HGeo (zeros F n 1) (nseq d 0%N) (zeros F d 1).

(** geometry/unit_cube.hxx:90-93, 102-104. A quotient by zero extents is 0/0, which the comparison of
    the assertion rejects. *)
Definition unit_coord (extents : seq nat) (dir x : nat) : outcome F :=
  if nth 0%N extents dir == 0%N then Abort else
  let t := x%:R / (nth 0%N extents dir)%:R in
  if (0 <= t) && (t <= 1) then Ok t else Abort.
(** geometry/unit_cube.hxx:86-94. *)
Definition set_trans (extents : seq nat) (elem : cell) (g : hgeo) : outcome hgeo :=
  foro (size extents) (fun k g =>
    obind (exterior_direction elem k) (fun dir =>
    obind (exterior_coordinate elem k) (fun x =>
    obind (unit_coord extents dir x) (fun t =>
      Ok (HGeo (upd (g_trans g) dir t) (g_dirs g) (g_char g)))))) g.
(** geometry/unit_cube.hxx:99-111, the loop with break. *)
Fixpoint set_char (extents : seq nat) (elem : cell) (dim : nat) (g : hgeo) (ks : seq nat) : outcome hgeo :=
  match ks with
  | [::] => Ok g
  | k :: ks' =>
      obind (exterior_direction elem k) (fun dir =>
      obind (exterior_coordinate elem k) (fun x =>
      obind (unit_coord extents dir x) (fun h =>
        if h != (g_trans g)`_dir
        then Ok (HGeo (g_trans g) (upd (g_dirs g) dim dir) (upd (g_char g) dim (h - (g_trans g)`_dir)))
        else set_char extents elem dim g ks')))
  end.
(** geometry/unit_cube.hxx:84-113: a vertex. The short circuit in line 98 keeps the access
    char_length[dim] from being evaluated when the indices differ. *)
Definition fill_vertex (extents : seq nat) (index : nat) (elem : cell) (g : hgeo) : outcome (nat * hgeo) :=
  obind (if index == 0%N then set_trans extents elem g else Ok g) (fun g =>
  let dim := find (fun c => ~~ (c != 0)) (g_char g) in
  omap (fun g => (index.+1, g))
    (if index == (2 ^ dim)%N then
       obind (load (g_char g) dim) (fun c =>
         if c == 0 then set_char extents elem dim g (iota 0 (size extents)) else Ok g)
     else Ok g)).
(** geometry/unit_cube.hxx:79-120. *)
Fixpoint fill_data (extents : seq nat) (k index : nat) (elem : cell) (g : hgeo) : outcome (nat * hgeo) :=
  match k with
  | 0%N => fill_vertex extents index elem g
  | k'.+1 =>
      foldo (fun i st => obind (get_face elem i) (fun f => fill_data extents k' st.1 f st.2))
            (index, g) [:: (2 * k')%N; (2 * k').+1]
  end.
(** geometry/unit_cube.hxx:124-133; L = n_subintervals_. *)
Definition adapt_data (d L : nat) (loc_elem : cell) (g : hgeo) : outcome hgeo :=
  foro d (fun dim g =>
    let c := upd (g_char g) dim ((g_char g)`_dim / L%:R) in
    obind (interior_coordinate loc_elem dim) (fun x =>
      Ok (HGeo (add_at (g_trans g) (nth 0%N (g_dirs g) dim) (x%:R * c`_dim)) (g_dirs g) c))) g.

Section TPCC.
Variable enum : tpcc -> seq cell.
(** geometry/unit_cube.hxx:150-158, 491. *)
Definition ucube_at (G : ucube) (idx : nat) : outcome hgeo :=
  if uc_n_loc G == 0%N then UB else
  obind (get_element enum (uc_elements G) (idx %/ uc_n_loc G)) (fun elem =>
  obind (get_element enum (uc_ref_elem G) (idx %% uc_n_loc G)) (fun loc_elem =>
  obind (fill_data (uc_extents G) (uc_dim G) 0 elem (hgeo0 (size (uc_extents G)) (uc_dim G))) (fun st =>
    adapt_data (uc_dim G) (uc_level G) loc_elem st.2))).
End TPCC.

(** Space dimension and hyperedge dimension (template arguments). *)
Definition g_n (g : hgeo) := size (g_trans g).
Definition g_d (g : hgeo) := size (g_char g).

(** geometry/unit_cube.hxx:166-180. *)
Definition uc_map (g : hgeo) (n_vec : nat) (points : seq F) : outcome (seq F) :=
  if in_ref (g_d g * n_vec) points then
    Ok (for_ n_vec (fun j y => for_ (g_d g) (fun i y =>
          add_at y (loc (g_n g) (nth 0%N (g_dirs g) i) j) (mget (g_d g) points i j * (g_char g)`_i)) y)
        (rep_mat (g_n g) n_vec (g_trans g)))
  else Abort.
(** geometry/unit_cube.hxx:187-203: in place, for hyperedges of full dimension. *)
Definition uc_map_volume (g : hgeo) (n_vec : nat) (points : seq F) : outcome (seq F) :=
  if (g_d g == g_n g) && in_ref (g_n g * n_vec) points then
    Ok (for_ n_vec (fun j y => for_ (g_n g) (fun i y =>
          let y := mset (g_n g) y i j (mget (g_n g) y i j * (g_char g)`_i) in
          mset (g_n g) y i j (mget (g_n g) y i j + (g_trans g)`_i)) y) points)
  else Abort.
(** geometry/unit_cube.hxx:210-218. *)
Definition uc_span_vec (g : hgeo) (i : nat) : outcome (seq F) :=
  if (i < g_d g)%N then Ok (upd (zeros F (g_n g) 1) (nth 0%N (g_dirs g) i) (g_char g)`_i) else Abort.
(** geometry/unit_cube.hxx:222-225. *)
Definition uc_mat_r (g : hgeo) : seq F := diagonal_vec (g_d g) (g_d g) (g_d g) (g_char g).
(** geometry/unit_cube.hxx:238-239: the first number from [h] on that is not in [dirs]; [fuel] bounds
    the number of steps (size dirs + 1 steps suffice). *)
Fixpoint skip_dirs (dirs : seq nat) (fuel h : nat) : nat :=
  if fuel is fuel'.+1 then if h \in dirs then skip_dirs dirs fuel' h.+1 else h else h.
(** geometry/unit_cube.hxx:229-245. *)
Definition uc_mat_q (g : hgeo) : seq F :=
  let q := for_ (g_d g) (fun i q => mset (g_n g) q (nth 0%N (g_dirs g) i) i 1) (zeros F (g_n g) (g_n g)) in
  (foldl (fun st index =>
     let h := skip_dirs (g_dirs g) (size (g_dirs g)).+1 st.2 in
     (mset (g_n g) st.1 h index 1, h.+1)) (q, 0%N) (iota (g_d g) (g_n g - g_d g))).1.
(** geometry/unit_cube.hxx:249-255, 259-267. *)
Definition uc_area (g : hgeo) : F := for_ (g_d g) (fun i a => a * (g_char g)`_i) 1.
Definition uc_face_area (g : hgeo) (i : nat) : outcome F :=
  if (i < 2 * g_d g)%N then
    Ok (for_ (g_d g) (fun dim a => if dim != (i %/ 2)%N then a * (g_char g)`_dim else a) 1)
  else Abort.
(** geometry/unit_cube.hxx:276-282, 291-297. *)
Definition uc_local_normal (g : hgeo) (i : nat) : outcome (seq F) :=
  if (i < 2 * g_d g)%N then
    Ok (upd (zeros F (g_d g) 1) (i %/ 2) (if (i %% 2 != 0)%N then 1 else -1))
  else Abort.
Definition uc_inner_normal (g : hgeo) (i : nat) : outcome (seq F) :=
  if (i < 2 * g_d g)%N then
    Ok (upd (zeros F (g_n g) 1) (nth 0%N (g_dirs g) (i %/ 2)) (if (i %% 2 != 0)%N then 1 else -1))
  else Abort.
(** geometry/unit_cube.hxx:301-307. local_center is not constant, so for hyperedges of full dimension
    the second overload of map_ref_to_phys is the better match and is called. *)
Definition uc_face_barycenter (g : hgeo) (i : nat) : outcome (seq F) :=
  if (i < 2 * g_d g)%N then
    let center := upd (filled (g_d g) 1 (2%:R^-1 : F)) (i %/ 2) (if (i %% 2 != 0)%N then 1 else 0) in
    if g_d g == g_n g then uc_map_volume g 1 center else uc_map g 1 center
  else Abort.
(** geometry/unit_cube.hxx:320-323: the loop; [fuel] bounds its length. *)
Fixpoint outer_loop (dirs : seq nat) (goal fuel cnt dim : nat) : outcome nat :=
  if (cnt < goal)%N then
    if fuel is fuel'.+1 then outer_loop dirs goal fuel' (if dim \notin dirs then cnt.+1 else cnt) dim.+1
    else UB
  else Ok dim.
(** geometry/unit_cube.hxx:313-327. *)
Definition uc_outer_normal (g : hgeo) (i : nat) : outcome (seq F) :=
  if (i < g_n g - g_d g)%N then
    obind (outer_loop (g_dirs g) i.+1 (g_n g) 0 0) (fun dim => Ok (upd (zeros F (g_n g) 1) dim.-1 1))
  else Abort.
(** geometry/unit_cube.hxx:339-344, file.hxx:246-251: the [m] base-s digits of [index] choose the
    coordinates. *)
Definition lex_point (s m index : nat) (points_1d : seq F) : seq F :=
  (for_ m (fun dim st => (upd st.1 dim points_1d`_(st.2 %% s), (st.2 %/ s)%N)) (zeros F m 1, index)).1.
(** geometry/unit_cube.hxx:331-346; s = n_sub_points. *)
Definition uc_lexicographic (g : hgeo) (s index : nat) (points_1d : seq F) : outcome (seq F) :=
  if (index < s ^ g_d g)%N then
    let pt := lex_point s (g_d g) index points_1d in
    if g_d g == g_n g then uc_map_volume g 1 pt else uc_map g 1 pt
  else Abort.
(** geometry/unit_cube.hxx:362-377, file.hxx:268-283: the point number [index] of boundary number
    [b]; [scale] = boundary_scale. *)
Definition boundary_point (d s index b : nat) (scale : F) (points_1d : seq F) : seq F :=
  let sub := lex_point s d.-1 (index - s ^ d.-1 * b) points_1d in
  (for_ d (fun k st =>
     if (b %/ 2)%N == k then (upd st.1 k (scale * ((b %% 2)%:R - 2%:R^-1) + 2%:R^-1), st.2)
     else (upd st.1 k sub`_st.2, st.2.+1)) (zeros F d 1, 0%N)).1.
(** geometry/unit_cube.hxx:352-379.  Line 363 computes index - pow(..) * boundary_number in double precision and
    converts the result to unsigned int, which is undefined behaviour for a negative number. *)
Definition uc_boundary_lexicographic (g : hgeo) (s index b : nat) (scale : F) (points_1d : seq F) :
    outcome (seq F) :=
  if (index < s ^ (g_d g).-1 * g_d g * 2)%N then
    if (index < s ^ (g_d g).-1 * b)%N then UB else
    let pt := boundary_point (g_d g) s index b scale points_1d in
    if g_d g == g_n g then uc_map_volume g 1 pt else uc_map g 1 pt
  else Abort.

(** ** Mapping::Linear *)
Section Linear.
Variable geqr2 : nat -> nat -> seq F -> qr_result F.
Variable gesv : nat -> nat -> seq F -> seq F -> sv_result F.

(** mapping/linear.hxx:38-60; n = space_dimT, d = hyEdge_dimT. *)
Record linear := Linear { l_n : nat; l_d : nat; l_trans : seq F; l_mat : seq F; l_q : seq F; l_r : seq F }.
(** mapping/linear.hxx:73-78 (matrix is const: the copying overload dense_la.hxx:1124-1131). *)
Definition linear_new (n d : nat) (trans mat : seq F) : outcome linear :=
  omap (fun t => let: (_, q, r) := t in Linear n d trans mat q r)
       (qr_decomp geqr2 n d mat (zeros F d d)).
(** mapping/linear.hxx:93-99. *)
Definition linear_det_edge (T : linear) : F := for_ (l_d T) (fun i a => a * mget (l_d T) (l_r T) i i) 1.
(** mapping/linear.hxx:114-117, 185-188: the columns of [mat] (nr rows, d columns) without column i. *)
Definition drop_column (nr d : nat) (mat : seq F) (index : nat) : seq F :=
  for_ d (fun i m => if i != index then set_column nr m (i - (index < i)) (get_column nr mat i) else m)
       (zeros F nr d.-1).
(** mapping/linear.hxx:108-120. *)
Definition linear_det_node (T : linear) (index : nat) : outcome F :=
  if l_d T == 1%N then Ok 1
  else mat_determinant geqr2 (l_n T) (l_d T).-1 (drop_column (l_n T) (l_d T) (l_mat T) index).
(** mapping/linear.hxx:137-142, 149-154. *)
Definition linear_map (T : linear) (n_vec : nat) (points : seq F) : seq F :=
  mat_add (l_n T) n_vec 1 (mat_mul (l_n T) (l_d T) n_vec (l_mat T) points) (l_trans T).
Definition linear_unmap (T : linear) (n_vec : nat) (points : seq F) : outcome (seq F) :=
  (solve_const gesv (l_n T) n_vec (mat_sub (l_n T) n_vec 1 points (l_trans T)) (l_mat T)).1.
(** mapping/linear.hxx:172-198. *)
Definition linear_local_normal (T : linear) (index : nat) : outcome (seq F) :=
  let d := l_d T in
  if (index < d)%N then
    if d == 1%N then Ok [:: if 0 < mget d (l_r T) 0 0 then -1 else 1]
    else obind (qr_decomp_q geqr2 d d.-1 (drop_column d d (l_r T) index)) (fun q =>
         let normal := get_column d q d.-1 in
         let s := scalar_product d normal (get_column d (l_r T) index) in
         if s == 0 then Abort else Ok (if 0 < s then muls d normal (-1) else normal))
  else Abort.
(** mapping/linear.hxx:209-235, 243-249. *)
Definition linear_inner_normal (T : linear) (index : nat) : outcome (seq F) :=
  if (index < l_d T)%N then Ok (get_column (l_n T) (l_q T) index) else Abort.
Definition linear_outer_normal (T : linear) (index : nat) : outcome (seq F) :=
  if (index < l_n T - l_d T)%N then Ok (get_column (l_n T) (l_q T) (index + l_d T)) else Abort.

(** ** Geometry::File::hyEdge *)
(** The points of DomainInfo (read_domain.hxx:88-106). *)
Record points_of := PointsOf { po_n : nat; po_points : seq (seq F); po_edge : seq (seq nat) }.
(** geometry/file.hxx:94-99. *)
Definition file_point (D : points_of) (e k : nat) : outcome (seq F) :=
  obind (load (po_edge D) e) (fun ps => obind (load ps k) (fun i => load (po_points D) i)).
(** geometry/file.hxx:105-120, 382-401. [n_edges] = domain_info_.n_hyEdges. *)
Definition gfile_at (enum : tpcc -> seq cell) (G : gfile) (D : points_of) (idx : nat) : outcome linear :=
  if (idx < do_n_edges (gf_domain G) * n_elements enum (gf_ref_elem G))%N then
    let d := gf_dim G in let n := po_n D in
    let e := (idx %/ gf_n_loc G)%N in
    obind (file_point D e 0) (fun trans =>
    obind (foro d (fun dim m => obind (file_point D e (2 ^ dim)) (fun p =>
                     Ok (set_column n m dim (mat_sub n 1 1 p trans)))) (zeros F n d)) (fun mat =>
    obind (get_element enum (gf_ref_elem G) (idx %% gf_n_loc G)) (fun elem =>
    obind (mat_div_scal (n * d) mat (gf_level G)%:R) (fun mat =>
    obind (foro d (fun dim t => obind (interior_coordinate elem dim) (fun x =>
                     Ok (add_eq n 1 1 t (muls n (get_column n mat dim) x%:R)))) trans) (fun trans =>
      linear_new n d trans mat)))))
  else Abort.
(** geometry/file.hxx:127-134, 141-149. *)
Definition gf_map (T : linear) (n_vec : nat) (points : seq F) : outcome (seq F) :=
  if in_ref (l_d T * n_vec) points then Ok (linear_map T n_vec points) else Abort.
(** geometry/file.hxx:172, 176-180. *)
Definition gf_area (T : linear) : F := `|linear_det_edge T|.
Definition gf_face_area (T : linear) (i : nat) : outcome F :=
  if (i < 2 * l_d T)%N then omap (fun a => `|a|) (linear_det_node T (i %/ 2)) else Abort.
(** geometry/file.hxx:189-196, 205-212. *)
Definition gf_local_normal (T : linear) (i : nat) : outcome (seq F) :=
  if (i < 2 * l_d T)%N then
    omap (fun v => if (i %% 2 == 1)%N then muls (l_d T) v (-1) else v) (linear_local_normal T (i %/ 2))
  else Abort.
Definition gf_inner_normal (T : linear) (i : nat) : outcome (seq F) :=
  if (i < 2 * l_d T)%N then
    omap (fun v => if (i %% 2 == 1)%N then muls (l_n T) v (-1) else v) (linear_inner_normal T (i %/ 2))
  else Abort.
(** geometry/file.hxx:216-222. *)
Definition gf_face_barycenter (T : linear) (i : nat) : outcome (seq F) :=
  if (i < 2 * l_d T)%N then
    gf_map T 1 (upd (filled (l_d T) 1 (2%:R^-1 : F)) (i %/ 2) (if (i %% 2 != 0)%N then 1 else 0))
  else Abort.
(** geometry/file.hxx:228-234. *)
Definition gf_outer_normal (T : linear) (i : nat) : outcome (seq F) :=
  if (i < l_n T - l_d T)%N then linear_outer_normal T i else Abort.
(** geometry/file.hxx:238-253 and 258-285; these do not check that the point lies in the cube. *)
Definition gf_lexicographic (T : linear) (s index : nat) (points_1d : seq F) : outcome (seq F) :=
  if (index < s ^ l_d T)%N then Ok (linear_map T 1 (lex_point s (l_d T) index points_1d)) else Abort.
Definition gf_boundary_lexicographic (T : linear) (s index b : nat) (scale : F) (points_1d : seq F) :
    outcome (seq F) :=
  if (index < s ^ (l_d T).-1 * l_d T * 2)%N then
    if (index < s ^ (l_d T).-1 * b)%N then UB else
    Ok (linear_map T 1 (boundary_point (l_d T) s index b scale points_1d)) else Abort.
End Linear.
End Geometry.
