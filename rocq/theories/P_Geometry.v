(** C17 (points), C21-C24, C59-C62: geometry of hyperedges. [enum] and [slice] stand for the TPCC
    library, [geqr2] and [gesv] for LAPACK; they are only assumed to meet their contracts
    (S_Topology, S_Lapack). [F] is any real field: numbers are exact. *)
From mathcomp Require Import all_ssreflect all_algebra.
From Verif Require Import M_Base M_DenseLA S_DenseLA M_Lapack S_Lapack L_Lapack M_Index S_Index M_Topology
  S_Topology L_Topology L_Topology2 M_Geometry S_Geometry L_Geometry5 L_Geometry6 L_Geometry8 L_Geometry9
  L_Geometry10 L_Geometry11 L_Geometry12 L_Geometry13 L_Geometry14.
Set Implicit Arguments. Unset Strict Implicit. Unset Printing Implicit Defensive.
Import Order.TTheory GRing.Theory Num.Theory.
Local Open Scope ring_scope.

Section UnitCube.
Variable F : realFieldType.
Variables (enum : tpcc -> seq cell) (slice : nat -> seq nat -> nat).
Hypotheses (henum : tpcc_spec enum) (hslice : slice_spec slice).
Variables (d L : nat) (dims : seq nat).
Hypotheses (hd : (0 < d)%N) (hL : (0 < L)%N) (hpos : all (fun n => (0 < n)%N) dims).
Let T := cubic_refine enum L (cubic_new enum d dims).
Let G := ucube_refine L (ucube_new d dims).
Let G0 := ucube_new d dims.
Let n := size dims.

(** Two faces carry the same hypernode number iff their images are the same set of points. *)
Theorem C17_points (idx idx' i i' : nat) (v v' : seq nat) (g g' : hgeo F) :
  cubic_at enum slice T idx = Ok v -> cubic_at enum slice T idx' = Ok v' ->
  ucube_at F enum G idx = Ok g -> ucube_at F enum G idx' = Ok g' ->
  (idx < cu_n_edges T)%N -> (idx' < cu_n_edges T)%N -> (i < 2 * d)%N -> (i' < 2 * d)%N ->
  (nth 0%N v i = nth 0%N v' i' <->
   forall y, (exists2 p, on_face d i p & uc_map g 1 p = Ok y) <->
             (exists2 p, on_face d i' p & uc_map g' 1 p = Ok y)).
Proof. exact: share_points. Qed.

Theorem C17_barycenter (idx idx' i i' : nat) (v v' : seq nat) (g g' : hgeo F) :
  cubic_at enum slice T idx = Ok v -> cubic_at enum slice T idx' = Ok v' ->
  ucube_at F enum G idx = Ok g -> ucube_at F enum G idx' = Ok g' ->
  (idx < cu_n_edges T)%N -> (idx' < cu_n_edges T)%N -> (i < 2 * d)%N -> (i' < 2 * d)%N ->
  (nth 0%N v i = nth 0%N v' i' <-> uc_face_barycenter g i = uc_face_barycenter g' i').
Proof. exact: share_barycenter. Qed.

(** The map, for any number of points at once: point [j] goes to the place with the same relative
    coordinates in the grid cell of the hyperedge. *)
Theorem C21_map (idx : nat) (g : hgeo F) (points : seq F) (n_vec : nat) :
  (idx < cu_n_edges T)%N -> ucube_at F enum G idx = Ok g -> in_ref (d * n_vec) points ->
  exists y, [/\ uc_map g n_vec points = Ok y, size y = (n * n_vec)%N
    & forall i j, (i < n)%N -> (j < n_vec)%N -> mget n y i j =
        (phys (fine_dims L dims) (grid_cell enum d dims L idx) (mkseq (fun k => mget d points k j) d))`_i].
Proof. exact: (map_points henum hslice hd hL hpos). Qed.

Theorem C21_disjoint (idx idx' : nat) (g g' : hgeo F) (p p' : seq F) :
  (idx < cu_n_edges T)%N -> (idx' < cu_n_edges T)%N ->
  ucube_at F enum G idx = Ok g -> ucube_at F enum G idx' = Ok g' ->
  in_open_cube d p -> in_open_cube d p' -> uc_map g 1 p = uc_map g' 1 p' -> idx = idx' /\ p = p'.
Proof. exact: (disjoint henum hslice). Qed.

Theorem C21_cover (e : nat) (g0 : hgeo F) (y : seq F) :
  (e < size (enum (Tpcc true d dims)))%N -> ucube_at F enum G0 e = Ok g0 ->
  ((exists2 p, in_cube d p & uc_map g0 1 p = Ok y) <->
   (exists k g q, [/\ (k < L ^ d)%N, ucube_at F enum G (e * L ^ d + k) = Ok g, in_cube d q
                    & uc_map g 1 q = Ok y])).
Proof. exact: (cover henum hslice). Qed.

Theorem C21_size (e k j : nat) (g g0 : hgeo F) :
  (e < size (enum (Tpcc true d dims)))%N -> (k < L ^ d)%N -> (j < d)%N ->
  ucube_at F enum G0 e = Ok g0 -> ucube_at F enum G (e * L ^ d + k) = Ok g ->
  exists s s0, [/\ uc_span_vec g j = Ok s, uc_span_vec g0 j = Ok s0 & s = [seq x / L%:R | x <- s0]].
Proof. exact: (span_size henum hslice). Qed.

Theorem C21_corners (idx : nat) (g : hgeo F) (p y : seq F) (i : nat) :
  (idx < cu_n_edges T)%N -> ucube_at F enum G idx = Ok g ->
  size p = d -> all (fun x => (x == 0) || (x == 1)) p -> uc_map g 1 p = Ok y -> (i < n)%N ->
  exists2 m, (m <= L * nth 0 dims i)%N & y`_i = m%:R / (L * nth 0 dims i)%N%:R.
Proof. exact: (corner_grid henum hslice hd hL hpos). Qed.

Theorem C22_local (idx : nat) (g : hgeo F) (i : nat) (v : seq F) :
  (idx < cu_n_edges T)%N -> ucube_at F enum G idx = Ok g ->
  (i < 2 * d)%N -> uc_local_normal g i = Ok v ->
  [/\ size v = d, \sum_(k < d) v`_k * v`_k = 1,
      forall p q, on_face d i p -> on_face d i q -> \sum_(k < d) (q`_k - p`_k) * v`_k = 0
    & forall p q, on_face d i p -> in_open_cube d q -> \sum_(k < d) (q`_k - p`_k) * v`_k < 0].
Proof. by move=> h hg; exact: (grid_local_normal henum hslice hL hpos h hg). Qed.

Theorem C22_inner (idx : nat) (g : hgeo F) (i : nat) (v : seq F) :
  (idx < cu_n_edges T)%N -> ucube_at F enum G idx = Ok g ->
  (i < 2 * d)%N -> uc_inner_normal g i = Ok v ->
  [/\ size v = n, \sum_(k < n) v`_k * v`_k = 1,
      forall p q y z, on_face d i p -> on_face d i q -> uc_map g 1 p = Ok y -> uc_map g 1 q = Ok z ->
        \sum_(k < n) (z`_k - y`_k) * v`_k = 0
    & forall p q y z, on_face d i p -> in_open_cube d q -> uc_map g 1 p = Ok y -> uc_map g 1 q = Ok z ->
        \sum_(k < n) (z`_k - y`_k) * v`_k < 0].
Proof. by move=> h hg; exact: (grid_inner_normal henum hslice hd hL hpos h hg). Qed.

Theorem C22_opposite (idx : nat) (g : hgeo F) (j : nat) (v w v' w' : seq F) :
  (idx < cu_n_edges T)%N -> ucube_at F enum G idx = Ok g -> (j < d)%N ->
  uc_local_normal g (2 * j) = Ok v -> uc_local_normal g (2 * j).+1 = Ok w ->
  uc_inner_normal g (2 * j) = Ok v' -> uc_inner_normal g (2 * j).+1 = Ok w' ->
  v = [seq - x | x <- w] /\ v' = [seq - x | x <- w'].
Proof. by move=> h hg; exact: (grid_normal_opp henum hslice hd hL hpos h hg). Qed.

Theorem C22_total (idx : nat) (g : hgeo F) (i : nat) :
  (idx < cu_n_edges T)%N -> ucube_at F enum G idx = Ok g -> (i < 2 * d)%N -> exists v w a,
  [/\ uc_local_normal g i = Ok v, uc_inner_normal g i = Ok w, uc_face_area g i = Ok a & 0 < a].
Proof. by move=> h hg; exact: (grid_normals_total henum hslice hd hL hpos h hg). Qed.

Theorem C22_sum (idx : nat) (g : hgeo F) (a : nat -> F) (v w : nat -> seq F) (k : nat) :
  (idx < cu_n_edges T)%N -> ucube_at F enum G idx = Ok g ->
  (forall i, (i < 2 * d)%N -> [/\ uc_face_area g i = Ok (a i), uc_local_normal g i = Ok (v i)
     & uc_inner_normal g i = Ok (w i)]) ->
  \sum_(i < 2 * d) a i * (v i)`_k = 0 /\ \sum_(i < 2 * d) a i * (w i)`_k = 0.
Proof. by move=> h hg; exact: (grid_normal_sum henum hslice hd hL hpos h hg). Qed.

Theorem C23_area (e : nat) (g : nat -> hgeo F) (g0 : hgeo F) :
  (e < size (enum (Tpcc true d dims)))%N -> ucube_at F enum G0 e = Ok g0 ->
  (forall k, (k < L ^ d)%N -> ucube_at F enum G (e * L ^ d + k) = Ok (g k)) ->
  [/\ 0 < uc_area g0, forall k, (k < L ^ d)%N -> uc_area (g k) = uc_area g0 / (L ^ d)%:R
    & \sum_(k < L ^ d) uc_area (g k) = uc_area g0].
Proof. exact: (area_sum henum hslice). Qed.

(** Face areas: the parts that have a face on the coarse face [i] ([C23_on_coarse] says what
    [on_coarse] means) contribute exactly its area. *)
Theorem C23_face_area (e i : nat) (g : nat -> hgeo F) (g0 : hgeo F) (a : nat -> F) (a0 : F) :
  (e < size (enum (Tpcc true d dims)))%N -> (i < 2 * d)%N -> ucube_at F enum G0 e = Ok g0 ->
  (forall k, (k < L ^ d)%N -> ucube_at F enum G (e * L ^ d + k) = Ok (g k)) ->
  uc_face_area g0 i = Ok a0 -> (forall k, (k < L ^ d)%N -> uc_face_area (g k) i = Ok (a k)) ->
  [/\ 0 < a0, forall k, (k < L ^ d)%N -> a k = a0 / (L ^ d.-1)%:R
    & \sum_(k < L ^ d | on_coarse enum d L k i) a k = a0].
Proof. exact: (face_area_sum henum hslice). Qed.

Theorem C23_on_coarse (e k i : nat) (g g0 : hgeo F) :
  (e < size (enum (Tpcc true d dims)))%N -> (k < L ^ d)%N -> (i < 2 * d)%N ->
  ucube_at F enum G0 e = Ok g0 -> ucube_at F enum G (e * L ^ d + k) = Ok g ->
  (on_coarse enum d L k i <->
   forall p, on_face d i p -> exists2 q, on_face d i q & uc_map g 1 p = uc_map g0 1 q).
Proof. exact: (on_coarse_points henum hslice). Qed.

Theorem C60_orthogonal (idx : nat) (g : hgeo F) :
  (idx < cu_n_edges T)%N -> ucube_at F enum G idx = Ok g ->
  (mx_of n n (uc_mat_q g))^T *m mx_of n n (uc_mat_q g) = 1%:M.
Proof. by move=> h hg; exact: (grid_mat_q henum hslice hd hL hpos h hg). Qed.

Theorem C60_factors (idx : nat) (g : hgeo F) (j : nat) (v : seq F) (i : nat) :
  (idx < cu_n_edges T)%N -> ucube_at F enum G idx = Ok g ->
  (j < d)%N -> uc_span_vec g j = Ok v -> (i < n)%N ->
  v`_i = \sum_(k < d) mget n (uc_mat_q g) i k * mget d (uc_mat_r g) k j.
Proof. by move=> h hg; exact: (grid_mat_qr henum hslice hd hL hpos h hg). Qed.

Theorem C60_outer (idx : nat) (g : hgeo F) (i : nat) :
  (idx < cu_n_edges T)%N -> ucube_at F enum G idx = Ok g -> (i < n - d)%N -> exists v,
  [/\ uc_outer_normal g i = Ok v, size v = n,
      forall k, (k < n)%N -> v`_k = mget n (uc_mat_q g) k (d + i)
    & forall p q y z, in_cube d p -> in_cube d q -> uc_map g 1 p = Ok y -> uc_map g 1 q = Ok z ->
        \sum_(k < n) (z`_k - y`_k) * v`_k = 0].
Proof. by move=> h hg; exact: (grid_outer_normal henum hslice hd hL hpos h hg). Qed.

(** The in-place overload for hyperedges of full dimension computes the same. *)
Theorem C21_volume (idx : nat) (g : hgeo F) (n_vec : nat) (points : seq F) :
  (idx < cu_n_edges T)%N -> ucube_at F enum G idx = Ok g -> d = n -> size points = (n * n_vec)%N ->
  uc_map_volume g n_vec points = uc_map g n_vec points.
Proof. by move=> h hg; exact: (grid_volume henum hslice hd hL hpos h hg). Qed.

Theorem C61_unit_cube (idx : nat) (g : hgeo F) (s : nat) (t : seq nat) (pts : seq F) :
  (idx < cu_n_edges T)%N -> ucube_at F enum G idx = Ok g -> size t = d -> all (fun x => (x < s)%N) t ->
  uc_lexicographic g s (compose s t) pts = uc_map g 1 [seq pts`_k | k <- t].
Proof. by move=> h hg; exact: (grid_lexicographic henum hslice hd hL hpos h hg). Qed.

Theorem C61_unit_cube_boundary (idx : nat) (g : hgeo F) (s : nat) (t : seq nat) (b : nat) (scale : F)
    (pts : seq F) : (idx < cu_n_edges T)%N -> ucube_at F enum G idx = Ok g ->
  size t = d.-1 -> all (fun x => (x < s)%N) t -> (b < 2 * d)%N ->
  uc_boundary_lexicographic g s (s ^ d.-1 * b + compose s t) b scale pts =
  uc_map g 1 (let q := [seq pts`_k | k <- t] in
    take (b %/ 2) q ++ (scale * ((b %% 2)%:R - 2%:R^-1) + 2%:R^-1) :: drop (b %/ 2) q).
Proof. by move=> h hg; exact: (grid_boundary henum hslice hd hL hpos h hg). Qed.

Theorem C61_range (idx : nat) (g : hgeo F) (s index : nat) (pts : seq F) :
  (idx < cu_n_edges T)%N -> ucube_at F enum G idx = Ok g -> (s ^ d <= index)%N ->
  uc_lexicographic g s index pts = Abort.
Proof. by move=> h hg; exact: (grid_lexicographic_out henum hslice hL hpos h hg). Qed.
End UnitCube.
Print Assumptions C21_volume.
Print Assumptions C61_unit_cube.
Print Assumptions C61_unit_cube_boundary.
Print Assumptions C61_range.
Print Assumptions C17_points.
Print Assumptions C17_barycenter.
Print Assumptions C21_map.
Print Assumptions C21_disjoint.
Print Assumptions C21_cover.
Print Assumptions C21_size.
Print Assumptions C21_corners.
Print Assumptions C22_local.
Print Assumptions C22_inner.
Print Assumptions C22_opposite.
Print Assumptions C22_total.
Print Assumptions C22_sum.
Print Assumptions C23_area.
Print Assumptions C23_face_area.
Print Assumptions C23_on_coarse.
Print Assumptions C60_orthogonal.
Print Assumptions C60_factors.
Print Assumptions C60_outer.

(** ** Hyperedges read from file *)
Section File.
Variable F : realFieldType.
Variable geqr2 : nat -> nat -> seq F -> qr_result F.
Variables (enum : tpcc -> seq cell) (slice : nat -> seq nat -> nat).
Hypotheses (henum : tpcc_spec enum) (hslice : slice_spec slice).
Variables (d L : nat) (D : domain) (Q : points_of F).
Hypotheses (hd : (0 < d)%N) (hL : (0 < L)%N).
Let G := gfile_refine L (gfile_of (file_new enum d D)).
Let G0 := gfile_of (file_new enum d D).
Let n := po_n Q.
(** Hyperedge [e] with its corner points [P], and the maps of it and of its parts. *)
Variables (e : nat) (P : nat -> seq F).
Hypothesis he : (e < do_n_edges D)%N.
Hypothesis hP0 : file_point Q e 0 = Ok (P 0%N).
Hypothesis hP : forall j, (j < d)%N -> file_point Q e (2 ^ j) = Ok (P (2 ^ j)%N).
Hypothesis hs0 : size (P 0%N) = n.
Hypothesis hs : forall j, (j < d)%N -> size (P (2 ^ j)%N) = n.
Variables (T0 : linear F) (T : nat -> linear F).
Hypothesis hT0 : gfile_at geqr2 enum G0 Q e = Ok T0.
Hypothesis hT : forall k, (k < L ^ d)%N -> gfile_at geqr2 enum G Q (e * L ^ d + k) = Ok (T k).

Theorem C21_file_map (p : seq F) : in_cube d p ->
  exists2 y, gf_map T0 1 p = Ok y & size y = n /\
  forall i, (i < n)%N -> y`_i = (P 0%N)`_i + \sum_(j < d) p`_j * ((P (2 ^ j)%N)`_i - (P 0%N)`_i).
Proof. exact: (map_coarse henum hslice he hP0 hP hs0 hs hT0). Qed.

Theorem C21_file_cover (y : seq F) : (exists2 q, in_cube d q & gf_map T0 1 q = Ok y) <->
  (exists k p, [/\ (k < L ^ d)%N, in_cube d p & gf_map (T k) 1 p = Ok y]).
Proof. exact: (file_cover henum hslice hL he hP0 hP hs0 hs hT0 hT). Qed.

Theorem C21_file_disjoint (k k' : nat) (p p' : seq F) : (k < L ^ d)%N -> (k' < L ^ d)%N ->
  \rank (mx_of n d (l_mat T0)) = d -> in_open_cube d p -> in_open_cube d p' ->
  gf_map (T k) 1 p = gf_map (T k') 1 p' -> k = k' /\ p = p'.
Proof. exact: (file_disjoint henum hslice hL he hP0 hP hs0 hs hT0 hT). Qed.

Hypotheses (hdn : (d <= n)%N) (hfit : r_fits n d).
Hypothesis hok : forall nr nc A, qr_info (geqr2 nr nc A) ->
  geqr2_ok nr nc A (qr_fac (geqr2 nr nc A)) (qr_tau (geqr2 nr nc A)).

Theorem C23_file_area : \sum_(k < L ^ d) gf_area (T k) = gf_area T0.
Proof. exact: (file_area_sum henum hslice hd hL he hP0 hP hs0 hs hT0 hT hdn hfit hok). Qed.

Theorem C23_file_part (k : nat) : (k < L ^ d)%N -> gf_area (T k) = gf_area T0 / (L ^ d)%:R.
Proof. exact: (file_area_part henum hslice hd hL he hP0 hP hs0 hs hT0 hT hdn hfit hok). Qed.

Theorem C23_file_face (i : nat) (a : nat -> F) (a0 : F) : (i < 2 * d)%N ->
  (forall k, (k < L ^ d)%N -> gf_face_area geqr2 (T k) i = Ok (a k)) ->
  gf_face_area geqr2 T0 i = Ok a0 ->
  \sum_(k < L ^ d | on_coarse enum d L k i) a k = a0.
Proof. exact: (file_face_area_sum henum hslice hd hL he hP0 hP hs0 hs hT0 hT hdn hfit hok). Qed.
End File.
Print Assumptions C21_file_map.
Print Assumptions C21_file_cover.
Print Assumptions C21_file_disjoint.
Print Assumptions C23_file_area.
Print Assumptions C23_file_part.
Print Assumptions C23_file_face.

(** ** Linear mappings *)
Section Linear.
Variable F : realFieldType.
Variable geqr2 : nat -> nat -> seq F -> qr_result F.
Variable gesv : nat -> nat -> seq F -> seq F -> sv_result F.

(** The local normal is a unit vector, orthogonal to the face (spanned by the other columns of R) and
    outward. *)
Theorem C22_file (T : linear F) (i : nat) (v : seq F) (d := l_d T) (B := drop_column d d (l_r T) (i %/ 2)) :
  (qr_info (geqr2 d d.-1 B) -> geqr2_ok d d.-1 B (qr_fac (geqr2 d d.-1 B)) (qr_tau (geqr2 d d.-1 B))) ->
  gf_local_normal geqr2 T i = Ok v ->
  [/\ size v = d, \sum_(k < d) v`_k * v`_k = 1,
      forall j, (j < d)%N -> j != (i %/ 2)%N -> \sum_(k < d) v`_k * mget d (l_r T) k j = 0
    & linear_det_edge T != 0 -> let s := \sum_(k < d) v`_k * mget d (l_r T) k (i %/ 2) in
      if (i %% 2 == 1)%N then 0 < s else s < 0].
Proof. exact: gf_local_normalP. Qed.

(** Areas are Gram determinants. *)
Theorem C23_gram (n d : nat) (trans mat : seq F) (T : linear F) :
  linear_new geqr2 n d trans mat = Ok T -> (0 < d <= n)%N -> r_fits n d ->
  (qr_info (geqr2 n d mat) -> geqr2_ok n d mat (qr_fac (geqr2 n d mat)) (qr_tau (geqr2 n d mat))) ->
  0 <= gf_area T /\ gf_area T ^+ 2 = \det ((mx_of n d mat)^T *m mx_of n d mat).
Proof. exact: gf_area_sq. Qed.

Theorem C24_inverse (T : linear F) (n_vec : nat) (pts y : seq F) (n := l_n T) : l_d T = n ->
  mx_of n n (l_mat T) \in unitmx -> is_mat n n_vec pts -> is_mat n n_vec y ->
  (forall c, sv_info (gesv n n_vec (l_mat T) c)) ->
  (forall c, sv_info (gesv n n_vec (l_mat T) c) ->
     gesv_ok n n_vec (l_mat T) c (sv_rhs (gesv n n_vec (l_mat T) c))) ->
  linear_unmap gesv T n_vec (linear_map T n_vec pts) = Ok pts /\
  exists2 x, linear_unmap gesv T n_vec y = Ok x & linear_map T n_vec x = y.
Proof. exact: linear_inverse. Qed.

Theorem C24_affine (T : linear F) (s : F) (p q : seq F) :
  is_mat (l_d T) 1 p -> is_mat (l_d T) 1 q ->
  mx_of (l_n T) 1 (linear_map T 1 (mkseq (fun i => (1 - s) * p`_i + s * q`_i) (l_d T))) =
  (1 - s) *: mx_of (l_n T) 1 (linear_map T 1 p) + s *: mx_of (l_n T) 1 (linear_map T 1 q).
Proof. exact: linear_map_affine. Qed.

(** What holds for the inner and outer normals of hyperedges read from file. *)
Section Normals.
Variables (n d : nat) (trans mat : seq F) (T : linear F).
Hypothesis hT : linear_new geqr2 n d trans mat = Ok T.
Hypothesis hd : (0 < d <= n)%N.
Hypothesis hf : r_fits n d.
Hypothesis hok : qr_info (geqr2 n d mat) ->
  geqr2_ok n d mat (qr_fac (geqr2 n d mat)) (qr_tau (geqr2 n d mat)).

Theorem C62_inner_partial (i : nat) (v : seq F) : gf_inner_normal T i = Ok v ->
  [/\ size v = n, \sum_(k < n) v`_k * v`_k = 1
    & forall j, (j < i %/ 2)%N -> \sum_(k < n) v`_k * mget n mat k j = 0].
Proof. exact: (file_inner_normal hT hd hf hok). Qed.

Theorem C62_opposite (j : nat) (v w : seq F) :
  gf_inner_normal T (2 * j) = Ok v -> gf_inner_normal T (2 * j).+1 = Ok w -> forall k, w`_k = - v`_k.
Proof. exact: (file_inner_opp hT). Qed.

Theorem C62_outer (i : nat) : (i < n - d)%N -> exists v,
  [/\ gf_outer_normal T i = Ok v, size v = n, \sum_(k < n) v`_k * v`_k = 1,
      forall j, (j < d)%N -> \sum_(k < n) v`_k * mget n mat k j = 0
    & forall i' w, (i' < n - d)%N -> i' != i -> gf_outer_normal T i' = Ok w ->
      \sum_(k < n) v`_k * w`_k = 0].
Proof. exact: (file_outer_normal hT hd hf hok). Qed.
End Normals.

Theorem C61_lexicographic (s : nat) (t : seq nat) (pts : seq F) : all (fun x => (x < s)%N) t ->
  lex_point s (size t) (compose s t) pts = [seq pts`_k | k <- t].
Proof. exact: lex_pointE. Qed.

Theorem C61_boundary (d s : nat) (t : seq nat) (b : nat) (scale : F) (pts : seq F) :
  size t = d.-1 -> all (fun x => (x < s)%N) t -> (b < 2 * d)%N ->
  boundary_point d s (s ^ d.-1 * b + compose s t) b scale pts =
  let q := [seq pts`_k | k <- t] in
  take (b %/ 2) q ++ (scale * ((b %% 2)%:R - 2%:R^-1) + 2%:R^-1) :: drop (b %/ 2) q.
Proof. exact: boundary_pointE. Qed.

Theorem C61_on_face (d s : nat) (t : seq nat) (b : nat) (pts : seq F) :
  size t = d.-1 -> all (fun x => (x < s)%N) t -> (b < 2 * d)%N -> (forall k, 0 <= pts`_k <= 1) ->
  on_face d b (boundary_point d s (s ^ d.-1 * b + compose s t) b 1 pts).
Proof. exact: boundary_on_face. Qed.

Theorem C61_file (T : linear F) (s : nat) (t : seq nat) (pts : seq F) :
  size t = l_d T -> all (fun x => (x < s)%N) t ->
  gf_lexicographic T s (compose s t) pts = Ok (linear_map T 1 [seq pts`_k | k <- t]).
Proof. exact: file_lexicographic. Qed.

Theorem C61_file_boundary (T : linear F) (s : nat) (t : seq nat) (b : nat) (scale : F) (pts : seq F)
    (d := l_d T) : size t = d.-1 -> all (fun x => (x < s)%N) t -> (b < 2 * d)%N ->
  gf_boundary_lexicographic T s (s ^ d.-1 * b + compose s t) b scale pts =
  Ok (linear_map T 1 (let q := [seq pts`_k | k <- t] in
    take (b %/ 2) q ++ (scale * ((b %% 2)%:R - 2%:R^-1) + 2%:R^-1) :: drop (b %/ 2) q)).
Proof. exact: file_boundary. Qed.

(** face_barycenter is the image of the centre of the face. *)
Theorem C22_file_barycenter (T : linear F) (i : nat) (d := l_d T) : (i < 2 * d)%N ->
  exists2 p, on_face d i p
  & (forall j, (j < d)%N -> j != (i %/ 2)%N -> p`_j = 2%:R^-1) /\ gf_face_barycenter T i = gf_map T 1 p.
Proof. exact: file_barycenter. Qed.
End Linear.
Print Assumptions C61_file.
Print Assumptions C61_file_boundary.
Print Assumptions C22_file_barycenter.
Print Assumptions C22_file.
Print Assumptions C23_gram.
Print Assumptions C24_inverse.
Print Assumptions C24_affine.
Print Assumptions C62_inner_partial.
Print Assumptions C62_opposite.
Print Assumptions C62_outer.
Print Assumptions C61_lexicographic.
Print Assumptions C61_boundary.
Print Assumptions C61_on_face.

(** The inner normal of Geometry::File need not point outward: lower face of the edge (-3,4). *)
Theorem C62_refuted_inward :
  exists (g : nat -> nat -> seq rat -> qr_result [realFieldType of rat]) (mat : seq rat) T v,
  [/\ geqr2_ok 2 1 mat (qr_fac (g 2%N 1%N mat)) (qr_tau (g 2%N 1%N mat)),
      linear_new g 2 1 [:: 0; 0] mat = Ok T, gf_inner_normal T 0 = Ok v
    & 0 < \sum_(k < 2) v`_k * mget 2 mat k 0].
Proof. exact: inner_inward. Qed.
Print Assumptions C62_refuted_inward.

(** Nor need it be orthogonal to the face: face 0 of the parallelogram spanned by (3,4) and (0,5). *)
Theorem C62_refuted_orthogonal :
  exists (g : nat -> nat -> seq rat -> qr_result [realFieldType of rat]) (mat : seq rat) T v,
  [/\ geqr2_ok 2 2 mat (qr_fac (g 2%N 2%N mat)) (qr_tau (g 2%N 2%N mat)),
      linear_new g 2 2 [:: 0; 0] mat = Ok T, linear_det_edge T != 0, gf_inner_normal T 0 = Ok v
    & \sum_(k < 2) v`_k * mget 2 mat k 1 <> 0].
Proof. exact: inner_not_normal. Qed.
Print Assumptions C62_refuted_orthogonal.

(** ** Node types of hypergraphs read from file *)
Local Open Scope nat_scope.
Section FileTypes.
Variables (enum : tpcc -> seq cell) (slice : nat -> seq nat -> nat).
Hypotheses (henum : tpcc_spec enum) (hslice : slice_spec slice).
Variables (d L : nat) (D : domain).
Hypotheses (hd : 0 < d) (hL : 0 < L) (hE : size (do_types D) = do_n_edges D).
Hypothesis hN : forall e, e < do_n_edges D -> size (nth [::] (do_types D) e) = 2 * d.
Let T := file_refine enum L (file_new enum d D).
Let N := fnode_refine enum L (fnode_of (file_new enum d D)).

Theorem C59_types (idx : nat) : idx < fi_n_edges T ->
  exists v, [/\ fnode_at enum N idx = Ok v, size v = 2 * d
    & forall i, i < 2 * d -> nth 0 v i =
        if on_coarse enum d L idx i then nth 0 (nth [::] (do_types D) (idx %/ L ^ d)) i else 0].
Proof. exact: (ftypes_total henum hslice). Qed.

(** If the types in the file belong to the hypernodes, so do those of the refined hypergraph. *)
Theorem C59_shared (ty : nat -> nat) (idx idx' i i' : nat) (v v' t t' : seq nat) :
  size (do_nodes D) = do_n_edges D ->
  (forall e, e < do_n_edges D -> size (nth [::] (do_nodes D) e) = 2 * d /\
     all (fun k => k < do_n_nodes D) (nth [::] (do_nodes D) e)) ->
  (forall e i, e < do_n_edges D -> i < 2 * d ->
     nth 0 (nth [::] (do_types D) e) i = ty (nth 0 (nth [::] (do_nodes D) e) i)) ->
  file_at enum slice T idx = Ok v -> file_at enum slice T idx' = Ok v' ->
  fnode_at enum N idx = Ok t -> fnode_at enum N idx' = Ok t' -> i < 2 * d -> i' < 2 * d ->
  nth 0 v i = nth 0 v' i' -> nth 0 t i = nth 0 t' i'.
Proof. exact: (ftypes_shared henum hslice). Qed.
End FileTypes.
Print Assumptions C59_types.
Print Assumptions C59_shared.

(** ** Non-vacuity *)
Local Open Scope ring_scope.
Definition okr (x : outcome (seq rat)) : seq rat := if x is Ok v then v else [::].
Example C21_example :
  let G := ucube_refine 2 (ucube_new 1 [:: 2; 1]%N) in
  okb (fun g => (okr (uc_map g 1 [:: 0]) == [:: 0; 0]) && (okr (uc_map g 1 [:: 1]) == [:: 1%:R / 4%:R; 0])
     && (okr (uc_inner_normal g 0) == [:: -1; 0]) && (okr (uc_outer_normal g 0) == [:: 0; 1])
     && (uc_area g == 1%:R / 4%:R))
    (ucube_at [realFieldType of rat] ex_enum G 6).
Proof. by vm_compute. Qed.
Example C22_example :
  let G := ucube_refine 2 (ucube_new 2 [:: 2; 1]%N) in
  okb (fun g => (okr (uc_local_normal g 3) == [:: 0; 1]) && (okb (fun a => a == 1%:R / 4%:R) (uc_face_area g 3)))
    (ucube_at [realFieldType of rat] ex_enum G 5).
Proof. by vm_compute. Qed.
(** The edge from (1,1) to (4,5) cut in two, with the factorisation LAPACK computes. *)
Definition ex_file_qr : nat -> nat -> seq rat -> qr_result [realFieldType of rat] :=
  fun nr nc A => if [:: A`_0; A`_1] == [:: 3%:Q; 4%:Q] then QrResult true [:: -5%:Q; 1%:Q/2%:Q] [:: 8%:Q/5%:Q]
                 else QrResult true [:: -5%:Q/2%:Q; 1%:Q/2%:Q] [:: 8%:Q/5%:Q].
Example C23_example :
  let D := Domain 1 2 [:: [:: 0; 1]%N] [:: [:: 1; 0]%N] in
  let Q := PointsOf 2 [:: [:: 1%:Q; 1%:Q]; [:: 4%:Q; 5%:Q]] [:: [:: 0; 1]%N] in
  let G := gfile_of (file_new ex_enum 1 D) in
  okb (fun T => (gf_area T == 5%:Q) && geqr2_check 2 1 (l_mat T) [:: -5%:Q; 1%:Q/2%:Q] [:: 8%:Q/5%:Q])
      (gfile_at ex_file_qr ex_enum G Q 0) &&
  okb (fun T => (gf_area T == 5%:Q/2%:Q) && (okr (gf_map T 1 [:: 0]) == [:: 5%:Q/2%:Q; 3%:Q])
       && geqr2_check 2 1 (l_mat T) [:: -5%:Q/2%:Q; 1%:Q/2%:Q] [:: 8%:Q/5%:Q]
       && (okr (gf_local_normal ex_file_qr T 0) == [:: 1]))
      (gfile_at ex_file_qr ex_enum (gfile_refine 2 G) Q 1).
Proof. by vm_compute. Qed.
(** A diagonal map and a solver for it. *)
Definition ex_sv : nat -> nat -> seq rat -> seq rat -> sv_result [realFieldType of rat] :=
  fun _ _ A b => SvResult true A [:: b`_0 / A`_0; b`_1 / A`_3].
Example C24_example :
  let T := @Linear [realFieldType of rat] 2 2 [:: 1; 1] [:: 2%:R; 0; 0; 3%:R] [::] [::] in
  (okr (linear_unmap ex_sv T 1 (linear_map T 1 [:: 1%:R / 2%:R; 1])) == [:: 1%:R / 2%:R; 1]) &&
  (linear_map T 1 [:: 1%:R / 2%:R; 1] == [:: 2%:R; 4%:R]).
Proof. by vm_compute. Qed.
Example C59_example :
  let D := Domain 2 3 [:: [:: 0; 1]%N; [:: 1; 2]%N] [:: [:: 7; 0]%N; [:: 0; 9]%N] in
  let N := fnode_refine ex_enum 2 (fnode_of (file_new ex_enum 1 D)) in
  [seq (if fnode_at ex_enum N e is Ok v then v else [::]) | e <- iota 0 4]
    == [:: [:: 7; 0]; [:: 0; 0]; [:: 0; 0]; [:: 0; 9]]%N.
Proof. by vm_compute. Qed.
Example C61_example :
  (lex_point 3 2 (compose 3 [:: 2; 1]%N) [:: 0; 1%:R / 2%:R; 1 : rat] == [:: 1; 1%:R / 2%:R]) &&
  (boundary_point 2 3 (3 * 1 + compose 3 [:: 1]%N) 1 1 [:: 0; 1%:R / 2%:R; 1 : rat] == [:: 1; 1%:R / 2%:R]).
Proof. by vm_compute. Qed.
Example C62_example :
  okb (fun T => (okr (gf_outer_normal T 0) == [:: -4%:Q/5%:Q; 3%:Q/5%:Q]) || (okr (gf_outer_normal T 0) == [:: 4%:Q/5%:Q; -3%:Q/5%:Q]))
    (linear_new ex_file_qr 2 1 [:: 0; 0] [:: 3%:Q; 4%:Q]).
Proof. by vm_compute. Qed.
