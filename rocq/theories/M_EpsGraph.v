(** Model of include/HyperHDG/epsilon_neighborhood_graph.hxx and of read_domain (read_domain.hxx:393-426).
    Simplifications: floating point numbers are elements of a real closed field; std::istream >> and
    std::ostream << of floating point numbers are parameters [parse] and [show].  index_t is unsigned int; the number of
    points is taken to be below 2^32, so that --ind wraps only from 0 to a value that ends the loop. *)
From Coq Require Import Ascii String.
From mathcomp Require Import all_ssreflect all_algebra.
From Verif Require Import M_Base M_DenseLA M_Text M_ReadDomain.
Set Implicit Arguments. Unset Strict Implicit. Unset Printing Implicit Defensive.
Import Num.Theory.
Local Open Scope ring_scope.

Section Search.
Variable F : rcfType.
Variables (dim : nat) (points : seq (seq F)) (epsilon : F).
Local Notation pt i := (nth [::] points i).
Local Notation n := (size points).

(** search, bool_vec, connections (96-98). *)
Record bstate := BState { b_search : seq nat; b_seen : seq bool; b_conn : seq (nat * nat) }.

(** 107, 118: norm_2(points[index] - points[ind]) < epsilon. *)
Definition near (index ind : nat) : bool := norm_2 dim (mat_sub dim 1 1 (pt index) (pt ind)) < epsilon.
(** 105, 116: std::abs(points[index][0] - points[ind][0]) < epsilon. *)
Definition in_window (index ind : nat) : bool := `|nth 0 (pt index) 0 - nth 0 (pt ind) 0| < epsilon.
(** 107-114, 118-125. *)
Definition visit (index ind : nat) (st : bstate) : bstate :=
  if [&& near index ind, ind != index
       & ~~ nth false (b_seen st) ind || (ind \in b_search st)] then
    BState (if ~~ nth false (b_seen st) ind then rcons (b_search st) ind else b_search st)
           (upd (b_seen st) ind true) (rcons (b_conn st) (index, ind))
  else st.
(** 104-106, 115-117: the loop over the indices [l], left at the first one outside the window. *)
Fixpoint scan (index : nat) (l : seq nat) (st : bstate) : bstate :=
  if l is ind :: l' then
    if in_window index ind then scan index l' (visit index ind st) else st
  else st.
(** 102-125: down from index, then up from index. *)
Definition expand (index : nat) (st : bstate) : bstate :=
  scan index (iota index (n - index)) (scan index (rev (iota 0 index.+1)) st).
(** 100-126, at most [fuel] rounds. *)
Fixpoint search_loop (fuel : nat) (st : bstate) : option bstate :=
  if b_search st is index :: rest then
    if fuel is fuel'.+1 then search_loop fuel' (expand index (BState rest (b_seen st) (b_conn st)))
    else None
  else Some st.
(** 96-98: bool_vec[0] is out of range if there are no points. *)
Definition search_start : bstate := BState [:: 0%N] (upd (nseq n false) 0 true) [::].
Definition epsilon_search (fuel : nat) : outcome (option bstate) :=
  if n == 0%N then UB else Ok (search_loop fuel search_start).
End Search.

Section File.
Variable F : rcfType.
Variables (parse : text -> option (F * text)) (show : F -> text) (umax : nat) (asserts : bool) (dim : nat).
Local Notation assert := (hassert asserts).

(** dense_la.hxx:944-951 operator<< of a point. *)
Definition show_point (p : seq F) : text :=
  flatten (mkseq (fun row => t_ " " ++ show (nth 0 p row) ++ t_ " ") dim) ++ endl.
Definition show_pairs (l : seq (nat * nat)) : text :=
  flatten [seq decimal e.1 ++ t_ " " ++ decimal e.2 ++ endl | e <- l].
(** 132-148. *)
Definition geo_text (points : seq (seq F)) (conn : seq (nat * nat)) : text :=
  t_ "Space_Dim     = " ++ decimal dim ++ t_ ";" ++ endl ++
  t_ "HyperEdge_Dim = 1;" ++ endl ++ endl ++
  t_ "N_Points      = " ++ decimal (size points) ++ t_ ";" ++ endl ++
  t_ "N_HyperNodes  = " ++ decimal (size points) ++ t_ ";" ++ endl ++
  t_ "N_HyperEdges  = " ++ decimal (size conn) ++ t_ ";" ++ endl ++ endl ++
  t_ "POINTS:" ++ endl ++
  flatten [seq show_point p | p <- points] ++
  endl ++ t_ "HYPERNODES_OF_HYPEREDGES:" ++ endl ++ show_pairs conn ++
  endl ++ t_ "TYPES_OF_HYPERFACES:" ++ endl ++ show_pairs conn ++
  endl ++ t_ "POINTS_OF_HYPEREDGES:" ++ endl ++ show_pairs conn.

(** 84-90: one point per line; a coordinate that is missing keeps the value of the point before. *)
Fixpoint pts_lines (pt : seq F) (ls : seq text) : seq (seq F) :=
  if ls is l :: ls' then
    let: (pt, _) := extract_row (conv_float parse) pt (istr l) in pt :: pts_lines pt ls'
  else [::].
(** 50-90: epsilon and the points of the .pts file. *)
Definition read_pts (file : text) : outcome (F * seq (seq F)) :=
  let st := RState [::] [::] (istr [::]) (lines file) in
  read_dim umax asserts "Space_Dim" dim st (fun st =>
  let st := goto_key "Epsilon" st in
  let: (x, st) := read_eq (conv_some (conv_float parse)) None st in
  assert (key_ok "Epsilon" st) (assert (eq_ok st)
  (if x is Some eps then assert (0 < eps)
     (let st := goto_key "POINTS:" st in
      assert (key_ok "POINTS:" st) (Ok (eps, pts_lines (nseq dim 0) (r_file st))))
   else UB))).
(** 92-126: the sorted points and the connections; the loop ends after at most one round per point. *)
Definition sort_points (points : seq (seq F)) : seq (seq F) := sort (fun a b => ~~ mat_lt dim b a) points.
Definition epsilon_graph (eps : F) (points : seq (seq F)) : outcome (seq (seq F) * bstate) :=
  let points := sort_points points in
  assert (~~ has_adjacent (mat_eq dim) points)
  (obind (epsilon_search dim points eps (size points)) (fun r =>
   if r is Some st then Ok (points, st) else UB)).
(** 24-154: the text written to filename.geo, and then the final assertion. *)
Definition make_epsilon_text (name : text) (file : text) : outcome (text * bool) :=
  obind (if asserts then has_suffix ".pts" name (fun b => assert b (Ok tt)) else Ok tt) (fun _ =>
  obind (read_pts file) (fun ep =>
  obind (epsilon_graph ep.1 ep.2) (fun ps =>
  Ok (geo_text ps.1 (b_conn ps.2), all id (b_seen ps.2))))).
Definition make_epsilon_neighborhood_graph (name : text) (file : text) : outcome (text * text) :=
  obind (make_epsilon_text name file) (fun r => assert r.2 (Ok (name ++ t_ ".geo", r.1))).

(** read_domain.hxx:393-426; [file] is None if the file does not exist. *)
Definition read_domain (edge_dim : nat) (name : text) (file : option text) : outcome (domain_info F) :=
  assert (file != None)
  (has_suffix ".pts" name (fun pts =>
   obind (if pts then assert (edge_dim == 1%N) (make_epsilon_neighborhood_graph name (odflt [::] file))
          else Ok (name, odflt [::] file)) (fun nf =>
   obind (if asserts then has_suffix ".geo" nf.1 (fun b => assert b (Ok tt)) else Ok tt) (fun _ =>
   obind (read_domain_geo parse umax asserts edge_dim dim nf.1 nf.2) (fun D =>
   if asserts then obind (check_consistency asserts dim D) (fun b => assert b (Ok D)) else Ok D))))).
End File.
