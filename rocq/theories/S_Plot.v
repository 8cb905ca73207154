(** Vocabulary for plot files: words, XML elements, and what a VTU file of an unstructured grid says. *)
From Coq Require Import Ascii String.
From mathcomp Require Import all_ssreflect all_algebra.
From Verif Require Import M_Base M_Text M_Plot S_ReadDomain S_Index.
Set Implicit Arguments. Unset Strict Implicit. Unset Printing Implicit Defensive.

(** The words of a text: maximal pieces without white space. *)
Fixpoint words_ (cur : text) (s : text) : seq text :=
  match s with
  | [::] => if cur is [::] then [::] else [:: rev cur]
  | c :: s' => if is_space c then (if cur is [::] then words_ [::] s' else rev cur :: words_ [::] s')
               else words_ (c :: cur) s'
  end.
Definition words (s : text) : seq text := words_ [::] s.

(** The pieces of a text between the characters [c]. *)
Fixpoint pieces_ (c : ascii) (cur : text) (s : text) : seq text :=
  match s with
  | [::] => [:: rev cur]
  | x :: s' => if x == c then rev cur :: pieces_ c [::] s' else pieces_ c (x :: cur) s'
  end.
Definition pieces (c : ascii) (s : text) : seq text := pieces_ c [::] s.
(** The tags of an XML text in order, each with the text between it and the next tag. *)
Definition tags (file : text) : seq (text * text) :=
  [seq let: (tag, content) := span (fun c => c != ">"%char) p in (tag, behead content)
  | p <- behead (pieces "<"%char file)].
(** Opening and closing tags match; [stack] are the names of the open elements. *)
Definition tag_name (tag : text) : text := head [::] (words tag).
Fixpoint nested_tags (stack : seq text) (ts : seq text) : bool :=
  match ts with
  | [::] => stack == [::]
  | t :: ts' =>
    if head " "%char t == "?"%char then nested_tags stack ts'
    else if head " "%char t == "/"%char then
      (if stack is x :: stack' then (behead t == x) && nested_tags stack' ts' else false)
    else nested_tags (tag_name t :: stack) ts'
  end.
Definition nested (file : text) : bool := nested_tags [::] [seq tc.1 | tc <- tags file].

(** Text with double quotes, written with single quotes. *)
Definition q_ (s : string) : text :=
  [seq if c == "'"%char then Ascii.ascii_of_nat 34 else c | c <- t_ s].
(** The tags that start with [p]. *)
Definition find_tags (file : text) (p : text) : seq (text * text) :=
  [seq tc | tc <- tags file & take (size p) tc.1 == p].
(** There is exactly one tag that starts with [p], this is [tag], and the words after it are [ws]. *)
Definition data_array (file p tag : text) (ws : seq text) : Prop :=
  exists2 content, find_tags file p = [:: (tag, content)] & words content = ws.

Definition points_tag := q_ "DataArray type='Float32' NumberOfComponents='3' format='ascii'".
Definition connectivity_tag := q_ "DataArray type='Int32' Name='connectivity' format='ascii'".
Definition offsets_tag := q_ "DataArray type='Int32' Name='offsets' format='ascii'".
Definition types_tag := q_ "DataArray type='UInt8' Name='types' format='ascii'".
Definition piece_tag (np nc : nat) : text :=
  q_ "Piece NumberOfPoints='" ++ decimal np ++ q_ "' NumberOfCells= '" ++ decimal nc ++ q_ "'".
Definition index_tag := q_ "DataArray type='Int32' Name='index' NumberOfComponents='1' format='ascii'".
Definition values_tag (comps : nat) : text :=
  q_ "DataArray type='Float32' Name='values' NumberOfComponents='" ++ decimal comps ++ q_ "' format='ascii'".

(** A cell: its VTK type and the numbers of its points. *)
Definition cell := (nat * seq nat)%type.
(** The file describes the grid with these points (three words each) and these cells. *)
Record vtu_grid (file : text) (pts : seq (seq text)) (cells : seq cell) : Prop := VtuGrid {
  vg_nested : nested file;
  vg_piece : data_array file (t_ "Piece") (piece_tag (size pts) (size cells)) [::];
  vg_points : data_array file points_tag points_tag (flatten pts) /\ all (fun p => size p == 3) pts;
  vg_connectivity : data_array file connectivity_tag connectivity_tag [seq decimal v | c <- cells, v <- c.2];
  vg_offsets : data_array file offsets_tag offsets_tag
    [seq decimal v | v <- scanl addn 0 [seq size c.2 | c : cell <- cells]];
  vg_types : data_array file types_tag types_tag [seq decimal c.1 | c : cell <- cells] }.
(** The point data: tuples of [comps] words. *)
Definition vtu_values (file : text) (comps : nat) (ws : seq text) : Prop :=
  data_array file (q_ "DataArray type='Float32' Name='values'") (values_tag comps) ws.
(** The numbers given to the cells. *)
Definition vtu_numbers (file : text) (ws : seq text) : Prop := data_array file index_tag index_tag ws.

(** VTK_VERTEX, VTK_LINE, VTK_PIXEL, VTK_VOXEL: dimension 0 to 3. *)
Definition vtk_type (dim : nat) : nat := nth 0 [:: 1; 3; 8; 11] dim.
(** Cell number [c] of the subdivision of a cube of dimension [d] with [n] points in every direction: digit k of c
    (base n - 1) is the position in direction k; corner v of the cell is moved by the bits of v; point number p has
    the base n digits of p as positions. *)
Definition digit_of (base x k : nat) : nat := x %/ base ^ k %% base.
Definition grid_corner (n d c v : nat) : nat :=
  compose n [seq digit_of n.-1 c k + digit_of 2 v k | k <- iota 0 d].
Definition grid_cell (n d offset c : nat) : cell :=
  (vtk_type d, [seq offset + grid_corner n d c v | v <- iota 0 (2 ^ d)]).
(** The cells of [m] cubes of dimension [d] one after the other, starting with point number [offset]. *)
Definition grid_cells (n d m offset : nat) : seq cell :=
  [seq grid_cell n d (offset + i * n ^ d) c | i <- iota 0 m, c <- iota 0 (n.-1 ^ d)].

(** What is required of written floating point numbers: they are words and contain no angle bracket. *)
Record float_word (F : Type) (show : F -> text) : Prop := FloatWord {
  fw_nonempty : forall x, show x != [::];
  fw_word : forall x, solid (show x);
  fw_bracket : forall x, "<"%char \notin show x }.

(** ** What the plot functions are meant to write *)
Definition is_ok (A : Type) (x : outcome A) : bool := if x is Ok _ then true else false.
Definition oval (A : Type) (x0 : A) (x : outcome A) : A := if x is Ok a then a else x0.
Section Plot.
Variables (F : realFieldType) (E : Type) (edges : seq (seq nat * E)).
(** [d] = dimension of the hyperedges, n_sub = number of subintervals, [n] = number of points in each direction. *)
Variables (d space_dim n_sub : nat).
Variable show : F -> text.
Variable lexicographic : E -> nat -> seq F -> outcome (seq F).
Variable boundary_lexicographic : E -> nat -> nat -> F -> seq F -> outcome (seq F).
Variable o : plot_options F.
Local Notation n := n_sub.+1.
Local Notation m := (size edges).
Local Notation mb := (m * (2 * d)).

(** The numbers of points and of point numbers in cells. *)
Definition n_pts : nat :=
  (if plot_edges o then m * n ^ d else 0) + (if plot_edge_boundaries o then mb * n ^ d.-1 else 0).
Definition n_conn : nat :=
  (if plot_edges o then m * n_sub ^ d * 2 ^ d else 0) +
  (if plot_edge_boundaries o then mb * n_sub ^ d.-1 * 2 ^ d.-1 else 0).
(** The cells of all hyperedges, then the cells of all their boundaries. *)
Definition plot_cells : seq cell :=
  (if plot_edges o then grid_cells n d m 0 else [::]) ++
  (if plot_edge_boundaries o then grid_cells n d.-1 mb (if plot_edges o then m * n ^ d else 0) else [::]).
(** The points of all hyperedges, then the points of all their boundaries. *)
Definition point_words (p : seq F) : seq text :=
  [seq show (nth 0%R p k) | k <- iota 0 space_dim] ++ nseq (3 - space_dim) (t_ "0.0").
Definition edge_points (sub : seq F) (e : seq nat * E) : seq (outcome (seq F)) :=
  [seq lexicographic e.2 p sub | p <- iota 0 (n ^ d)].
Definition boundary_points (bsub : seq F) (e : seq nat * E) : seq (outcome (seq F)) :=
  [seq boundary_lexicographic e.2 p b (boundary_scale o) bsub | b <- iota 0 (2 * d), p <- iota 0 (n ^ d.-1)].
Definition plot_points (sub bsub : seq F) : seq (outcome (seq F)) :=
  (if plot_edges o then flatten [seq edge_points sub e | e <- edges] else [::]) ++
  (if plot_edge_boundaries o then flatten [seq boundary_points bsub e | e <- edges] else [::]).

(** The values: the degrees of freedom of the hypernodes of a hyperedge; the tuple of values at a corner, filled with 0;
    the values at the corners of a hyperedge. *)
Variables (n_dofs system_dim node_system_dim : nat).
Variable bulk_values : E -> seq F -> seq (seq F) -> outcome (seq (seq F)).
Variable lambda : seq F.
Definition local_dofs (hyNodes : seq nat) : seq (seq F) :=
  [seq [seq nth 0%R lambda (node * n_dofs + k) | k <- iota 0 n_dofs] | node <- hyNodes].
Definition corner_words (values : seq (seq F)) (corner : nat) : seq text :=
  [seq show (nth 0%R (nth [::] values k) corner) | k <- iota 0 system_dim] ++
  nseq (node_system_dim - system_dim) (t_ "0").
Definition edge_words (abscissas : seq F) (e : seq nat * E) : seq text :=
  [seq w | corner <- iota 0 (2 ^ d), w <- corner_words (oval [::] (bulk_values e.2 abscissas (local_dofs e.1))) corner].
(** What is written for a boundary: zeros. *)
Definition boundary_words : seq text :=
  nseq (2 ^ d.-1 * node_system_dim) (show 0%R) ++ nseq (system_dim - node_system_dim) (t_ "0").
Definition plot_values : seq text :=
  (if plot_edges o then flatten [seq edge_words (abscissas_of n_sub o) e | e <- edges] else [::]) ++
  (if plot_edge_boundaries o then flatten (nseq mb boundary_words) else [::]).
(** The numbers of the cells. *)
Definition cell_numbers : seq text :=
  (if plot_edges o then [seq decimal he | he <- iota 0 m, _ <- iota 0 (n_sub ^ d)] else [::]) ++
  (if plot_edge_boundaries o then [seq decimal b | b <- iota 1 mb, _ <- iota 0 (n_sub ^ d)] else [::]).
End Plot.
