(** C48-C51, C69, C70: plot files and plot options. *)
From Coq Require Import Ascii String.
From mathcomp Require Import all_ssreflect all_algebra zify.
From Verif Require Import M_Base M_Index S_Index M_Text M_Plot S_Plot S_PlotOptions M_Geometry
  L_PlotMain L_PlotArrays L_PlotTop L_PlotOptions L_PlotProps L_PlotProps2.
Set Implicit Arguments. Unset Strict Implicit. Unset Printing Implicit Defensive.

Section Files.
(** A hypergraph: the hypernodes of every hyperedge and what geometry and local solver know about it. *)
Variables (F : realFieldType) (W : nat) (asserts : bool).
Variables (E : Type) (edges : seq (seq nat * E)).
Variables (d space_dim n_sub : nat).
Variable show : F -> text.
Variable lexicographic : E -> nat -> seq F -> outcome (seq F).
Variable boundary_lexicographic : E -> nat -> nat -> F -> seq F -> outcome (seq F).
Variable o : plot_options F.
Variables (n_dofs system_dim node_system_dim : nat).
Variable bulk_values : E -> seq F -> seq (seq F) -> outcome (seq (seq F)).
Variable lambda : seq F.
Local Notation n := n_sub.+1.
Local Notation m := (size edges).
Hypothesis d_range : 0 < d <= 3.
Hypothesis space3 : space_dim <= 3.
Hypothesis show_word : float_word show.
Hypothesis pow_W : n ^ d < W.
Hypothesis pts_W : n_pts edges d n_sub o < W.
Hypothesis conn_W : n_conn edges d n_sub o < W.
Hypothesis no_vertex_cells : plot_edge_boundaries o -> d = 1 -> n_sub = 1.
Hypothesis nodes_size : all (fun e : seq nat * E => size e.1 == 2 * d) edges.
Local Notation plot := (plot W asserts edges d space_dim n_sub show lexicographic boundary_lexicographic
  n_dofs system_dim node_system_dim bulk_values).
Local Notation points := (plot_points edges d n_sub lexicographic boundary_lexicographic o
  (abscissas_of n_sub o) (boundary_abscissas_of n_sub o)).
Local Notation cells := (plot_cells edges d n_sub o).

(** A plot writes a file that describes a grid with these points and cells (counts, connectivity, offsets and types
    agree); every cell refers to points of the file; the last offset is the length of the connectivity. *)
Theorem C48_file_describes_grid_partial o' name file : plot o lambda = Ok (o', (name, file)) ->
  [/\ all (@is_ok _) points,
      vtu_grid file [seq point_words space_dim show (oval [::] p) | p <- points] cells,
      forall c v, c \in cells -> v \in c.2 -> v < size points
    & last 0 (scanl addn 0 [seq size c.2 | c : cell <- cells]) = size [seq v | c <- cells, v <- c.2]].
Proof.
exact: (plot_grid d_range space3 show_word pow_W pts_W conn_W no_vertex_cells nodes_size).
Qed.
(** The plot succeeds if the geometry delivers the points and the local solver the values. *)
Theorem C48_plot_succeeds : fileName o != [::] -> outputDir o != [::] -> all (@is_ok _) points ->
  (system_dim != 0 ->
   [/\ all (fun e : seq nat * E => all (fun node => node * n_dofs + n_dofs <= size lambda) e.1) edges,
       plot_edges o -> all (fun e : seq nat * E =>
         is_ok (bulk_values e.2 (abscissas_of n_sub o) (local_dofs n_dofs lambda e.1))) edges
     & plot_edge_boundaries o -> asserts -> d = 1 \/ node_system_dim <= n ^ d.-1]) ->
  exists r, plot o lambda = Ok r.
Proof. move=> h1 h2 h3 h4; exact: (plot_succeeds space_dim show d_range pow_W pts_W conn_W no_vertex_cells nodes_size h1 h2 h3 h4). Qed.

(** Cell number (i, cs) of the file, i = hyperedge, cs = position in the subdivision: its type and its corners.  Corner
    v is the point of hyperedge i whose position in direction k is cs_k plus bit k of v. *)
Theorem C49_edge_cells (e0 : seq nat * E) i cs v :
  plot_edges o -> i < m -> size cs = d -> all (fun x => x < n_sub) cs -> v < 2 ^ d ->
  let c := nth (0, [::]) cells (i * n_sub ^ d + compose n_sub cs) in
  [/\ c.1 = vtk_type d, size c.2 = 2 ^ d
    & nth UB points (nth 0 c.2 v) = lexicographic (nth e0 edges i).2
        (compose n [seq nth 0 cs k + digit_of 2 v k | k <- iota 0 d]) (abscissas_of n_sub o)].
Proof. exact: edge_cell. Qed.
Theorem C49_boundary_cells (e0 : seq nat * E) i b cs v :
  plot_edge_boundaries o -> i < m -> b < 2 * d -> size cs = d.-1 -> all (fun x => x < n_sub) cs -> v < 2 ^ d.-1 ->
  let first := if plot_edges o then m * n_sub ^ d else 0 in
  let c := nth (0, [::]) cells (first + (i * (2 * d) + b) * n_sub ^ d.-1 + compose n_sub cs) in
  [/\ c.1 = vtk_type d.-1, size c.2 = 2 ^ d.-1
    & nth UB points (nth 0 c.2 v) = boundary_lexicographic (nth e0 edges i).2
        (compose n [seq nth 0 cs k + digit_of 2 v k | k <- iota 0 d.-1]) b (boundary_scale o) (boundary_abscissas_of n_sub o)].
Proof. exact: boundary_cell. Qed.
(** These are all cells, each once. *)
Theorem C49_number_of_cells : size cells =
  (if plot_edges o then m * n_sub ^ d else 0) + (if plot_edge_boundaries o then m * (2 * d) * n_sub ^ d.-1 else 0).
Proof. exact: size_plot_cells. Qed.
Theorem C49_every_cell dim m' c : c < m' * n_sub ^ dim ->
  exists i cs, [/\ i < m', size cs = dim, all (fun x => x < n_sub) cs & c = i * n_sub ^ dim + compose n_sub cs].
Proof. exact: (@grid_cells_nth n). Qed.
Theorem C49_once dim i j cs cs' : size cs = dim -> size cs' = dim -> all (fun x => x < n_sub) cs ->
  all (fun x => x < n_sub) cs' -> i * n_sub ^ dim + compose n_sub cs = j * n_sub ^ dim + compose n_sub cs' ->
  i = j /\ cs = cs'.
Proof. exact: cell_number_inj. Qed.

(** Without subdivision, and except for boundaries with fewer components than the solution: one tuple of values per
    point; the tuple of corner v of hyperedge i consists of the values the local solver computes there from the degrees
    of freedom of its hypernodes. *)
Theorem C50_values_partial o' name file : system_dim != 0 -> n_sub = 1 ->
  (plot_edge_boundaries o -> d = 1 \/ system_dim <= node_system_dim) -> plot o lambda = Ok (o', (name, file)) ->
  exists ws, [/\ vtu_values file (maxn system_dim node_system_dim) ws,
    size ws = size points * maxn system_dim node_system_dim
  & forall e0 i v, plot_edges o -> i < m -> v < 2 ^ d ->
    take (maxn system_dim node_system_dim) (drop ((i * 2 ^ d + v) * maxn system_dim node_system_dim) ws) =
    corner_words show system_dim node_system_dim (oval [::]
      (bulk_values (nth e0 edges i).2 (abscissas_of n_sub o) (local_dofs n_dofs lambda (nth e0 edges i).1))) v].
Proof.
exact: (plot_has_values d_range space3 show_word pow_W pts_W conn_W no_vertex_cells nodes_size).
Qed.
Theorem C50_no_values o' name file : system_dim = 0 -> plot o lambda = Ok (o', (name, file)) ->
  find_tags file (q_ "DataArray type='Float32' Name='values'") = [::].
Proof. exact: (plot_no_values d_range space3 show_word pow_W pts_W conn_W no_vertex_cells nodes_size). Qed.
(** Numbers of the cells, if asked for: one per cell; hyperedges from 0, boundaries from 1. *)
Theorem C50_cell_numbers_partial o' name file : numbers o -> n_sub = 1 \/ ~~ plot_edge_boundaries o ->
  plot o lambda = Ok (o', (name, file)) ->
  vtu_numbers file (cell_numbers edges d n_sub o) /\ size (cell_numbers edges d n_sub o) = size cells.
Proof. exact: (plot_has_numbers d_range space3 show_word pow_W pts_W conn_W no_vertex_cells nodes_size). Qed.
End Files.
Print Assumptions C48_file_describes_grid_partial.
Print Assumptions C48_plot_succeeds.
Print Assumptions C49_edge_cells.
Print Assumptions C49_boundary_cells.
Print Assumptions C49_number_of_cells.
Print Assumptions C49_every_cell.
Print Assumptions C49_once.
Print Assumptions C50_values_partial.
Print Assumptions C50_no_values.
Print Assumptions C50_cell_numbers_partial.

(** The hypotheses hold for two hyperedges of dimension 2 with a common hypernode, with boundaries and numbers. *)
Definition ex_show (x : [realFieldType of rat]) : text := if x == 0%R then t_ "0.000e+00" else t_ "1.000e+00".
Definition ex_edges : seq (seq nat * nat) := [:: ([:: 0; 1; 2; 3], 0); ([:: 1; 4; 5; 6], 1)].
Definition ex_options : plot_options [realFieldType of rat] :=
  PlotOptions (t_ "output") (t_ "example") 7 true true true true 1 1%R 1%R true.
Example C48_show_word : float_word ex_show.
Proof. by split=> x; rewrite /ex_show; case: ifP => _; vm_compute. Qed.
Example C48_hypotheses :
  (2 ^ 2 < 100) && (n_pts ex_edges 2 1 ex_options < 100) && (n_conn ex_edges 2 1 ex_options < 100) &&
  all (fun e : seq nat * nat => size e.1 == 4) ex_edges &&
  is_ok (plot 100 true ex_edges 2 3 1 ex_show (fun e p _ => Ok [:: e%:R; p%:R; 0])%R (fun e p b _ _ => Ok [:: e%:R; p%:R; b%:R])%R
    1 1 1 (fun _ _ dofs => Ok [:: nth [::] dofs 0 ++ nth [::] dofs 1 ++ nth [::] dofs 2 ++ nth [::] dofs 3])
    ex_options (nseq 7 0%R)).
Proof. by vm_compute. Qed.

(** With boundaries of dimension 0 and two subintervals the connectivity refers to point number 5 of a file with 5 points. *)
Theorem C48_vertex_cells_refuted : exists file,
  vtu_text 100 true [:: ([:: 0; 1], tt)] 1 1 2 (fun _ : [realFieldType of rat] => t_ "0.000e+00") (fun _ _ _ => Ok [:: 0%R])
    (fun _ _ _ _ _ => Ok [:: 0%R]) 1 0 0 (fun _ _ _ => Ok [::]) (set_plotEdgeBoundaries true (default_options _)) [::] = Ok file /\
  [seq tc.1 | tc <- find_tags file (t_ "Piece")] = [:: piece_tag 5 4] /\
  exists content, find_tags file connectivity_tag = [:: (connectivity_tag, content)] /\ decimal 5 \in words content.
Proof. exact: bad_connectivity. Qed.
Print Assumptions C48_vertex_cells_refuted.
(** Two subintervals: three points, but two values.  Boundaries of dimension 1, solution with two components and skeleton
    with one: twelve points, 20 values instead of 24. *)
Theorem C50_subdivision_refuted : exists file content, [/\ one_edge 1 2 1 1 (default_options _) = Ok file,
  [seq tc.1 | tc <- find_tags file (t_ "Piece")] = [:: piece_tag 3 2],
  find_tags file (q_ "DataArray type='Float32' Name='values'") = [:: (values_tag 1, content)] & size (words content) = 2].
Proof. exact: few_values_subdivision. Qed.
Print Assumptions C50_subdivision_refuted.
Theorem C50_boundary_refuted : exists file content,
  [/\ one_edge 2 1 2 1 (set_plotEdgeBoundaries true (default_options _)) = Ok file,
  [seq tc.1 | tc <- find_tags file (t_ "Piece")] = [:: piece_tag 12 5],
  find_tags file (q_ "DataArray type='Float32' Name='values'") = [:: (values_tag 2, content)] & size (words content) = 20].
Proof. exact: few_values_boundary. Qed.
Print Assumptions C50_boundary_refuted.

(** ** Geometry::File *)
Section File.
Variables (F : realFieldType) (edges : seq (seq nat * linear F)) (d n_sub : nat) (o : plot_options F).
Local Notation n := n_sub.+1.
(** Corner v of cell cs lies at the image of the point whose coordinate k is (cs_k + bit k of v) / n_sub, scaled
    about 1/2. *)
Theorem C49_corner_position (T : linear F) cs v : l_d T = d -> size cs = d -> all (fun x => x < n_sub) cs ->
  gf_lexicographic T n (compose n [seq nth 0 cs k + digit_of 2 v k | k <- iota 0 d]) (abscissas_of n_sub o) =
  Ok (linear_map T 1 [seq scale o * ((nth 0 cs k + digit_of 2 v k)%N%:R / n_sub%:R - 2%:R^-1) + 2%:R^-1 | k <- iota 0%N d])%R.
Proof. exact: file_corner. Qed.
(** Plotting the boundaries of the hyperedges: for every boundary except the first, every point number used by plot makes the
    geometry convert a negative number to unsigned int; hence no file is written without undefined behaviour. *)
Theorem C70_boundary_points_refuted (T : linear F) pt b s sub : l_d T = d -> pt < n ^ d.-1 -> 0 < b < 2 * d ->
  gf_boundary_lexicographic T n pt b s sub = UB.
Proof. exact: file_boundary_undefined. Qed.
Theorem C70_boundary_plot_refuted sub bsub : 0 < d -> 0 < size edges -> all (fun e => l_d e.2 == d) edges ->
  plot_edge_boundaries o ->
  ~~ all (@is_ok _) (plot_points edges d n_sub (fun T pt sub => gf_lexicographic T n pt sub)
    (fun T pt b s sub => gf_boundary_lexicographic T n pt b s sub) o sub bsub).
Proof. exact: boundaries_not_ok. Qed.
End File.
Print Assumptions C49_corner_position.
Print Assumptions C70_boundary_points_refuted.
Print Assumptions C70_boundary_plot_refuted.

(** ** Options *)
Section Options.
Variables (F : realFieldType) (W : nat) (asserts : bool).
Variables (parse_float : text -> outcome F) (show_float : F -> text).
Implicit Types o : plot_options F.
Local Notation set_plot_option := (set_plot_option W asserts parse_float show_float).
(** A text that means [v] is stored and the value shown; nothing else changes. *)
Theorem C51_set_partial o name s v : name \in option_names -> s != [::] -> means W parse_float name s v ->
  exists o', set_plot_option o name s = Ok (o', shown show_float v) /\
             forall x, field o' x = if x == name then v else field o x.
Proof. exact: option_set. Qed.
(** The empty text asks for the value. *)
Theorem C51_get o name : name \in option_names ->
  set_plot_option o name [::] = Ok (o, shown show_float (field o name)).
Proof. exact: option_get. Qed.
(** Any sequence of such calls: every option has the last value given to it, every call returns the value at that time. *)
Theorem C51_calls o (cs : seq (text * text * opt_value F)) : all_mean W parse_float cs -> exists o',
  calls W parse_float show_float asserts o [seq c.1 | c <- cs] =
    Ok (o', [seq shown show_float (last_value (field o (nth [::] [seq c.1.1 | c <- cs] i))
                                     (nth [::] [seq c.1.1 | c <- cs] i) (take i.+1 cs)) | i <- iota 0 (size cs)]) /\
  forall x, field o' x = last_value (field o x) x cs.
Proof. exact: calls_last. Qed.
(** The file ending cannot be read back. *)
Theorem C51_file_ending_refuted o : exists t, set_plot_option o (t_ "fileEnding") (t_ "vtu") = Ok (o, t) /\ t <> t_ "vtu".
Proof. by eexists; split; first reflexivity. Qed.
End Options.
Print Assumptions C51_set_partial.
Print Assumptions C51_get.
Print Assumptions C51_calls.
Print Assumptions C51_file_ending_refuted.
Example C51_means : means 100 (fun _ => Ok (0 : rat)%R) (t_ "plotEdges") (t_ "true") (VBool _ true) /\
  means 100 (fun _ => Ok (0 : rat)%R) (t_ "fileNumber") (t_ "42") (VNat _ 42) /\
  means 100 (fun _ => Ok (0 : rat)%R) (t_ "scale") (t_ "0.9") (VReal (0%R : [realFieldType of rat])).
Proof. split; first exact: means_bool. split; [exact: means_nat | exact: means_real]. Qed.

Section Plots.
Variables (F : realFieldType) (W : nat) (asserts : bool).
Variables (E : Type) (edges : seq (seq nat * E)).
Variables (d space_dim n_sub : nat).
Variable show : F -> text.
Variable lexicographic : E -> nat -> seq F -> outcome (seq F).
Variable boundary_lexicographic : E -> nat -> nat -> F -> seq F -> outcome (seq F).
Variables (n_dofs system_dim node_system_dim : nat).
Variable bulk_values : E -> seq F -> seq (seq F) -> outcome (seq (seq F)).
Local Notation plot := (plot W asserts edges d space_dim n_sub show lexicographic boundary_lexicographic
  n_dofs system_dim node_system_dim bulk_values).
Implicit Types o : plot_options F.
(** plot changes nothing but the file number, and that only if asked to. *)
Theorem C51_plot o lambda o' name file : plot o lambda = Ok (o', (name, file)) ->
  forall x, field o' x = if (x == t_ "fileNumber") && incrementFileNumber o then VNat _ ((fileNumber o).+1 %% W) else field o x.
Proof. exact: plot_fields. Qed.
(** The name of the file. *)
Theorem C69_name o lambda o' name file : plot o lambda = Ok (o', (name, file)) ->
  name = outputDir o ++ t_ "/" ++ fileName o ++
         (if printFileNumber o then t_ "." ++ decimal (fileNumber o) else [::]) ++ t_ ".vtu".
Proof. exact: plot_name. Qed.
(** Successive plots write to different files, if the number is part of the name and incremented: up to 2^32 plots. *)
Theorem C69_distinct_files o ls o' fs : fileNumber o < W -> incrementFileNumber o -> printFileNumber o -> size ls <= W ->
  plots plot o ls = Ok (o', fs) -> uniq [seq f.1 | f <- fs].
Proof. exact: plot_names_uniq. Qed.
End Plots.
Print Assumptions C51_plot.
Print Assumptions C69_name.
Print Assumptions C69_distinct_files.
Example C69_two_plots : is_ok (plots (plot 100 true ex_edges 2 3 1 ex_show (fun e p _ => Ok [:: e%:R; p%:R; 0])%R
    (fun e p b _ _ => Ok [:: e%:R; p%:R; b%:R])%R 1 0 1 (fun _ _ dofs => Ok dofs)) ex_options [:: nseq 7 0%R; nseq 7 1%R]).
Proof. by vm_compute. Qed.
