(** Model of include/HyperHDG/plot.hxx.  A file is its text.  Simplifications: floating point numbers are elements
    of a real field; std::ostream << of a floating point number (scientific, 3 digits: the format set in 407 stays in force)
    is a parameter [show]; std::stof and std::to_string of a float are parameters [parse_float] and [show_float]; the
    directory is not created and the message on std::cout is left out; time is part of the payload of the
    hyperedges.  [W] is 2^32: unsigned int arithmetic is modulo W; int is 32 bit.  A loop with <= and bound
    W - 1 would not end; here it does. *)
From Coq Require Import Ascii String.
From mathcomp Require Import all_ssreflect all_algebra.
From Verif Require Import M_Base M_Index M_Text M_ReadDomain.
Set Implicit Arguments. Unset Strict Implicit. Unset Printing Implicit Defensive.

(** [for (i = 0; i < n; ++i) output << f(i)]. *)
Definition out_loop (n : nat) (f : nat -> text) : text := for_ n (fun i s => s ++ f i) [::].
Definition outo_loop (n : nat) (f : nat -> outcome text) : outcome text :=
  foro n (fun i s => omap (cat s) (f i)) [::].

Section Plot.
Variables (F : realFieldType) (W : nat) (asserts : bool).
Local Notation assert := (hassert asserts).
Local Notation u x := (x %% W).

(** 24-115 PlotOptions; the enum fileType has the single value vtu. *)
Record plot_options := PlotOptions {
  outputDir : text; fileName : text; fileNumber : nat; printFileNumber : bool; incrementFileNumber : bool;
  plot_edge_boundaries : bool; plot_edges : bool; n_subintervals : nat; scale : F; boundary_scale : F;
  numbers : bool }.
Definition default_options : plot_options :=
  PlotOptions (t_ "output") (t_ "example") 0 true true false true 1 1%R 1%R false.

(** ** Options *)
Variables (parse_float : text -> outcome F) (show_float : F -> text).
(** std::stoi: space, a sign, digits; what follows is ignored.  The result is the sign and the absolute value. *)
Definition stoi (s : text) : outcome (bool * nat) :=
  let s := skip_space s in
  let neg := head " "%char s == "-"%char in
  let: (d, _) := unsigned_of s in
  if d is [::] then Throw else
  let v := digits_val d in
  if (if neg then v <= W %/ 2 else v < W %/ 2) then Ok (neg, v) else Throw.
(** Conversion of an int to unsigned int. *)
Definition to_unsigned (z : bool * nat) : nat := if z.1 then u (W - z.2) else z.2.
Definition to_bool (value : text) : bool := (value == t_ "true") || (value == t_ "1").
Definition show_bool (b : bool) : text := if b then t_ "1" else t_ "0".

Definition set_outputDir (v : text) (o : plot_options) := PlotOptions v (fileName o) (fileNumber o)
  (printFileNumber o) (incrementFileNumber o) (plot_edge_boundaries o) (plot_edges o) (n_subintervals o)
  (scale o) (boundary_scale o) (numbers o).
Definition set_fileName (v : text) (o : plot_options) := PlotOptions (outputDir o) v (fileNumber o)
  (printFileNumber o) (incrementFileNumber o) (plot_edge_boundaries o) (plot_edges o) (n_subintervals o)
  (scale o) (boundary_scale o) (numbers o).
Definition set_fileNumber (v : nat) (o : plot_options) := PlotOptions (outputDir o) (fileName o) v
  (printFileNumber o) (incrementFileNumber o) (plot_edge_boundaries o) (plot_edges o) (n_subintervals o)
  (scale o) (boundary_scale o) (numbers o).
Definition set_printFileNumber (v : bool) (o : plot_options) := PlotOptions (outputDir o) (fileName o)
  (fileNumber o) v (incrementFileNumber o) (plot_edge_boundaries o) (plot_edges o) (n_subintervals o)
  (scale o) (boundary_scale o) (numbers o).
Definition set_incrementFileNumber (v : bool) (o : plot_options) := PlotOptions (outputDir o) (fileName o)
  (fileNumber o) (printFileNumber o) v (plot_edge_boundaries o) (plot_edges o) (n_subintervals o)
  (scale o) (boundary_scale o) (numbers o).
Definition set_plotEdges (v : bool) (o : plot_options) := PlotOptions (outputDir o) (fileName o)
  (fileNumber o) (printFileNumber o) (incrementFileNumber o) (plot_edge_boundaries o) v (n_subintervals o)
  (scale o) (boundary_scale o) (numbers o).
Definition set_plotEdgeBoundaries (v : bool) (o : plot_options) := PlotOptions (outputDir o) (fileName o)
  (fileNumber o) (printFileNumber o) (incrementFileNumber o) v (plot_edges o) (n_subintervals o)
  (scale o) (boundary_scale o) (numbers o).
Definition set_scale (v : F) (o : plot_options) := PlotOptions (outputDir o) (fileName o)
  (fileNumber o) (printFileNumber o) (incrementFileNumber o) (plot_edge_boundaries o) (plot_edges o)
  (n_subintervals o) v (boundary_scale o) (numbers o).
Definition set_boundaryScale (v : F) (o : plot_options) := PlotOptions (outputDir o) (fileName o)
  (fileNumber o) (printFileNumber o) (incrementFileNumber o) (plot_edge_boundaries o) (plot_edges o)
  (n_subintervals o) (scale o) v (numbers o).

(** 126-155: the assignment. *)
Definition assign_option (o : plot_options) (option value : text) : outcome plot_options :=
  if value == [::] then Ok o
  else if option == t_ "outputDir" then Ok (set_outputDir value o)
  else if option == t_ "fileName" then Ok (set_fileName value o)
  else if option == t_ "fileEnding" then
    (if value == t_ "vtu" then Ok o else assert false (Ok o))
  else if option == t_ "fileNumber" then omap (fun z => set_fileNumber (to_unsigned z) o) (stoi value)
  else if option == t_ "printFileNumber" then Ok (set_printFileNumber (to_bool value) o)
  else if option == t_ "incrementFileNumber" then Ok (set_incrementFileNumber (to_bool value) o)
  else if option == t_ "plotEdges" then Ok (set_plotEdges (to_bool value) o)
  else if option == t_ "plotEdgeBoundaries" then Ok (set_plotEdgeBoundaries (to_bool value) o)
  else if option == t_ "boundaryScale" then omap (fun x => set_boundaryScale x o) (parse_float value)
  else if option == t_ "scale" then omap (fun x => set_scale x o) (parse_float value)
  else assert false (Ok o).
(** 157-184: the value returned; in 163 the enum value 0 is assigned to the string as a character. *)
Definition option_text (o : plot_options) (option : text) : outcome text :=
  if option == t_ "outputDir" then Ok (outputDir o)
  else if option == t_ "fileName" then Ok (fileName o)
  else if option == t_ "fileEnding" then Ok [:: Ascii.ascii_of_nat 0]
  else if option == t_ "fileNumber" then Ok (decimal (fileNumber o))
  else if option == t_ "printFileNumber" then Ok (show_bool (printFileNumber o))
  else if option == t_ "incrementFileNumber" then Ok (show_bool (incrementFileNumber o))
  else if option == t_ "plotEdges" then Ok (show_bool (plot_edges o))
  else if option == t_ "plotEdgeBoundaries" then Ok (show_bool (plot_edge_boundaries o))
  else if option == t_ "scale" then Ok (show_float (scale o))
  else if option == t_ "boundaryScale" then Ok (show_float (boundary_scale o))
  else assert false (Ok [::]).
(** 122-185 set_plot_option. *)
Definition set_plot_option (o : plot_options) (option value : text) : outcome (plot_options * text) :=
  obind (assign_option o option value) (fun o => omap (pair o) (option_text o option)).

(** 251-259 open_ofstream: the name of the file. *)
Definition file_name (o : plot_options) : text :=
  outputDir o ++ t_ "/" ++ fileName o ++
  (if printFileNumber o then t_ "." ++ decimal (fileNumber o) else [::]) ++ t_ "." ++ t_ "vtu".

(** ** Geometry *)
(** 292-318 vtu_sub_cube_connectivity. *)
Definition sub_cube_connectivity (dim n offset : nat) : text :=
  match dim with
  | 0 => out_loop n.-1 (fun i => decimal (u (offset + i)) ++ endl)
  | 1 => out_loop n.-1 (fun i => decimal (u (offset + i)) ++ t_ " " ++ decimal (u (offset + i + 1)) ++ endl)
  | 2 => out_loop n.-1 (fun i => out_loop n.-1 (fun j =>
           decimal (u (offset + i * n + j)) ++ t_ " " ++ decimal (u (offset + i * n + j + 1)) ++ t_ " " ++
           decimal (u (offset + i * n + j + n)) ++ t_ " " ++ decimal (u (offset + i * n + j + n + 1)) ++ endl))
  | 3 => let nn := n * n in
         out_loop n.-1 (fun i => out_loop n.-1 (fun j => out_loop n.-1 (fun k =>
           decimal (u (offset + (i * n + j) * n + k)) ++ t_ " " ++
           decimal (u (offset + (i * n + j) * n + k + 1)) ++ t_ " " ++
           decimal (u (offset + (i * n + j) * n + k + n)) ++ t_ " " ++
           decimal (u (offset + (i * n + j) * n + k + n + 1)) ++ t_ " " ++
           decimal (u (offset + (i * n + j) * n + k + nn)) ++ t_ " " ++
           decimal (u (offset + (i * n + j) * n + k + nn + 1)) ++ t_ " " ++
           decimal (u (offset + (i * n + j) * n + k + nn + n)) ++ t_ " " ++
           decimal (u (offset + (i * n + j) * n + k + nn + n + 1)) ++ endl)))
  | _ => [::]
  end.

(** A hyperedge: its hypernodes and what geometry and local solver know about it. *)
Variables (E : Type) (edges : seq (seq nat * E)).
Variables (edge_dim space_dim n_sub : nat).
Variable show : F -> text.
(** hyEdge_geometry(he).lexicographic<n>(pt, points) and boundary_lexicographic<n>(pt, boundary, scale, points). *)
Variable lexicographic : E -> nat -> seq F -> outcome (seq F).
Variable boundary_lexicographic : E -> nat -> nat -> F -> seq F -> outcome (seq F).
Local Notation n_edges := (size edges).
Local Notation n := n_sub.+1.
Local Notation payload i := (omap snd (load edges i)).

(** 350-376: the numbers of points and cells; [n] = n_subpoints. *)
Definition n_plot_edges : nat := u (n_edges * hc_pow_w W edge_dim (n - 1)).
Definition points_per_edge : nat := hc_pow_w W edge_dim n.
Definition n_edge_boundaries : nat := u (n_edges * (2 * edge_dim)).
Definition points_per_boundary : nat := hc_pow_w W edge_dim.-1 n.
Definition n_plot_boundaries : nat := u (n_edge_boundaries * hc_pow_w W edge_dim.-1 (n - 1)).
Definition n_plot_points (o : plot_options) : nat :=
  u ((if plot_edges o then u (points_per_edge * n_edges) else 0) +
     (if plot_edge_boundaries o then u (points_per_boundary * n_edge_boundaries) else 0)).
Definition n_plot_cells (o : plot_options) : nat :=
  u ((if plot_edges o then n_plot_edges else 0) + (if plot_edge_boundaries o then n_plot_boundaries else 0)).
(** 378-394. *)
Definition element_id : nat := match edge_dim with 1 => 3 | 2 => 8 | _ => 11 end.
Definition boundary_element_id : nat := match edge_dim with 1 => 1 | 2 => 3 | 3 => 8 | _ => 0 end.
(** 404-410, 421-440: one point. *)
Definition point_line (p : seq F) : text :=
  t_ "        " ++ out_loop space_dim (fun d => t_ "  " ++ show (nth 0%R p d)) ++
  out_loop (3 - space_dim) (fun _ => t_ "  0.0") ++ endl.
(** 391-442. *)
Definition points_text (o : plot_options) (sub bsub : seq F) : outcome text :=
  obind (if plot_edges o then outo_loop n_edges (fun he => obind (payload he) (fun e =>
           outo_loop points_per_edge (fun pt => omap point_line (lexicographic e pt sub)))) else Ok [::]) (fun a =>
  obind (if plot_edge_boundaries o then outo_loop n_edges (fun he => obind (payload he) (fun e =>
           outo_loop (2 * edge_dim) (fun b => outo_loop points_per_boundary (fun pt =>
             omap point_line (boundary_lexicographic e pt b (boundary_scale o) bsub))))) else Ok [::]) (fun b =>
  Ok (a ++ b))).
(** 450-462: the text and the final offset. *)
Definition connectivity_text (o : plot_options) : text * nat :=
  let: st := if plot_edges o then for_ n_edges (fun _ st =>
      (st.1 ++ sub_cube_connectivity edge_dim n st.2, u (st.2 + points_per_edge))) ([::], 0) else ([::], 0) in
  if plot_edge_boundaries o then for_ n_edge_boundaries (fun _ st =>
      (st.1 ++ sub_cube_connectivity edge_dim.-1 n st.2, u (st.2 + points_per_boundary))) st else st.
(** 469-484. *)
Definition offsets_text (o : plot_options) : text :=
  let start_number := if plot_edges o then u (n_vertices edge_dim * n_plot_edges) else 0 in
  t_ "        " ++
  (if plot_edges o then out_loop n_plot_edges (fun i => t_ "  " ++ decimal (u (n_vertices edge_dim * i.+1)))
   else [::]) ++
  (if plot_edge_boundaries o then out_loop n_plot_boundaries (fun i =>
     t_ "  " ++ decimal (u (n_vertices edge_dim.-1 * i.+1 + start_number))) else [::]) ++ endl.
(** 488-499. *)
Definition types_text (o : plot_options) : text :=
  t_ "        " ++
  (if plot_edges o then out_loop n_plot_edges (fun _ => t_ "  " ++ decimal element_id) else [::]) ++
  (if plot_edge_boundaries o then out_loop n_plot_boundaries (fun _ => t_ "  " ++ decimal boundary_element_id)
   else [::]) ++ endl.
Definition quote : text := [:: Ascii.ascii_of_nat 34].
(** 337-503 plot_vtu_unstructured_geometry. *)
Definition geometry_text (o : plot_options) (sub bsub : seq F) : outcome text :=
  let: (connectivity, offset) := connectivity_text o in
  omap (fun points =>
    t_ "    <Piece NumberOfPoints=" ++ quote ++ decimal (n_plot_points o) ++ quote ++ t_ " NumberOfCells= " ++ quote ++
    decimal (n_plot_cells o) ++ quote ++ t_ ">" ++ endl ++
    t_ "      <Points>" ++ endl ++
    t_ "        <DataArray type=" ++ quote ++ t_ "Float32" ++ quote ++ t_ " NumberOfComponents=" ++ quote ++ t_ "3" ++
    quote ++ t_ " format=" ++ quote ++ t_ "ascii" ++ quote ++ t_ ">" ++ endl ++
    points ++
    t_ "        </DataArray>" ++ endl ++ t_ "      </Points>" ++ endl ++ t_ "      <Cells>" ++ endl ++
    t_ "        <DataArray type=" ++ quote ++ t_ "Int32" ++ quote ++ t_ " Name=" ++ quote ++ t_ "connectivity" ++
    quote ++ t_ " format=" ++ quote ++ t_ "ascii" ++ quote ++ t_ ">" ++ endl ++
    connectivity ++
    t_ "        </DataArray>" ++ endl ++
    t_ "        <DataArray type=" ++ quote ++ t_ "Int32" ++ quote ++ t_ " Name=" ++ quote ++ t_ "offsets" ++
    quote ++ t_ " format=" ++ quote ++ t_ "ascii" ++ quote ++ t_ ">" ++ endl ++
    offsets_text o ++
    t_ "        </DataArray>" ++ endl ++
    t_ "        <DataArray type=" ++ quote ++ t_ "UInt8" ++ quote ++ t_ " Name=" ++ quote ++ t_ "types" ++
    quote ++ t_ " format=" ++ quote ++ t_ "ascii" ++ quote ++ t_ ">" ++ endl ++
    types_text o ++
    t_ "        </DataArray>" ++ endl ++ t_ "      </Cells>" ++ endl)
  (obind (points_text o sub bsub) (fun points => assert (offset == n_plot_points o) (Ok points))).

(** ** Values *)
(** [n_dofs] = n_dofs_per_node; bulk_values(abscissas, dofs, ...): one array per component. *)
Variables (n_dofs system_dim node_system_dim : nat).
Variable bulk_values : E -> seq F -> seq (seq F) -> outcome (seq (seq F)).
(** 510-523 get_edge_dof_values. *)
Definition edge_dof_values (hyNodes : seq nat) (lambda : seq F) : outcome (seq (seq F)) :=
  foro (2 * edge_dim) (fun k dofs => obind (get_dof_values n_dofs (nth 0 hyNodes k) lambda) (fun v =>
    Ok (upd dofs k v))) (nseq (2 * edge_dim) [::]).
(** 534-583 plot_edge_values. *)
Definition edge_values_text (lambda abscissas : seq F) : outcome text :=
  outo_loop n_edges (fun he => obind (load edges he) (fun e =>
  obind (edge_dof_values e.1 lambda) (fun dofs =>
  obind (bulk_values e.2 abscissas dofs) (fun local_values =>
  Ok (t_ "      " ++
      out_loop (n_vertices edge_dim) (fun corner =>
        t_ "  " ++
        out_loop system_dim (fun d => t_ "  " ++ show (nth 0%R (nth [::] local_values d) corner)) ++
        out_loop (node_system_dim - system_dim) (fun _ => t_ "  " ++ t_ "0")) ++ endl))))).
(** 643-685 plot_boundary_values; fancy_recursion (607-638) does nothing: the values stay 0. *)
Definition boundary_values_text (lambda abscissas : seq F) : outcome text :=
  outo_loop n_edges (fun he => obind (load edges he) (fun e =>
  obind (edge_dof_values e.1 lambda) (fun _ =>
  outo_loop (2 * edge_dim) (fun _ =>
  obind (foro node_system_dim (fun lval _ =>
           if asserts then omap (fun _ => tt) (tensorial_pt 0%R edge_dim.-1 lval abscissas) else Ok tt) tt) (fun _ =>
  Ok (t_ "      " ++
      out_loop (n_vertices edge_dim.-1) (fun _ =>
        t_ "  " ++ out_loop node_system_dim (fun _ => t_ "  " ++ show 0%R)) ++
      out_loop (system_dim - node_system_dim) (fun _ => t_ "  " ++ t_ "0") ++ endl)))))).
(** 730-748: the numbers of the cells. *)
Definition numbers_text (o : plot_options) : text :=
  (if plot_edges o then out_loop n_edges (fun he => out_loop (hc_pow_w W edge_dim n_sub) (fun _ =>
     t_ " " ++ decimal he)) else [::]) ++
  (if plot_edge_boundaries o then out_loop n_edge_boundaries (fun b => out_loop (hc_pow_w W edge_dim n_sub) (fun _ =>
     t_ "  " ++ decimal b.+1)) else [::]).
(** 708-715. *)
Definition abscissas_of (o : plot_options) : seq F :=
  mkseq (fun i => scale o * (i%:R / n_sub%:R - 2%:R^-1) + 2%:R^-1)%R n.
Definition boundary_abscissas_of (o : plot_options) : seq F :=
  mkseq (fun i => scale o * boundary_scale o * (i%:R / n_sub%:R - 2%:R^-1) + 2%:R^-1)%R n.
(** 690-777 plot_vtu: the text of the file. *)
Definition vtu_text (o : plot_options) (lambda : seq F) : outcome text :=
  obind (geometry_text o (abscissas_of o) (boundary_abscissas_of o)) (fun geometry =>
  obind (if system_dim == 0 then Ok [::] else
         obind (if plot_edges o then edge_values_text lambda (abscissas_of o) else Ok [::]) (fun a =>
         obind (if plot_edge_boundaries o then boundary_values_text lambda (boundary_abscissas_of o) else Ok [::]) (fun b =>
         Ok (t_ "        <DataArray type=" ++ quote ++ t_ "Float32" ++ quote ++ t_ " Name=" ++ quote ++ t_ "values" ++
             quote ++ t_ " NumberOfComponents=" ++ quote ++ decimal (maxn system_dim node_system_dim) ++ quote ++
             t_ " format=" ++ quote ++ t_ "ascii" ++ quote ++ t_ ">" ++ endl ++
             a ++ b ++ t_ "        </DataArray>" ++ endl)))) (fun values =>
  Ok (t_ "<?xml version=" ++ quote ++ t_ "1.0" ++ quote ++ t_ "?>" ++ endl ++
      t_ "<VTKFile type=" ++ quote ++ t_ "UnstructuredGrid" ++ quote ++ t_ " version=" ++ quote ++ t_ "0.1" ++ quote ++
      t_ " byte_order=" ++ quote ++ t_ "LittleEndian" ++ quote ++ t_ " " ++
      t_ "compressor=" ++ quote ++ t_ "vtkZLibDataCompressor" ++ quote ++ t_ ">" ++ endl ++
      t_ "  <UnstructuredGrid>" ++ endl ++
      geometry ++
      t_ "      <CellData>" ++ endl ++
      (if numbers o then
         t_ "        <DataArray type=" ++ quote ++ t_ "Int32" ++ quote ++ t_ " Name=" ++ quote ++ t_ "index" ++ quote ++
         t_ " NumberOfComponents=" ++ quote ++ t_ "1" ++ quote ++ t_ " " ++
         t_ "format=" ++ quote ++ t_ "ascii" ++ quote ++ t_ ">" ++ endl ++
         numbers_text o ++ t_ "        </DataArray>"
       else [::]) ++
      t_ "      </CellData>" ++ endl ++
      t_ "      <PointData>" ++ endl ++
      values ++
      t_ "      </PointData>" ++ endl ++ t_ "    </Piece>" ++ endl ++ t_ "  </UnstructuredGrid>" ++ endl ++
      t_ "</VTKFile>" ++ endl))).
(** 783-797 plot: the options afterwards, the name and the text of the file written. *)
Definition plot (o : plot_options) (lambda : seq F) : outcome (plot_options * (text * text)) :=
  assert (fileName o != [::]) (assert (outputDir o != [::])
  (omap (fun file =>
     (if incrementFileNumber o then set_fileNumber (u (fileNumber o).+1) o else o, (file_name o, file)))
   (vtu_text o lambda))).
End Plot.
