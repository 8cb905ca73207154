(** What a plot file says, all together. *)
From Coq Require Import Ascii String.
From mathcomp Require Import all_ssreflect all_algebra zify.
From Verif Require Import M_Base L_Base M_Index S_Index L_Index M_Text S_ReadDomain L_Text M_ReadDomain M_Plot S_Plot L_PlotText
  L_PlotGrid L_PlotFile L_PlotTags L_PlotArrays L_PlotMain L_PlotValues.
Set Implicit Arguments. Unset Strict Implicit. Unset Printing Implicit Defensive.

Section Top.
Variables (F : realFieldType) (W : nat) (asserts : bool).
Variables (E : Type) (edges : seq (seq nat * E)).
Variables (d space_dim n_sub : nat).
Variable show : F -> text.
Variable lexicographic : E -> nat -> seq F -> outcome (seq F).
Variable boundary_lexicographic : E -> nat -> nat -> F -> seq F -> outcome (seq F).
Variable o : plot_options F.
Variables (n_dofs system_dim node_system_dim : nat).
Variable bulk_values : E -> seq F -> seq (seq F) -> outcome (seq (seq F)).
Variable lambda : seq F.
Local Notation n := n_sub.+1.
Local Notation m := (size edges).
Local Notation mb := (m * (2 * d)).
Hypothesis d_range : 0 < d <= 3.
Hypothesis space3 : space_dim <= 3.
Hypothesis show_word : float_word show.
Hypothesis pow_W : n ^ d < W.
Hypothesis pts_W : n_pts edges d n_sub o < W.
Hypothesis conn_W : n_conn edges d n_sub o < W.
Hypothesis no_vertex_cells : plot_edge_boundaries o -> d = 1 -> n_sub = 1.
Hypothesis nodes_size : all (fun e : seq nat * E => size e.1 == 2 * d) edges.
Local Notation vtu_text := (vtu_text W asserts edges d space_dim n_sub show lexicographic boundary_lexicographic
  n_dofs system_dim node_system_dim bulk_values).
Local Notation the_points := (plot_points edges d n_sub lexicographic boundary_lexicographic o
  (abscissas_of n_sub o) (boundary_abscissas_of n_sub o)).
Local Notation the_values := (plot_values edges d n_sub show o n_dofs system_dim node_system_dim bulk_values lambda).

Lemma vtu_text_says file : vtu_text o lambda = Ok file ->
  [/\ all (@is_ok _) the_points,
      vtu_grid file [seq point_words space_dim show (oval [::] p) | p <- the_points] (plot_cells edges d n_sub o),
      system_dim != 0 -> vtu_values file (maxn system_dim node_system_dim) the_values,
      system_dim = 0 -> find_tags file (q_ "DataArray type='Float32' Name='values'") = [::]
    & if numbers o then vtu_numbers file (cell_numbers edges d n_sub o) else find_tags file index_tag = [::]].
Proof.
move=> /vtu_text_elements[points [vals [hp hv _ ->]]].
have [p1 p2 p3 p4] := points_words show_word pow_W hp.
have [conn [c1 c2 c3 c4]] := connectivity_words d_range pts_W conn_W pow_W no_vertex_cells.
rewrite (n_plot_pointsE pts_W pow_W) (n_plot_cellsE pts_W conn_W) c1 [(conn, _).1]/=.
move: (offsets_words d_range pts_W conn_W pow_W) (types_words d_range pts_W conn_W).
have [b1 [k1 [f1 [b2 [k2 [f2 ->]]]]]] := offsets_two W edges d n_sub o.
have [b3 [k3 [f3 [b4 [k4 [f4 ->]]]]]] := types_two W edges d n_sub o.
move: (two_loops_ends b1 k1 f1 b2 k2 f2) (two_loops_notin b1 k1 f1 b2 k2 f2).
move: (two_loops_ends b3 k3 f3 b4 k4 f4) (two_loops_notin b3 k3 f3 b4 k4 f4).
move: (two_loops b1 k1 f1 b2 k2 f2) (two_loops b3 k3 f3 b4 k4 f4) => offs types t1 t2 o1 o2 ho ht.
set idx := (if numbers o then _ else _); set va := (if system_dim == 0 then _ else _).
have hidx : is_true (if idx is Some x then "<"%char \notin x else true).
  by rewrite /idx; case: (numbers o) => //; exact: numbers_notin.
have hva : is_true (if va is Some (_, x) then "<"%char \notin x else true).
  rewrite /va; case: (boolP (system_dim == 0)) => // hs.
  by have [_ _] := values_words show_word nodes_size (hv hs).
split=> //.
- have hsize : size [seq point_words space_dim show (oval [::] p) | p <- the_points] = n_pts edges d n_sub o.
    by rewrite size_map size_plot_points.
  split.
  + refine (file_nested _ _ p4 c4 o2 t2 hidx hva).
  + by exists (endl ++ t_ "      "); [rewrite find_piece // hsize | vm_compute].
  + split; last by rewrite all_map; elim: (the_points) => [|p ps IH] /=; rewrite ?size_point_words.
    by exists (endl ++ points ++ t_ "        "); [rewrite find_points | rewrite words_wrap' p2].
  + by exists (endl ++ conn ++ t_ "        "); [rewrite find_connectivity | rewrite words_wrap' c2].
  + by exists (endl ++ offs ++ t_ "        "); [rewrite find_offsets | rewrite words_wrap' ho].
  + by exists (endl ++ types ++ t_ "        "); [rewrite find_types | rewrite words_wrap' ht].
- move=> hs; exists (endl ++ vals ++ t_ "        "); first by rewrite find_values // /va (negPf hs).
  by have [h _ _] := values_words show_word nodes_size (hv hs); rewrite words_wrap' h.
- by move=> hs; rewrite find_values // /va hs eqxx.
case hn: (numbers o); rewrite /vtu_numbers.
  exists (endl ++ numbers_text W edges d n_sub o ++ t_ "        "); first by rewrite find_index // /idx hn.
  by rewrite words_wrap' numbers_words.
by rewrite find_index // /idx hn.
Qed.
End Top.
