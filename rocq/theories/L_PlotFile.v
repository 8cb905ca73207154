(** The text of a plot file as a sequence of XML elements. *)
From Coq Require Import Ascii String.
From mathcomp Require Import all_ssreflect all_algebra zify.
From Verif Require Import M_Base L_Base M_Index S_Index L_Index M_Text S_ReadDomain L_Text M_ReadDomain L_ReadDomain
  M_Plot S_Plot L_PlotText L_PlotGrid.
Set Implicit Arguments. Unset Strict Implicit. Unset Printing Implicit Defensive.

Local Notation sp8 := (t_ "        ").
Local Notation sp6 := (t_ "      ").
Definition vtu_elements (np nc : nat) (points conn offs types : text) (idx : option text)
    (vals : option (nat * text)) : seq (text * text) :=
  [:: (q_ "?xml version='1.0'?", endl);
   (q_ "VTKFile type='UnstructuredGrid' version='0.1' byte_order='LittleEndian' compressor='vtkZLibDataCompressor'",
    endl ++ t_ "  ");
   (t_ "UnstructuredGrid", endl ++ t_ "    "); (piece_tag np nc, endl ++ sp6);
   (t_ "Points", endl ++ sp8); (points_tag, endl ++ points ++ sp8); (t_ "/DataArray", endl ++ sp6);
   (t_ "/Points", endl ++ sp6); (t_ "Cells", endl ++ sp8);
   (connectivity_tag, endl ++ conn ++ sp8); (t_ "/DataArray", endl ++ sp8);
   (offsets_tag, endl ++ offs ++ sp8); (t_ "/DataArray", endl ++ sp8);
   (types_tag, endl ++ types ++ sp8); (t_ "/DataArray", endl ++ sp6); (t_ "/Cells", endl ++ sp6);
   (t_ "CellData", endl ++ (if idx is Some _ then sp8 else sp6))] ++
  (if idx is Some x then [:: (index_tag, endl ++ x ++ sp8); (t_ "/DataArray", sp6)] else [::]) ++
  [:: (t_ "/CellData", endl ++ sp6); (t_ "PointData", endl ++ (if vals is Some _ then sp8 else sp6))] ++
  (if vals is Some (comps, v) then [:: (values_tag comps, endl ++ v ++ sp8); (t_ "/DataArray", endl ++ sp6)]
   else [::]) ++
  [:: (t_ "/PointData", endl ++ t_ "    "); (t_ "/Piece", endl ++ t_ "  "); (t_ "/UnstructuredGrid", endl);
   (t_ "/VTKFile", endl)].

Section File.
Variables (F : realFieldType) (W : nat) (asserts : bool).
Variables (E : Type) (edges : seq (seq nat * E)).
Variables (edge_dim space_dim n_sub : nat).
Variable show : F -> text.
Variable lexicographic : E -> nat -> seq F -> outcome (seq F).
Variable boundary_lexicographic : E -> nat -> nat -> F -> seq F -> outcome (seq F).
Variables (n_dofs system_dim node_system_dim : nat).
Variable bulk_values : E -> seq F -> seq (seq F) -> outcome (seq (seq F)).
Implicit Types (o : plot_options F) (lambda : seq F).

Notation vtu_text := (vtu_text W asserts edges edge_dim space_dim n_sub show lexicographic boundary_lexicographic
  n_dofs system_dim node_system_dim bulk_values).
Notation points_text := (points_text W edges edge_dim space_dim n_sub show lexicographic boundary_lexicographic).
Notation edge_values_text := (edge_values_text edges edge_dim show n_dofs system_dim node_system_dim bulk_values).
Notation boundary_values_text :=
  (boundary_values_text asserts edges edge_dim show n_dofs system_dim node_system_dim).

Definition values_of o lambda : outcome text :=
  obind (if plot_edges o then edge_values_text lambda (abscissas_of n_sub o) else Ok [::]) (fun a =>
  omap (cat a) (if plot_edge_boundaries o then boundary_values_text lambda (boundary_abscissas_of n_sub o) else Ok [::])).

Local Arguments cat [T] !s1 s2 : simpl nomatch.
Lemma vtu_text_elements o lambda file : vtu_text o lambda = Ok file ->
  exists points vals,
  [/\ points_text o (abscissas_of n_sub o) (boundary_abscissas_of n_sub o) = Ok points,
      system_dim != 0 -> values_of o lambda = Ok vals,
      asserts -> (connectivity_text W edges edge_dim n_sub o).2 = n_plot_points W edges edge_dim n_sub o
    & file = flatten [seq element tc | tc <- vtu_elements (n_plot_points W edges edge_dim n_sub o)
        (n_plot_cells W edges edge_dim n_sub o) points (connectivity_text W edges edge_dim n_sub o).1
        (offsets_text W edges edge_dim n_sub o) (types_text W edges edge_dim n_sub o)
        (if numbers o then Some (numbers_text W edges edge_dim n_sub o) else None)
        (if system_dim == 0 then None else Some (maxn system_dim node_system_dim, vals))]].
Proof.
rewrite /M_Plot.vtu_text /geometry_text.
move: (n_plot_points W edges edge_dim n_sub o) (n_plot_cells W edges edge_dim n_sub o) => np nc.
move: (offsets_text W edges edge_dim n_sub o) (types_text W edges edge_dim n_sub o) => offs types.
move: (numbers_text W edges edge_dim n_sub o) => nums.
case: (connectivity_text W edges edge_dim n_sub o) => conn off.
case Ep: (points_text o _ _) => [points|||] //=; rewrite /hassert.
case ha: ((off == _) || ~~ asserts) => //=.
have {}ha : asserts -> off = np.
  by move: ha; case: (asserts) => //; rewrite orbF => /eqP.
case: (boolP (system_dim == 0)) => hs /=.
  case=> <-; exists points, [::]; split => //.
  by case: (numbers o); rewrite /element /quote /endl /piece_tag /points_tag /connectivity_tag /offsets_tag /types_tag /index_tag
    /values_tag; do 6 rewrite /= -?catA.
rewrite /values_of; case: (if plot_edges o then _ else _) => [a|||] //=.
case: (if plot_edge_boundaries o then _ else _) => [b|||] //= [<-].
exists points, (a ++ b); split => //.
by case: (numbers o); rewrite /element /quote /endl /piece_tag /points_tag /connectivity_tag /offsets_tag /types_tag /index_tag
    /values_tag; do 6 rewrite /= -?catA.
Qed.
End File.
