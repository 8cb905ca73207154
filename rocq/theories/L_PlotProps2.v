(** Numbering of the cells, tuples of values, geometries read from files. *)
From Coq Require Import Ascii String.
From mathcomp Require Import all_ssreflect all_algebra zify.
From Verif Require Import M_Base L_Base M_Index S_Index L_Index M_Text S_ReadDomain L_Text M_ReadDomain M_Plot S_Plot
  S_PlotOptions L_PlotText L_PlotGrid L_PlotFile L_PlotTags L_PlotArrays L_PlotMain L_PlotValues L_PlotTop L_PlotOptions L_PlotProps
  M_Geometry L_Geometry14.
Set Implicit Arguments. Unset Strict Implicit. Unset Printing Implicit Defensive.

Lemma compose_inj r s t : size s = size t -> all (fun x => x < r) s -> all (fun x => x < r) t ->
  compose r s = compose r t -> s = t.
Proof. by move=> hs h1 h2 h; rewrite -(digits_compose h1) h hs digits_compose. Qed.
Lemma cell_number_inj r d i j s t : size s = d -> size t = d -> all (fun x => x < r) s -> all (fun x => x < r) t ->
  i * r ^ d + compose r s = j * r ^ d + compose r t -> i = j /\ s = t.
Proof.
move=> hs ht as_ at_ h.
have ls : compose r s < r ^ d by rewrite -hs; exact: compose_lt.
have lt : compose r t < r ^ d by rewrite -ht; exact: compose_lt.
have hp : 0 < r ^ d by exact: leq_ltn_trans ls.
have hij : i = j.
  by have := congr1 (fun x => x %/ r ^ d) h; rewrite !divnMDl // !divn_small // !addn0.
split=> //; apply: (@compose_inj r) => //; first by rewrite hs ht.
by apply/eqP; rewrite -(eqn_add2l (i * r ^ d)) {2}hij; apply/eqP.
Qed.
Lemma scanl_last x s : last x (scanl addn x s) = x + sumn s.
Proof. by elim: s x => [|y s IH] x /=; rewrite ?addn0 // IH addnA. Qed.
Lemma last_offset (cells : seq cell) :
  last 0 (scanl addn 0 [seq size c.2 | c : cell <- cells]) = size [seq v | c <- cells, v <- c.2].
Proof. by rewrite scanl_last add0n size_flatten; congr sumn; rewrite /shape -map_comp; apply: eq_map => c /=; rewrite map_id. Qed.

Section Tuples.
Variables (F : realFieldType) (E : Type) (edges : seq (seq nat * E)).
Variables (d n_sub : nat) (show : F -> text).
Variables (n_dofs system_dim node_system_dim : nat).
Variable bulk_values : E -> seq F -> seq (seq F) -> outcome (seq (seq F)).
Variable lambda : seq F.
Variable o : plot_options F.
Local Notation comps := (maxn system_dim node_system_dim).
Lemma take_drop_flatten (A B : Type) (y0 : A) (f : A -> seq B) k (l : seq A) rest i : (forall x, size (f x) = k) -> i < size l ->
  take k (drop (i * k) (flatten [seq f x | x <- l] ++ rest)) = f (nth y0 l i).
Proof.
move=> hf; elim: l i => [//|x l IH] [|i] hi /=.
  by rewrite mul0n drop0 -catA take_cat hf ltnn subnn take0 cats0.
by rewrite mulSn -catA addnC -drop_drop drop_cat hf ltnn subnn drop0 IH.
Qed.
Lemma edge_tuple e0 i v : plot_edges o -> i < size edges -> v < 2 ^ d ->
  take comps (drop ((i * 2 ^ d + v) * comps) (plot_values edges d n_sub show o n_dofs system_dim node_system_dim bulk_values lambda)) =
  corner_words show system_dim node_system_dim
    (oval [::] (bulk_values (nth e0 edges i).2 (abscissas_of n_sub o) (local_dofs n_dofs lambda (nth e0 edges i).1))) v.
Proof.
move=> he hi hv; rewrite /plot_values he; set rest := (if plot_edge_boundaries o then _ else _).
set f := fun ic : seq (seq F) * nat => corner_words show system_dim node_system_dim ic.1 ic.2.
pose bv (e : seq nat * E) := oval [::] (bulk_values e.2 (abscissas_of n_sub o) (local_dofs n_dofs lambda e.1)).
have -> : flatten [seq edge_words d show n_dofs system_dim node_system_dim bulk_values lambda (abscissas_of n_sub o) e | e <- edges] =
    flatten [seq f ic | ic <- flatten [seq [seq (bv e, c) | c <- iota 0 (2 ^ d)] | e <- edges]].
  rewrite -flatten_nested; congr flatten; apply: eq_map => e; rewrite /edge_words -map_comp; congr flatten.
  by apply: eq_map => c; rewrite map_id.
rewrite (@take_drop_flatten _ _ ([::], 0)).
- rewrite (@nth_flatten_const _ _ _ e0) // => [|x]; last by rewrite size_map size_iota.
  by rewrite (nth_map 0) ?size_iota // nth_iota.
- by move=> x; rewrite size_corner_words.
rewrite (@size_flatten_const _ _ _ (2 ^ d)) => [|x]; last by rewrite size_map size_iota.
by apply: (@leq_trans (i.+1 * 2 ^ d)); rewrite ?leq_mul2r ?hi ?orbT // mulSn addnC ltn_add2r.
Qed.
End Tuples.

(** ** Hyperedges with an affine mapping (Geometry::File) *)
Section File.
Variables (F : realFieldType) (edges : seq (seq nat * linear F)).
Variables (d n_sub : nat).
Variable o : plot_options F.
Local Notation n := n_sub.+1.
Local Notation lexi := (fun (T : linear F) pt sub => gf_lexicographic T n pt sub).
Local Notation blexi := (fun (T : linear F) pt b s sub => gf_boundary_lexicographic T n pt b s sub).
Lemma file_corner (T : linear F) cs v : l_d T = d -> size cs = d -> all (fun x => x < n_sub) cs ->
  gf_lexicographic T n (compose n [seq nth 0 cs k + digit_of 2 v k | k <- iota 0 d]) (abscissas_of n_sub o) =
  Ok (linear_map T 1 [seq scale o * ((nth 0 cs k + digit_of 2 v k)%N%:R / n_sub%:R - 2%:R^-1) + 2%:R^-1 | k <- iota 0%N d])%R.
Proof.
move=> hd hs hc; have hlt k : k < d -> nth 0 cs k + digit_of 2 v k < n.
  move=> hk; have := allP hc (nth 0 cs k) (mem_nth _ _); rewrite hs => /(_ hk).
  have : digit_of 2 v k < 2 by exact: ltn_pmod.
  by lia.
rewrite file_lexicographic ?size_map ?size_iota ?hd //; last first.
  by apply/allP => x /mapP[k]; rewrite mem_iota => /andP[_ hk] ->; exact: hlt.
rewrite -map_comp; congr (Ok (linear_map _ _ _)); apply/eq_in_map => k; rewrite mem_iota => /andP[_ hk] /=.
by rewrite nth_mkseq //; exact: hlt.
Qed.
Lemma file_boundary_undefined (T : linear F) pt b s sub : l_d T = d -> pt < n ^ d.-1 -> 0 < b < 2 * d ->
  gf_boundary_lexicographic T n pt b s sub = UB.
Proof.
move=> hd hpt /andP[hb0 hb]; rewrite /gf_boundary_lexicographic hd.
have -> : pt < n ^ d.-1 * d * 2.
  by apply: (leq_trans hpt); rewrite -mulnA leq_pmulr // muln_gt0 andbT; lia.
by have -> : pt < n ^ d.-1 * b by apply: (leq_trans hpt); rewrite leq_pmulr.
Qed.
Lemma boundaries_not_ok sub bsub : 0 < d -> 0 < size edges -> all (fun e => l_d e.2 == d) edges -> plot_edge_boundaries o ->
  ~~ all (@is_ok _) (plot_points edges d n_sub lexi blexi o sub bsub).
Proof.
move=> hd0; case: edges => [//|e es] _ /= /andP[/eqP hd _] hb.
rewrite /plot_points hb all_cat negb_and; apply/orP; right.
rewrite /= all_cat negb_and; apply/orP; left.
have hp : 0 < n ^ d.-1 by rewrite expn_gt0.
rewrite /boundary_points; have -> : 2 * d = (2 * d).-2.+2 by lia.
rewrite /= all_cat negb_and; apply/orP; right.
rewrite all_cat negb_and; apply/orP; left.
case: (n ^ d.-1) hp (fun pt b s sub => @file_boundary_undefined e.2 pt b s sub hd) => [//|q] _ H /=.
by rewrite H //; lia.
Qed.
End File.

(** ** The function plot *)
Section Plot.
Variables (F : realFieldType) (W : nat) (asserts : bool).
Variables (E : Type) (edges : seq (seq nat * E)).
Variables (d space_dim n_sub : nat).
Variable show : F -> text.
Variable lexicographic : E -> nat -> seq F -> outcome (seq F).
Variable boundary_lexicographic : E -> nat -> nat -> F -> seq F -> outcome (seq F).
Variable o : plot_options F.
Variables (n_dofs system_dim node_system_dim : nat).
Variable bulk_values : E -> seq F -> seq (seq F) -> outcome (seq (seq F)).
Variable lambda : seq F.
Local Notation n := n_sub.+1.
Local Notation m := (size edges).
Local Notation plot := (plot W asserts edges d space_dim n_sub show lexicographic boundary_lexicographic
  n_dofs system_dim node_system_dim bulk_values).
Local Notation vtu_text := (vtu_text W asserts edges d space_dim n_sub show lexicographic boundary_lexicographic
  n_dofs system_dim node_system_dim bulk_values).
Local Notation points := (plot_points edges d n_sub lexicographic boundary_lexicographic o
  (abscissas_of n_sub o) (boundary_abscissas_of n_sub o)).
Local Notation cells := (plot_cells edges d n_sub o).
Lemma plotE o1 (l : seq F) o' name file : plot o1 l = Ok (o', (name, file)) ->
  [/\ vtu_text o1 l = Ok file, name = file_name o1
    & o' = if incrementFileNumber o1 then set_fileNumber ((fileNumber o1).+1 %% W) o1 else o1].
Proof.
rewrite /M_Plot.plot /hassert; case: (_ || _) => //; case: (_ || _) => //.
by case: (vtu_text o1 l) => [f|||] //= [<- <- <-].
Qed.
Hypothesis d_range : 0 < d <= 3.
Hypothesis space3 : space_dim <= 3.
Hypothesis show_word : float_word show.
Hypothesis pow_W : n ^ d < W.
Hypothesis pts_W : n_pts edges d n_sub o < W.
Hypothesis conn_W : n_conn edges d n_sub o < W.
Hypothesis no_vertex_cells : plot_edge_boundaries o -> d = 1 -> n_sub = 1.
Hypothesis nodes_size : all (fun e : seq nat * E => size e.1 == 2 * d) edges.
Let says := fun file => @vtu_text_says F W asserts E edges d space_dim n_sub show lexicographic boundary_lexicographic o
  n_dofs system_dim node_system_dim bulk_values lambda d_range space3 show_word pow_W pts_W conn_W no_vertex_cells nodes_size file.
Lemma plot_grid o' name file : plot o lambda = Ok (o', (name, file)) ->
  [/\ all (@is_ok _) points,
      vtu_grid file [seq point_words space_dim show (oval [::] p) | p <- points] cells,
      forall c v, c \in cells -> v \in c.2 -> v < size points
    & last 0 (scanl addn 0 [seq size c.2 | c : cell <- cells]) = size [seq v | c <- cells, v <- c.2]].
Proof.
move=> /plotE[/says[h1 h2 _ _ _] _ _]; split=> //; last exact: last_offset.
by move=> c v hc hv; rewrite size_plot_points; exact: (plot_cells_lt d_range pts_W conn_W pow_W hc hv).
Qed.
Lemma plot_succeeds : fileName o != [::] -> outputDir o != [::] -> all (@is_ok _) points ->
  (system_dim != 0 ->
   [/\ all (fun e : seq nat * E => all (fun node => node * n_dofs + n_dofs <= size lambda) e.1) edges,
       plot_edges o -> all (fun e : seq nat * E =>
         is_ok (bulk_values e.2 (abscissas_of n_sub o) (local_dofs n_dofs lambda e.1))) edges
     & plot_edge_boundaries o -> asserts -> d = 1 \/ node_system_dim <= n ^ d.-1]) ->
  exists r, plot o lambda = Ok r.
Proof.
move=> h1 h2 hp hv; have := vtu_text_ok space_dim show d_range pow_W pts_W conn_W no_vertex_cells nodes_size hp hv.
rewrite /M_Plot.plot /hassert h1 h2 /=; case: (vtu_text o lambda) => [file|||] // _.
by eexists; reflexivity.
Qed.
Lemma plot_has_values o' name file : system_dim != 0 -> n_sub = 1 ->
  (plot_edge_boundaries o -> d = 1 \/ system_dim <= node_system_dim) -> plot o lambda = Ok (o', (name, file)) ->
  exists ws, [/\ vtu_values file (maxn system_dim node_system_dim) ws,
    size ws = size points * maxn system_dim node_system_dim
  & forall e0 i v, plot_edges o -> i < m -> v < 2 ^ d ->
    take (maxn system_dim node_system_dim) (drop ((i * 2 ^ d + v) * maxn system_dim node_system_dim) ws) =
    corner_words show system_dim node_system_dim (oval [::]
      (bulk_values (nth e0 edges i).2 (abscissas_of n_sub o) (local_dofs n_dofs lambda (nth e0 edges i).1))) v].
Proof.
move=> hs hn hb /plotE[/says[_ _ /(_ hs) h3 _ _] _ _]; eexists; split; [exact: h3| |].
  by rewrite size_plot_points; exact: values_count.
by move=> e0 i v he hi hv; exact: edge_tuple.
Qed.
Lemma plot_no_values o' name file : system_dim = 0 -> plot o lambda = Ok (o', (name, file)) ->
  find_tags file (q_ "DataArray type='Float32' Name='values'") = [::].
Proof. by move=> hs /plotE[/says[_ _ _ /(_ hs)]]. Qed.
Lemma plot_has_numbers o' name file : numbers o -> n_sub = 1 \/ ~~ plot_edge_boundaries o ->
  plot o lambda = Ok (o', (name, file)) ->
  vtu_numbers file (cell_numbers edges d n_sub o) /\ size (cell_numbers edges d n_sub o) = size cells.
Proof. by move=> hn hb /plotE[/says[_ _ _ _]]; rewrite hn => h _ _; split=> //; exact: numbers_count. Qed.
End Plot.
Lemma bad_connectivity : exists file,
  vtu_text 100 true [:: ([:: 0; 1], tt)] 1 1 2 (fun _ : rat => t_ "0.000e+00") (fun _ _ _ => Ok [:: 0%R])
    (fun _ _ _ _ _ => Ok [:: 0%R]) 1 0 0 (fun _ _ _ => Ok [::]) (set_plotEdgeBoundaries true (default_options _)) [::] = Ok file /\
  [seq tc.1 | tc <- find_tags file (t_ "Piece")] = [:: piece_tag 5 4] /\
  exists content, find_tags file connectivity_tag = [:: (connectivity_tag, content)] /\ decimal 5 \in words content.
Proof.
set x := M_Plot.vtu_text _ _ _ _ _ _ _ _ _ _ _ _ _ _ _.
have hok : is_ok x by vm_compute.
exists (oval [::] x); split; first exact: is_okE.
split; first by vm_compute; reflexivity.
exists (nth ([::], [::]) (find_tags (oval [::] x) connectivity_tag) 0).2.
by split; vm_compute; reflexivity.
Qed.
(** The file of one hyperedge of dimension [d]. *)
Definition one_edge (d n_sub sys node : nat) (o : plot_options [realFieldType of rat]) : outcome text :=
  vtu_text 100 false [:: (iota 0 (2 * d), tt)] d 3 n_sub (fun _ => t_ "0.000e+00") (fun _ _ _ => Ok [:: 0%R])
    (fun _ _ _ _ _ => Ok [:: 0%R]) 0 sys node (fun _ _ _ => Ok [::]) o [::].
Lemma one_edge_count d n_sub sys node o np nc comps k (x := one_edge d n_sub sys node o)
   (found := find_tags (oval [::] x) (q_ "DataArray type='Float32' Name='values'")) :
  is_ok x && ([seq tc.1 | tc <- find_tags (oval [::] x) (t_ "Piece")] == [:: piece_tag np nc]) &&
  ([seq tc.1 | tc <- found] == [:: values_tag comps]) && (size (words (head ([::], [::]) found).2) == k) ->
  exists file content, [/\ x = Ok file, [seq tc.1 | tc <- find_tags file (t_ "Piece")] = [:: piece_tag np nc],
    find_tags file (q_ "DataArray type='Float32' Name='values'") = [:: (values_tag comps, content)]
  & size (words content) = k].
Proof.
case/andP=> /andP[/andP[h1 /eqP h2] h3] /eqP h4; exists (oval [::] x), (head ([::], [::]) found).2; split=> //.
  exact: is_okE.
by move: h3; rewrite -/found; case: (found) => [|[t c] [|y l]] //= /eqP[->].
Qed.
Lemma few_values_subdivision : exists file content, [/\ one_edge 1 2 1 1 (default_options _) = Ok file,
  [seq tc.1 | tc <- find_tags file (t_ "Piece")] = [:: piece_tag 3 2],
  find_tags file (q_ "DataArray type='Float32' Name='values'") = [:: (values_tag 1, content)] & size (words content) = 2].
Proof. by apply: one_edge_count; vm_compute. Qed.
Lemma few_values_boundary : exists file content,
  [/\ one_edge 2 1 2 1 (set_plotEdgeBoundaries true (default_options _)) = Ok file,
  [seq tc.1 | tc <- find_tags file (t_ "Piece")] = [:: piece_tag 12 5],
  find_tags file (q_ "DataArray type='Float32' Name='values'") = [:: (values_tag 2, content)] & size (words content) = 20].
Proof. by apply: one_edge_count; vm_compute. Qed.
Lemma plot_step (F : realFieldType) W asserts E (edges : seq (seq nat * E)) d space_dim n_sub show lexicographic boundary_lexicographic
    n_dofs system_dim node_system_dim bulk_values (o : plot_options F) l r :
  plot W asserts edges d space_dim n_sub show lexicographic boundary_lexicographic
    n_dofs system_dim node_system_dim bulk_values o l = Ok r ->
  r.1 = (if incrementFileNumber o then set_fileNumber ((fileNumber o).+1 %% W) o else o) /\ r.2.1 = file_name o.
Proof. by case: r => [o' [name file]] /plotE[_ -> ->]. Qed.
Section Plots.
Variables (F : realFieldType) (W : nat) (asserts : bool).
Variables (E : Type) (edges : seq (seq nat * E)).
Variables (d space_dim n_sub : nat).
Variable show : F -> text.
Variable lexicographic : E -> nat -> seq F -> outcome (seq F).
Variable boundary_lexicographic : E -> nat -> nat -> F -> seq F -> outcome (seq F).
Variables (n_dofs system_dim node_system_dim : nat).
Variable bulk_values : E -> seq F -> seq (seq F) -> outcome (seq (seq F)).
Local Notation plot := (plot W asserts edges d space_dim n_sub show lexicographic boundary_lexicographic
  n_dofs system_dim node_system_dim bulk_values).
Implicit Types o : plot_options F.
Lemma plot_fields o lambda o' name file : plot o lambda = Ok (o', (name, file)) ->
  forall x, field o' x = if (x == t_ "fileNumber") && incrementFileNumber o then VNat _ ((fileNumber o).+1 %% W) else field o x.
Proof.
move=> /plotE[_ _ ->] x; case: (incrementFileNumber o); last by rewrite andbF.
by rewrite andbT field_fileNumber.
Qed.
Lemma plot_name o lambda o' name file : plot o lambda = Ok (o', (name, file)) ->
  name = outputDir o ++ t_ "/" ++ fileName o ++
         (if printFileNumber o then t_ "." ++ decimal (fileNumber o) else [::]) ++ t_ ".vtu".
Proof. by move=> /plotE[_ -> _]. Qed.
Lemma plot_names_uniq o ls o' fs : fileNumber o < W -> incrementFileNumber o -> printFileNumber o -> size ls <= W ->
  plots plot o ls = Ok (o', fs) -> uniq [seq f.1 | f <- fs].
Proof.
move=> hW; apply: (plots_uniq (W := W)) => //; last exact: leq_ltn_trans hW.
by move=> ? ? ?; exact: plot_step.
Qed.
End Plots.
