(** The words of the arrays of a plot file. *)
From Coq Require Import Ascii String.
From mathcomp Require Import all_ssreflect all_algebra zify.
From Verif Require Import M_Base L_Base M_Index S_Index L_Index M_Text S_ReadDomain L_Text M_Plot S_Plot L_PlotText
  L_PlotGrid L_PlotFile L_PlotTags.
Set Implicit Arguments. Unset Strict Implicit. Unset Printing Implicit Defensive.

Lemma cat_notin (c : ascii) (a b : text) : c \notin a -> c \notin b -> c \notin a ++ b.
Proof. by rewrite mem_cat negb_or => -> ->. Qed.
Lemma lt_decimal n : "<"%char \notin decimal n. Proof. exact: decimal_notin. Qed.

(** ** Connectivity *)
Section Conn.
Variables (W d n : nat).
Hypothesis d3 : d <= 3.
Hypothesis d0 : d = 0 -> n = 2.

Lemma sub_cube_notin offset : "<"%char \notin sub_cube_connectivity W d n offset.
Proof.
case: (d) d3 => [|[|[|[|//]]]] _; rewrite /sub_cube_connectivity;
  repeat (apply: out_loop_notin => ? _); repeat apply: cat_notin => //; exact: lt_decimal.
Qed.
Lemma sub_cube_ends offset : ends_space (sub_cube_connectivity W d n offset).
Proof.
case: (d) d3 => [|[|[|[|//]]]] _; rewrite /sub_cube_connectivity;
  repeat (apply: out_loop_ends => ? _); cbv beta; rewrite ?catA; exact: ends_endl.
Qed.
Lemma cells_loop m s0 off : off + m * n ^ d < W -> ends_space s0 -> "<"%char \notin s0 ->
  exists s, [/\ for_ m (fun _ st => (st.1 ++ sub_cube_connectivity W d n st.2, (st.2 + n ^ d) %% W)) (s0, off) =
                (s, off + m * n ^ d),
    words s = words s0 ++ flatten [seq cell_words c | c <- grid_cells n d m off], ends_space s & "<"%char \notin s].
Proof.
move=> + h1 h2; elim: m => [|m IH] hW.
  by exists s0; rewrite mul0n addn0 cats0.
have [|s [e hw hs hn]] := IH; first by rewrite mulSn in hW; lia.
exists (s ++ sub_cube_connectivity W d n (off + m * n ^ d)); split.
- by rewrite for_S e /= modn_small; [congr pair; rewrite mulSn; lia | rewrite mulSn in hW; lia].
- rewrite words_cat ?hs // hw -catA; congr cat.
  rewrite words_sub_cubes // /grid_cells; last by rewrite mulSn in hW; lia.
  rewrite -[m.+1]addn1 iotaD map_cat flatten_cat map_cat flatten_cat; congr cat.
  by rewrite /= add0n cats0 -map_comp.
- exact/ends_space_cat2/sub_cube_ends.
exact/cat_notin/sub_cube_notin.
Qed.
Lemma size_grid_cells m off : size (grid_cells n d m off) = m * n.-1 ^ d.
Proof. by rewrite size_allpairs !size_iota. Qed.
Lemma grid_cells_type m off c : c \in grid_cells n d m off -> c.1 = vtk_type d.
Proof. by case/allpairsP => -[i k] /= [_ _ ->]. Qed.
Lemma grid_cells_size m off c : c \in grid_cells n d m off -> size c.2 = 2 ^ d.
Proof. by case/allpairsP => -[i k] /= [_ _ ->]; rewrite size_map size_iota. Qed.
Lemma map_const (A B : eqType) (f : A -> B) (s : seq A) x : (forall c, c \in s -> f c = x) -> map f s = nseq (size s) x.
Proof.
elim: s => [//|c s IH] h /=; rewrite h ?mem_head // IH // => c' hc; apply: h.
by rewrite inE hc orbT.
Qed.
Lemma grid_cells_types m off : [seq c.1 | c : cell <- grid_cells n d m off] = nseq (m * n.-1 ^ d) (vtk_type d).
Proof. by rewrite -(size_grid_cells m off); apply: map_const => c; exact: grid_cells_type. Qed.
Lemma grid_cells_sizes m off : [seq size c.2 | c : cell <- grid_cells n d m off] = nseq (m * n.-1 ^ d) (2 ^ d).
Proof. by rewrite -(size_grid_cells m off); apply: map_const => c; exact: grid_cells_size. Qed.
End Conn.

Lemma scanl_nseq a x k s : scanl addn x (nseq k a ++ s) =
  [seq a * i.+1 + x | i <- iota 0 k] ++ scanl addn (x + k * a) s.
Proof.
elim: k x => [|k IH] x /=; first by rewrite mul0n addn0.
rewrite muln1 (addnC a) IH -addnA mulSn; congr (_ :: _ ++ _).
by rewrite (iotaDl 1 0 k) -map_comp; apply: eq_map => i /=; rewrite mulnS; lia.
Qed.

Lemma grid_corner_lt n d c v : c < n.-1 ^ d -> grid_corner n d c v < n ^ d.
Proof.
case: d => [|d] hc; first by rewrite corner0.
have hn : 0 < n.-1 by case: (posnP n.-1) hc => // ->; rewrite exp0n.
have hs : size [seq digit_of n.-1 c k + digit_of 2 v k | k <- iota 0 d.+1] = d.+1 by rewrite size_map size_iota.
rewrite /grid_corner -{2}hs; apply: compose_lt.
apply/allP => x /mapP[k _ ->].
have h1 : digit_of n.-1 c k < n.-1 by apply: ltn_pmod.
have h2 : digit_of 2 v k < 2 by apply: ltn_pmod.
by lia.
Qed.
Lemma grid_cells_lt n d m off c v : c \in grid_cells n d m off -> v \in c.2 -> off <= v < off + m * n ^ d.
Proof.
case/allpairsP => -[i k] /= [hi hk ->] /mapP[x hx ->] /=.
move: hi hk; rewrite !mem_iota !add0n !leq0n /= => hi hk.
have h := grid_corner_lt x hk.
rewrite -addnA leq_addr /= ltn_add2l.
apply: (@leq_trans (i.+1 * n ^ d)); first by rewrite mulSn addnC ltn_add2r.
by rewrite leq_mul2r hi orbT.
Qed.

Section Arrays.
Variables (F : realFieldType) (W : nat).
Variables (E : Type) (edges : seq (seq nat * E)).
Variables (d space_dim n_sub : nat).
Variable show : F -> text.
Variable lexicographic : E -> nat -> seq F -> outcome (seq F).
Variable boundary_lexicographic : E -> nat -> nat -> F -> seq F -> outcome (seq F).
Variable o : plot_options F.
Local Notation n := n_sub.+1.
Local Notation m := (size edges).
Local Notation mb := (m * (2 * d)).
Hypothesis d_range : 0 < d <= 3.
Hypothesis show_word : float_word show.

Local Notation n_pts := (n_pts edges d n_sub o).
Local Notation n_conn := (n_conn edges d n_sub o).
Local Notation plot_cells := (plot_cells edges d n_sub o).
Hypothesis pts_W : n_pts < W.
Hypothesis conn_W : n_conn < W.
Hypothesis pow_W : n ^ d < W.

Lemma powb_W : n ^ d.-1 < W.
Proof. by apply: leq_ltn_trans pow_W; rewrite leq_pexp2l // leq_pred. Qed.
Lemma ppeE : points_per_edge W d n_sub = n ^ d. Proof. by rewrite /points_per_edge hc_pow_wE modn_small. Qed.
Lemma ppbE : points_per_boundary W d n_sub = n ^ d.-1.
Proof. by rewrite /points_per_boundary hc_pow_wE modn_small // powb_W. Qed.
Lemma pos_pow k : 0 < n ^ k. Proof. by rewrite expn_gt0. Qed.
Lemma boundariesE : plot_edge_boundaries o -> n_edge_boundaries W edges d = mb.
Proof.
move=> hb; rewrite /n_edge_boundaries modn_small //; apply: leq_ltn_trans pts_W.
rewrite /S_Plot.n_pts hb; apply: leq_trans (leq_addl _ _).
by rewrite leq_pmulr // pos_pow.
Qed.
Lemma n_plot_edgesE : plot_edges o -> n_plot_edges W edges d n_sub = m * n_sub ^ d.
Proof.
move=> he; rewrite /n_plot_edges hc_pow_wE subn1 modnMmr modn_small //; apply: leq_ltn_trans conn_W.
rewrite /S_Plot.n_conn he; apply: leq_trans (leq_addr _ _).
by rewrite leq_pmulr // expn_gt0.
Qed.
Lemma n_plot_boundariesE : plot_edge_boundaries o -> n_plot_boundaries W edges d n_sub = mb * n_sub ^ d.-1.
Proof.
move=> hb; rewrite /n_plot_boundaries hc_pow_wE boundariesE // subn1 modnMmr modn_small //; apply: leq_ltn_trans conn_W.
rewrite /S_Plot.n_conn hb; apply: leq_trans (leq_addl _ _).
by rewrite leq_pmulr // expn_gt0.
Qed.
Lemma n_plot_pointsE : n_plot_points W edges d n_sub o = n_pts.
Proof.
rewrite /n_plot_points ppeE ppbE.
have -> : (if plot_edges o then (n ^ d * m) %% W else 0) = (if plot_edges o then m * n ^ d else 0).
  case he: (plot_edges o) => //; rewrite mulnC modn_small //; apply: leq_ltn_trans pts_W.
  by rewrite /S_Plot.n_pts he leq_addr.
have -> : (if plot_edge_boundaries o then (n ^ d.-1 * n_edge_boundaries W edges d) %% W else 0) =
    (if plot_edge_boundaries o then mb * n ^ d.-1 else 0).
  case hb: (plot_edge_boundaries o) => //; rewrite boundariesE // mulnC modn_small //; apply: leq_ltn_trans pts_W.
  by rewrite /S_Plot.n_pts hb leq_addl.
by rewrite modn_small.
Qed.
Lemma size_plot_cells : size plot_cells =
  (if plot_edges o then m * n_sub ^ d else 0) + (if plot_edge_boundaries o then mb * n_sub ^ d.-1 else 0).
Proof. by rewrite size_cat; congr addn; case: ifP => //; rewrite size_grid_cells. Qed.
Lemma cells_conn : size plot_cells <= n_conn.
Proof. by rewrite size_plot_cells; apply: leq_add; case: ifP => // _; rewrite leq_pmulr // expn_gt0. Qed.
Lemma n_plot_cellsE : n_plot_cells W edges d n_sub o = size plot_cells.
Proof.
rewrite /n_plot_cells.
have -> : (if plot_edges o then n_plot_edges W edges d n_sub else 0) =
    (if plot_edges o then m * n_sub ^ d else 0) by case he: (plot_edges o) => //; exact: n_plot_edgesE.
have -> : (if plot_edge_boundaries o then n_plot_boundaries W edges d n_sub else 0) =
    (if plot_edge_boundaries o then mb * n_sub ^ d.-1 else 0)
  by case hb: (plot_edge_boundaries o) => //; exact: n_plot_boundariesE.
by rewrite -size_plot_cells modn_small // (leq_ltn_trans cells_conn).
Qed.
Lemma plot_cells_lt c v : c \in plot_cells -> v \in c.2 -> v < n_pts.
Proof.
rewrite mem_cat /S_Plot.n_pts => /orP[]; case: ifP => // _ hc hv.
  by have := grid_cells_lt hc hv; rewrite add0n; lia.
by have := grid_cells_lt hc hv; lia.
Qed.
Lemma plot_cells_size c : c \in plot_cells -> c.1 \in [:: vtk_type d; vtk_type d.-1] /\
  (c.1 = vtk_type d -> size c.2 = 2 ^ d) /\ (c.1 = vtk_type d.-1 -> size c.2 = 2 ^ d.-1).
Proof.
have hd : vtk_type d <> vtk_type d.-1 by case: (d) d_range => [//|[|[|[|//]]]].
rewrite mem_cat => /orP[]; case: ifP => // _ hc; rewrite (grid_cells_type hc) (grid_cells_size hc) !inE eqxx ?orbT.
  by do !split.
by split=> //; split=> [/esym|].
Qed.

(** ** Texts *)
Lemma connectivity_words : (plot_edge_boundaries o -> d = 1 -> n_sub = 1) ->
  exists s, [/\ connectivity_text W edges d n_sub o = (s, n_pts),
    words s = flatten [seq cell_words c | c <- plot_cells], ends_space s & "<"%char \notin s].
Proof.
move=> h1; rewrite /connectivity_text ppeE ppbE.
have [s [e hw hs hn]] : exists s, [/\ (if plot_edges o then for_ m (fun _ st =>
      (st.1 ++ sub_cube_connectivity W d n st.2, (st.2 + n ^ d) %% W)) ([::], 0) else ([::], 0)) =
      (s, if plot_edges o then m * n ^ d else 0),
    words s = flatten [seq cell_words c | c <- if plot_edges o then grid_cells n d m 0 else [::]],
    ends_space s & "<"%char \notin s].
  case he: (plot_edges o); last by exists [::].
  have [||||| s [-> hw hs hn]] := @cells_loop W d n _ _ m [::] 0 => //; try lia.
    by apply: leq_ltn_trans pts_W; rewrite /S_Plot.n_pts he leq_addr.
  by exists s.
rewrite e /S_Plot.plot_cells; case hb: (plot_edge_boundaries o); last first.
  by exists s; rewrite /S_Plot.n_pts hb addn0 cats0.
rewrite boundariesE //.
have hd1 : d.-1 <= 3 by lia.
have hd2 : d.-1 = 0 -> n = 2 by move=> hd; rewrite h1 //; lia.
have := @cells_loop W d.-1 n hd1 hd2 mb s (if plot_edges o then m * n ^ d else 0).
case=> // [|s' [-> hw' hs' hn']].
  by move: pts_W; rewrite /S_Plot.n_pts hb.
exists s'; split=> //; first by rewrite /S_Plot.n_pts hb.
by rewrite hw' hw map_cat flatten_cat.
Qed.
Lemma pre2_dec k : words (t_ "  " ++ decimal k) = [:: decimal k]. Proof. exact: words_pre_dec. Qed.
Lemma flatten1 (A : Type) (f : nat -> A) k : flatten (mkseq (fun i => [:: f i]) k) = mkseq f k.
Proof. by rewrite /mkseq; elim: (iota 0 k) => [//|x s IH] /=; rewrite IH. Qed.
Lemma dec_loop k (f : nat -> nat) : words (out_loop k (fun i => t_ "  " ++ decimal (f i))) = mkseq (fun i => decimal (f i)) k.
Proof.
rewrite words_out_loop_start // -[RHS]flatten1; apply: eq_flatten => i _.
exact: pre2_dec.
Qed.
Lemma dec_loop_starts k (f : nat -> nat) : word_end (out_loop k (fun i => t_ "  " ++ decimal (f i))).
Proof. exact: out_loop_starts. Qed.
Lemma dec_loop_notin k (f : nat -> nat) : "<"%char \notin out_loop k (fun i => t_ "  " ++ decimal (f i)).
Proof. by apply: out_loop_notin => i _; apply: cat_notin => //; exact: lt_decimal. Qed.
Definition two_loops (b1 : bool) k1 f1 (b2 : bool) k2 f2 : text :=
  t_ "        " ++ (if b1 then out_loop k1 (fun i => t_ "  " ++ decimal (f1 i)) else [::]) ++
  (if b2 then out_loop k2 (fun i => t_ "  " ++ decimal (f2 i)) else [::]) ++ endl.
Lemma two_loops_words b1 k1 f1 b2 k2 f2 : words (two_loops b1 k1 f1 b2 k2 f2) =
  (if b1 then mkseq (fun i => decimal (f1 i)) k1 else [::]) ++ (if b2 then mkseq (fun i => decimal (f2 i)) k2 else [::]).
Proof.
rewrite /two_loops words_pre // catA words_endl words_cat; last first.
  by case: b2; rewrite ?dec_loop_starts orbT.
by congr cat; case: ifP => // _; exact: dec_loop.
Qed.
Lemma two_loops_ends b1 k1 f1 b2 k2 f2 : ends_space (two_loops b1 k1 f1 b2 k2 f2).
Proof. by rewrite /two_loops !catA; exact: ends_endl. Qed.
Lemma two_loops_notin b1 k1 f1 b2 k2 f2 : "<"%char \notin two_loops b1 k1 f1 b2 k2 f2.
Proof. by apply: cat_notin => //; apply: cat_notin; [|apply: cat_notin => //]; case: ifP => // _; exact: dec_loop_notin. Qed.

Lemma offsets_two : exists b1 k1 f1 b2 k2 f2, offsets_text W edges d n_sub o = two_loops b1 k1 f1 b2 k2 f2.
Proof. by do 6 eexists; reflexivity. Qed.
Lemma types_two : exists b1 k1 f1 b2 k2 f2, types_text W edges d n_sub o = two_loops b1 k1 f1 b2 k2 f2.
Proof. by do 6 eexists; reflexivity. Qed.
Lemma mkseq_nseq (A : Type) (x : A) k : mkseq (fun _ => x) k = nseq k x.
Proof. by rewrite /mkseq; elim: k 0 => [//|k IH] i /=; rewrite IH. Qed.
Lemma types_words : words (types_text W edges d n_sub o) = [seq decimal c.1 | c : cell <- plot_cells].
Proof.
rewrite [words _]two_loops_words (map_comp decimal fst) map_cat map_cat; congr cat; case: ifP => // h.
  rewrite grid_cells_types map_nseq mkseq_nseq n_plot_edgesE //.
  by congr (nseq _ (decimal _)); rewrite /element_id /vtk_type; case: (d) d_range => [|[|[|[|]]]].
rewrite grid_cells_types map_nseq mkseq_nseq n_plot_boundariesE //.
by congr (nseq _ (decimal _)); rewrite /boundary_element_id /vtk_type; case: (d) d_range => [|[|[|[|]]]].
Qed.
Lemma offsets_words : words (offsets_text W edges d n_sub o) =
  [seq decimal v | v <- scanl addn 0 [seq size c.2 | c : cell <- plot_cells]].
Proof.
have bound a b k : a < k -> k * b <= n_conn -> (b * a.+1) < W.
  by move=> h1 h2; apply: leq_ltn_trans conn_W; apply: leq_trans h2; rewrite mulnC leq_mul2r h1 orbT.
rewrite [words _]two_loops_words.
have -> : [seq size c.2 | c : cell <- plot_cells] =
    (if plot_edges o then nseq (m * n_sub ^ d) (2 ^ d) else [::]) ++
    (if plot_edge_boundaries o then nseq (mb * n_sub ^ d.-1) (2 ^ d.-1) else [::]).
  by rewrite map_cat; congr cat; case: ifP => // _; exact: grid_cells_sizes.
have h1 : plot_edges o -> m * n_sub ^ d * 2 ^ d <= n_conn by move=> h; rewrite /S_Plot.n_conn h leq_addr.
case he: (plot_edges o).
  rewrite he in h1; rewrite scanl_nseq map_cat add0n; congr cat.
    rewrite n_plot_edgesE // -map_comp; apply/eq_in_map => i; rewrite mem_iota add0n /= => hi.
    by rewrite addn0 modn_small // (bound i _ _ hi) // h1.
  case hb: (plot_edge_boundaries o) => //.
  rewrite -[nseq _ _]cats0 scanl_nseq /= cats0 n_plot_boundariesE // n_plot_edgesE //.
  have hc := conn_W; rewrite /S_Plot.n_conn he hb in hc.
  rewrite -map_comp; apply/eq_in_map => i; rewrite mem_iota add0n /= => hi; congr decimal.
  have h3 : 2 ^ d.-1 * i.+1 <= mb * n_sub ^ d.-1 * 2 ^ d.-1 by rewrite mulnC leq_mul2r hi orbT.
  rewrite /n_vertices (modn_small (_ : 2 ^ d * _ < W)); last by rewrite mulnC; lia.
  by rewrite modn_small ?(mulnC (2 ^ d)) //; lia.
case hb: (plot_edge_boundaries o) => //=.
rewrite -[nseq _ _]cats0 scanl_nseq /= cats0 n_plot_boundariesE //.
have hc := conn_W; rewrite /S_Plot.n_conn he hb in hc.
rewrite -map_comp; apply/eq_in_map => i; rewrite mem_iota add0n /= => hi; congr decimal.
have h3 : 2 ^ d.-1 * i.+1 <= mb * n_sub ^ d.-1 * 2 ^ d.-1 by rewrite mulnC leq_mul2r hi orbT.
by rewrite /n_vertices !addn0 modn_small //; lia.
Qed.
End Arrays.
