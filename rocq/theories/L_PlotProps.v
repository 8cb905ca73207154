(** The cells of the subdivision; numbers of values; when plotting succeeds; sequences of plots. *)
From Coq Require Import Ascii String.
From mathcomp Require Import all_ssreflect all_algebra zify.
From Verif Require Import M_Base L_Base M_Index S_Index L_Index M_Text S_ReadDomain L_Text M_ReadDomain M_Plot S_Plot
  S_PlotOptions L_PlotText L_PlotGrid L_PlotFile L_PlotTags L_PlotArrays L_PlotMain L_PlotValues L_PlotTop L_PlotOptions.
Set Implicit Arguments. Unset Strict Implicit. Unset Printing Implicit Defensive.

(** ** Cells *)
Lemma digit_compose r cs k : all (fun x => x < r) cs -> k < size cs -> digit_of r (compose r cs) k = nth 0 cs k.
Proof.
rewrite /digit_of; elim: cs k => [//|x cs IH] [|k] /= /andP[hx hcs] hk.
  by rewrite expn0 divn1 mulnC addnC modnMDl modn_small.
have hr : 0 < r by exact: leq_ltn_trans hx.
have -> : (x + r * compose r cs) %/ r ^ k.+1 = compose r cs %/ r ^ k.
  by rewrite expnS divnMA (mulnC r) addnC divnMDl // (divn_small hx) addn0.
exact: IH.
Qed.
Lemma nth_flatten_const (A B : Type) (x0 : B) (y0 : A) (f : A -> seq B) k (l : seq A) i j :
  (forall x, size (f x) = k) -> i < size l -> j < k ->
  nth x0 (flatten [seq f x | x <- l]) (i * k + j) = nth x0 (f (nth y0 l i)) j.
Proof.
move=> hf; elim: l i => [//|x l IH] [|i] hi hj /=; rewrite nth_cat hf.
  by rewrite mul0n add0n hj.
have -> : i.+1 * k + j < k = false by rewrite mulSn; lia.
have -> : i.+1 * k + j - k = i * k + j by rewrite mulSn; lia.
by rewrite IH.
Qed.
Lemma size_flatten_const (A B : Type) (f : A -> seq B) k (l : seq A) :
  (forall x, size (f x) = k) -> size (flatten [seq f x | x <- l]) = size l * k.
Proof. by move=> hf; elim: l => [//|x l IH] /=; rewrite size_cat hf IH mulSn. Qed.
Lemma nth_grid_cells n d m off i cs : i < m -> size cs = d -> all (fun x => x < n.-1) cs ->
  nth (0, [::]) (grid_cells n d m off) (i * n.-1 ^ d + compose n.-1 cs) =
  (vtk_type d, [seq off + i * n ^ d + compose n [seq nth 0 cs k + digit_of 2 v k | k <- iota 0 d] | v <- iota 0 (2 ^ d)]).
Proof.
move=> hi hs hc; have hlt : compose n.-1 cs < n.-1 ^ d by rewrite -hs; exact: compose_lt.
rewrite (@nth_flatten_const _ _ _ 0) ?size_iota // => [|x]; last by rewrite size_map size_iota.
rewrite (nth_map 0) ?size_iota // !nth_iota // !add0n /grid_cell; congr pair.
apply: eq_map => v; rewrite /grid_corner; congr (_ + compose _ _); apply/eq_in_map => k.
by rewrite mem_iota => /andP[_ hk]; rewrite digit_compose // hs.
Qed.
Lemma digit_sum_lt n d cs v : size cs = d -> all (fun x => x < n.-1) cs ->
  compose n [seq nth 0 cs k + digit_of 2 v k | k <- iota 0 d] < n ^ d.
Proof.
move=> hs hc; set t := map _ _; have hst : size t = d by rewrite size_map size_iota.
rewrite -[X in _ < _ ^ X]hst; apply: compose_lt; apply/allP => x /mapP[k]; rewrite mem_iota add0n => /andP[_ hk] ->.
have := allP hc (nth 0 cs k) (mem_nth _ _); rewrite hs => /(_ hk).
have : digit_of 2 v k < 2 by exact: ltn_pmod.
by lia.
Qed.
Lemma grid_cells_nth n d m c : c < m * n.-1 ^ d -> exists i cs, [/\ i < m, size cs = d, all (fun x => x < n.-1) cs &
  c = i * n.-1 ^ d + compose n.-1 cs].
Proof.
move=> hc; have hp : 0 < n.-1 ^ d by case: (posnP (n.-1 ^ d)) hc => // ->; rewrite muln0.
exists (c %/ n.-1 ^ d), (digits d (c %% n.-1 ^ d) n.-1).
have hlt := ltn_pmod c hp.
have hd : d = 0 \/ 0 < n.-1.
  by case: (posnP n.-1) hp => [->|]; [case: (d) => [|k]; [left|rewrite exp0n] | right].
split.
- by rewrite ltn_divLR.
- by rewrite size_digits.
- case: hd => [->|hn]; [by []| exact: all_digits].
case: hd => [->|hn]; first by rewrite !expn0 muln1 /= !divn1 addn0.
by rewrite compose_digits // -divn_eq.
Qed.

Section Props.
Variables (F : realFieldType) (W : nat) (asserts : bool).
Variables (E : Type) (edges : seq (seq nat * E)).
Variables (d space_dim n_sub : nat).
Variable show : F -> text.
Variable lexicographic : E -> nat -> seq F -> outcome (seq F).
Variable boundary_lexicographic : E -> nat -> nat -> F -> seq F -> outcome (seq F).
Variables (n_dofs system_dim node_system_dim : nat).
Variable bulk_values : E -> seq F -> seq (seq F) -> outcome (seq (seq F)).
Implicit Types (o : plot_options F) (lambda : seq F).
Local Notation n := n_sub.+1.
Local Notation m := (size edges).
Local Notation mb := (m * (2 * d)).
Local Notation vtu_text := (vtu_text W asserts edges d space_dim n_sub show lexicographic boundary_lexicographic
  n_dofs system_dim node_system_dim bulk_values).
Local Notation plot := (plot W asserts edges d space_dim n_sub show lexicographic boundary_lexicographic
  n_dofs system_dim node_system_dim bulk_values).
Local Notation plot_points := (plot_points edges d n_sub lexicographic boundary_lexicographic).
Local Notation plot_cells := (plot_cells edges d n_sub).

(** Cells and points. *)
Lemma size_grid m' dim off : size (grid_cells n dim m' off) = m' * n_sub ^ dim.
Proof. by rewrite size_grid_cells. Qed.
Lemma edge_cell o sub bsub e0 i cs v : plot_edges o -> i < m -> size cs = d -> all (fun x => x < n_sub) cs -> v < 2 ^ d ->
  let c := nth (0, [::]) (plot_cells o) (i * n_sub ^ d + compose n_sub cs) in
  [/\ c.1 = vtk_type d, size c.2 = 2 ^ d & nth UB (plot_points o sub bsub) (nth 0 c.2 v) =
    lexicographic (nth e0 edges i).2 (compose n [seq nth 0 cs k + digit_of 2 v k | k <- iota 0 d]) sub].
Proof.
move=> he hi hs hc hv; rewrite /S_Plot.plot_cells he nth_cat size_grid.
have hlt : compose n_sub cs < n_sub ^ d by rewrite -hs; exact: compose_lt.
have -> : i * n_sub ^ d + compose n_sub cs < m * n_sub ^ d.
  by apply: (@leq_trans (i.+1 * n_sub ^ d)); rewrite ?leq_mul2r ?hi ?orbT // mulSn addnC ltn_add2r.
rewrite (@nth_grid_cells n d m 0) //= size_map size_iota; split=> //.
rewrite (nth_map 0) ?size_iota // nth_iota // !add0n.
have hp := @digit_sum_lt n d cs v hs hc; move: hp; set p := compose _ _ => hp.
rewrite /S_Plot.plot_points he nth_cat (@size_flatten_const _ _ _ (n ^ d)) => [|x]; last by rewrite size_map size_iota.
have -> : i * n ^ d + p < m * n ^ d.
  by apply: (@leq_trans (i.+1 * n ^ d)); rewrite ?leq_mul2r ?hi ?orbT // mulSn addnC ltn_add2r.
rewrite (@nth_flatten_const _ _ _ e0) // => [|x]; last by rewrite size_map size_iota.
by rewrite (nth_map 0) ?size_iota // nth_iota.
Qed.
Lemma boundary_cell o sub bsub e0 i b cs v : plot_edge_boundaries o -> i < m -> b < 2 * d -> size cs = d.-1 ->
  all (fun x => x < n_sub) cs -> v < 2 ^ d.-1 ->
  let first := if plot_edges o then m * n_sub ^ d else 0 in
  let c := nth (0, [::]) (plot_cells o) (first + (i * (2 * d) + b) * n_sub ^ d.-1 + compose n_sub cs) in
  [/\ c.1 = vtk_type d.-1, size c.2 = 2 ^ d.-1 & nth UB (plot_points o sub bsub) (nth 0 c.2 v) =
    boundary_lexicographic (nth e0 edges i).2 (compose n [seq nth 0 cs k + digit_of 2 v k | k <- iota 0 d.-1])
      b (boundary_scale o) bsub].
Proof.
move=> hb hi hbd hs hc hv; rewrite /S_Plot.plot_cells hb.
have hlt : compose n_sub cs < n_sub ^ d.-1 by rewrite -hs; exact: compose_lt.
have hib : i * (2 * d) + b < mb.
  by apply: (@leq_trans (i.+1 * (2 * d))); rewrite ?leq_mul2r ?hi ?orbT // mulSn addnC ltn_add2r.
cbv zeta; set first := (if plot_edges o then m * n_sub ^ d else 0).
rewrite nth_cat; have -> : size (if plot_edges o then grid_cells n d m 0 else [::]) = first.
  by rewrite /first; case: (plot_edges o); rewrite ?size_grid.
rewrite -addnA ltnNge leq_addr /= addKn; set off := (if plot_edges o then m * n ^ d else 0).
rewrite (@nth_grid_cells n d.-1 mb off) //= size_map size_iota; split=> //.
rewrite (nth_map 0) ?size_iota // nth_iota // !add0n.
have hp := @digit_sum_lt n d.-1 cs v hs hc; move: hp; set p := compose _ _ => hp.
rewrite /S_Plot.plot_points hb nth_cat.
have -> : size (if plot_edges o then flatten [seq edge_points d n_sub lexicographic sub e | e <- edges] else [::]) = off.
  rewrite /off; case: (plot_edges o) => //; rewrite (@size_flatten_const _ _ _ (n ^ d)) // => x.
  by rewrite size_map size_iota.
rewrite -addnA ltnNge leq_addr /= addKn.
have -> : (i * (2 * d) + b) * n ^ d.-1 + p = i * (2 * d * n ^ d.-1) + (b * n ^ d.-1 + p).
  by rewrite mulnDl -mulnA addnA.
rewrite (@nth_flatten_const _ _ _ e0) //.
- rewrite /boundary_points (@nth_flatten_const _ _ _ 0) ?size_iota // => [|x]; last by rewrite size_map size_iota.
  by rewrite (nth_map 0) ?size_iota // !nth_iota.
- by move=> x; rewrite size_allpairs !size_iota.
by apply: (@leq_trans (b.+1 * n ^ d.-1)); rewrite ?leq_mul2r ?hbd ?orbT // mulSn addnC ltn_add2r.
Qed.

(** Numbers of values. *)
Lemma size_corner_words vs c : size (corner_words show system_dim node_system_dim vs c) = maxn system_dim node_system_dim.
Proof. by rewrite size_cat size_map size_iota size_nseq maxnE. Qed.
Lemma size_boundary_words : size (boundary_words d show system_dim node_system_dim) =
  2 ^ d.-1 * node_system_dim + (system_dim - node_system_dim).
Proof. by rewrite size_cat !size_nseq. Qed.
Lemma size_edge_words lambda sub e :
  size (edge_words d show n_dofs system_dim node_system_dim bulk_values lambda sub e) = 2 ^ d * maxn system_dim node_system_dim.
Proof.
rewrite /edge_words (@size_flatten_const _ _ _ (maxn system_dim node_system_dim)) ?size_iota // => c.
by rewrite size_map size_corner_words.
Qed.
Lemma size_plot_values o lambda :
  size (plot_values edges d n_sub show o n_dofs system_dim node_system_dim bulk_values lambda) =
  (if plot_edges o then m * 2 ^ d * maxn system_dim node_system_dim else 0) +
  (if plot_edge_boundaries o then mb * (2 ^ d.-1 * node_system_dim + (system_dim - node_system_dim)) else 0).
Proof.
rewrite size_cat; congr addn; case: ifP => // _.
  by rewrite (@size_flatten_const _ _ _ (2 ^ d * maxn system_dim node_system_dim)) ?mulnA // => e; rewrite size_edge_words.
by rewrite size_flatten /shape map_nseq sumn_nseq size_boundary_words mulnC.
Qed.
Lemma values_count o lambda : n_sub = 1 -> (plot_edge_boundaries o -> d = 1 \/ system_dim <= node_system_dim) ->
  size (plot_values edges d n_sub show o n_dofs system_dim node_system_dim bulk_values lambda) =
  n_pts edges d n_sub o * maxn system_dim node_system_dim.
Proof.
move=> hn hb; rewrite size_plot_values /n_pts hn mulnDl; congr addn; first by case: (plot_edges o); rewrite ?mulnA.
case: (plot_edge_boundaries o) hb => [/(_ isT) hb|//]; rewrite -!mulnA; congr (m * (2 * (d * _))).
case: hb => [->|hb]; first by rewrite !expn0 !mul1n; lia.
by rewrite (maxn_idPr hb) (eqP (_ : system_dim - node_system_dim == 0)) ?addn0 // subn_eq0.
Qed.
Lemma numbers_count o : n_sub = 1 \/ ~~ plot_edge_boundaries o ->
  size (cell_numbers edges d n_sub o) = size (plot_cells o).
Proof.
move=> h; rewrite !size_cat; congr addn; case: ifP => // hb.
  by rewrite size_allpairs !size_iota size_grid.
rewrite size_allpairs !size_iota size_grid; case: h => [->|]; first by rewrite !exp1n.
by rewrite hb.
Qed.

(** Success. *)
Lemma outo_ok k (f : nat -> outcome text) : (forall i, i < k -> is_ok (f i)) -> is_ok (outo_loop k f).
Proof. by move=> h; rewrite (@outo_loopE _ _ (fun i => oval [::] (f i))) // => i hi; apply: is_okE; exact: h. Qed.
Lemma edges_ok (l : seq (seq nat * E)) (h : seq nat * E -> outcome text) : all (fun e => is_ok (h e)) l ->
  is_ok (outo_loop (size l) (fun i => obind (load l i) h)).
Proof.
case: l => [//|e0 es]; set l := e0 :: es => hl; apply: outo_ok => i hi.
by rewrite (load_out e0 hi) /=; exact: (all_nthP e0 hl).
Qed.
Lemma omap_ok (A B : Type) (f : A -> B) (x : outcome A) : is_ok (omap f x) = is_ok x.
Proof. by case: x. Qed.
Lemma obind_ok (A B : Type) (x0 : A) (f : A -> outcome B) (x : outcome A) : is_ok x -> is_ok (f (oval x0 x)) -> is_ok (obind x f).
Proof. by case: x. Qed.

Hypothesis d_range : 0 < d <= 3.
Variable o : plot_options F.
Hypothesis pow_W : n ^ d < W.
Hypothesis pts_W : n_pts edges d n_sub o < W.
Hypothesis conn_W : n_conn edges d n_sub o < W.
Hypothesis no_vertex_cells : plot_edge_boundaries o -> d = 1 -> n_sub = 1.

Lemma points_ok sub bsub : all (@is_ok _) (plot_points o sub bsub) ->
  is_ok (points_text W edges d space_dim n_sub show lexicographic boundary_lexicographic o sub bsub).
Proof.
rewrite /S_Plot.plot_points all_cat => /andP[h1 h2]; rewrite /points_text (ppeE pow_W) (ppbE pow_W).
have H (h : E -> outcome text) : all (fun e : seq nat * E => is_ok (h e.2)) edges ->
    is_ok (outo_loop m (fun he => obind (omap snd (load edges he)) h)).
  move=> hh; have := hh; case: edges => [//|e0 es]; set l := e0 :: es => hl; apply: outo_ok => i hi.
  by rewrite (load_out e0 hi) /=; exact: (all_nthP e0 hl).
apply: (@obind_ok text _ [::]).
  case: (plot_edges o) h1 => // h1; apply: H; elim: edges h1 => [//|e es IH] /=; rewrite all_cat => /andP[he /IH ->].
  rewrite andbT; apply: outo_ok => i hi; rewrite omap_ok.
  by move: he; rewrite all_map => /allP; apply; rewrite mem_iota.
apply: (@obind_ok text _ [::]) => //.
case: (plot_edge_boundaries o) h2 => // h2; apply: H; elim: edges h2 => [//|e es IH] /=; rewrite all_cat => /andP[he /IH ->].
rewrite andbT; apply: outo_ok => b hb; apply: outo_ok => i hi; rewrite omap_ok.
move: he; rewrite all_flatten all_map => /allP /(_ b); rewrite mem_iota hb => /(_ isT) /=.
by rewrite all_map => /allP; apply; rewrite mem_iota.
Qed.
Variable lambda : seq F.
Hypothesis nodes_size : all (fun e : seq nat * E => size e.1 == 2 * d) edges.
Definition dofs_in (e : seq nat * E) : bool := all (fun node => node * n_dofs + n_dofs <= size lambda) e.1.
Lemma edge_dofs_ok hyNodes : size hyNodes = 2 * d -> all (fun node => node * n_dofs + n_dofs <= size lambda) hyNodes ->
  edge_dof_values d n_dofs hyNodes lambda = Ok (local_dofs n_dofs lambda hyNodes).
Proof.
move=> hs ha; have hok : is_ok (edge_dof_values d n_dofs hyNodes lambda).
  rewrite /edge_dof_values /foro.
  suff H k s : k <= 2 * d -> is_ok (foldo (fun k dofs => obind (get_dof_values n_dofs (nth 0 hyNodes k) lambda) (fun v =>
      Ok (upd dofs k v))) s (iota (2 * d - k) k)) by have := H _ (nseq (2 * d) [::]) (leqnn (2 * d)); rewrite subnn.
  elim: k s => [//|k IH] s hk /=; rewrite /get_dof_values.
  have -> : nth 0 hyNodes (2 * d - k.+1) * n_dofs + n_dofs <= size lambda.
    by apply: (all_nthP 0 ha); rewrite hs; clear -hk; lia.
  have -> : (2 * d - k.+1).+1 = 2 * d - k by clear -hk; lia.
  exact: IH (ltnW hk).
rewrite (is_okE [::] hok); congr Ok.
by apply: edge_dofs hs _; rewrite -(is_okE [::] hok).
Qed.
Lemma values_ok : all dofs_in edges ->
  (plot_edges o -> all (fun e : seq nat * E => is_ok (bulk_values e.2 (abscissas_of n_sub o) (local_dofs n_dofs lambda e.1))) edges) ->
  (plot_edge_boundaries o -> asserts -> d = 1 \/ node_system_dim <= n ^ d.-1) ->
  is_ok (values_of asserts edges d n_sub show n_dofs system_dim node_system_dim bulk_values o lambda).
Proof.
move=> hd hbulk hb; rewrite /values_of; apply: (@obind_ok text _ [::]).
  case: (plot_edges o) hbulk => // /(_ isT) hbulk; apply: edges_ok.
  elim: edges nodes_size hd hbulk => [//|e es IH] /= /andP[/eqP hs hss] /andP[hd hds] /andP[hbe hbes].
  rewrite IH // andbT edge_dofs_ok //=.
  by move: hbe; case: (bulk_values _ _ _).
rewrite omap_ok; case: (plot_edge_boundaries o) hb => // /(_ isT) hb; apply: edges_ok.
elim: edges nodes_size hd => [//|e es IH] /= /andP[/eqP hs hss] /andP[hd hds].
rewrite IH // andbT edge_dofs_ok // obind_Ok; apply: outo_ok => b _.
apply: (@obind_ok unit _ tt) => //; rewrite /foro.
have : all (fun k => k < node_system_dim) (iota 0 node_system_dim) by apply/allP => k; rewrite mem_iota.
elim: (iota 0 node_system_dim) => [//|k l IHl] /= /andP[hk hl].
have hk' : asserts -> is_ok (tensorial_pt 0%R d.-1 k (boundary_abscissas_of n_sub o)); last first.
  apply: (@obind_ok unit _ tt); last by case: (oval _ _); exact: IHl.
  by case: (asserts) hk' => // /(_ isT); rewrite omap_ok.
move=> /hb {}hb; rewrite /tensorial_pt; case: eqP => [//|/eqP hd0].
have [dec [-> _ _ _]] //: exists dec, [/\ index_decompose d.-1 k (size (boundary_abscissas_of n_sub o)) = Ok dec,
    size dec = d.-1, all (fun x => x < size (boundary_abscissas_of n_sub o)) dec & compose (size (boundary_abscissas_of n_sub o)) dec = k].
  rewrite size_mkseq; apply: decompose_ok; rewrite ?lt0n //.
  case: hb => [h1|h1]; first by rewrite h1 in hd0.
  exact: leq_trans h1.
Qed.
Lemma vtu_text_ok : all (@is_ok _) (plot_points o (abscissas_of n_sub o) (boundary_abscissas_of n_sub o)) ->
  (system_dim != 0 ->
   [/\ all dofs_in edges,
       plot_edges o -> all (fun e : seq nat * E => is_ok (bulk_values e.2 (abscissas_of n_sub o) (local_dofs n_dofs lambda e.1))) edges
     & plot_edge_boundaries o -> asserts -> d = 1 \/ node_system_dim <= n ^ d.-1]) ->
  is_ok (vtu_text o lambda).
Proof.
move=> hp hv; rewrite /M_Plot.vtu_text; apply: (@obind_ok text _ [::]).
  rewrite /geometry_text; have [s [-> _ _ _]] := connectivity_words d_range pts_W conn_W pow_W no_vertex_cells.
  rewrite omap_ok; apply: (@obind_ok text _ [::]); first exact: points_ok.
  by rewrite /hassert (n_plot_pointsE pts_W pow_W) eqxx.
apply: (@obind_ok text _ [::]) => //; case: (boolP (system_dim == 0)) => // hs.
have [h1 h2 h3] := hv hs; move: (values_ok h1 h2 h3); rewrite /values_of.
case: (if plot_edges o then _ else _) => [a|||] //; rewrite !obind_Ok omap_ok.
by case: (if plot_edge_boundaries o then _ else _).
Qed.
End Props.

(** ** Sequences of plots *)
Section Plots.
Variables (F : realFieldType) (W : nat) (A : Type).
Variable plot : plot_options F -> A -> outcome (plot_options F * (text * text)).
Hypothesis plot_step : forall o l r, plot o l = Ok r ->
  r.1 = (if incrementFileNumber o then set_fileNumber ((fileNumber o).+1 %% W) o else o) /\ r.2.1 = file_name o.
Hypothesis W0 : 0 < W.
Lemma plots_names o ls o' fs : fileNumber o < W -> plots plot o ls = Ok (o', fs) ->
  o' = (if incrementFileNumber o then set_fileNumber ((fileNumber o + size ls) %% W) o else o) /\
  [seq f.1 | f <- fs] = [seq file_name (if incrementFileNumber o then set_fileNumber ((fileNumber o + i) %% W) o else o)
                        | i <- iota 0 (size ls)].
Proof.
elim: ls o o' fs => [|l ls IH] o o' fs hW /=.
  case=> <- <-; rewrite addn0 modn_small //; by split=> //; case: (o) => ? ? ? ? [].
case E: (plot o l) => [r|||] //=; have [h1 h2] := plot_step E.
case E2: (plots plot r.1 ls) => [[o2 fs2]|||] //= [<- <-].
have hr : fileNumber r.1 < W by rewrite h1; case: (incrementFileNumber o) => //=; exact: ltn_pmod.
have [{}IH1 IH2] := IH _ _ _ hr E2; split.
  rewrite IH1 h1; case hi: (incrementFileNumber o); rewrite ?hi // /=.
  by rewrite modnDml addSnnS.
rewrite /= h2 addn0 modn_small //; congr cons; first by case: (o) => ? ? ? ? [].
rewrite IH2 h1 (iotaDl 1 0) -map_comp; apply: eq_map => i /=.
case hi: (incrementFileNumber o); rewrite ?hi // /=.
by rewrite modnDml addSnnS.
Qed.
Lemma plots_uniq o ls o' fs : fileNumber o < W -> incrementFileNumber o -> printFileNumber o -> size ls <= W ->
  plots plot o ls = Ok (o', fs) -> uniq [seq f.1 | f <- fs].
Proof.
move=> hW hi hp hs /(plots_names hW)[_ ->]; rewrite hi map_inj_in_uniq ?iota_uniq // => i j.
rewrite !mem_iota !add0n => hi' hj' h.
have /= := file_name_inj _ _ _ _ h; rewrite hp => /(_ erefl erefl isT isT) e.
apply/eqP; rewrite -(modn_small (leq_trans hi' hs)) -(modn_small (leq_trans hj' hs)).
by rewrite -(eqn_modDl (fileNumber o)) e.
Qed.
End Plots.
