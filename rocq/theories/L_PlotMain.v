(** What a plot file says. *)
From Coq Require Import Ascii String.
From mathcomp Require Import all_ssreflect all_algebra zify.
From Verif Require Import M_Base L_Base M_Index S_Index L_Index M_Text S_ReadDomain L_Text M_Plot S_Plot L_PlotText
  L_PlotGrid L_PlotFile L_PlotTags L_PlotArrays.
Set Implicit Arguments. Unset Strict Implicit. Unset Printing Implicit Defensive.

Lemma is_okE (A : Type) (x0 : A) (x : outcome A) : is_ok x -> x = Ok (oval x0 x).
Proof. by case: x. Qed.

Lemma load_out (T : Type) (s : seq T) i x0 : i < size s -> load s i = Ok (nth x0 s i).
Proof. by move=> h; rewrite /load (drop_nth x0 h). Qed.
Lemma loop_edges (T : Type) (edges : seq T) (h : T -> outcome text) s :
  outo_loop (size edges) (fun i => obind (load edges i) h) = Ok s ->
  all (fun e => is_ok (h e)) edges /\ s = flatten [seq oval [::] (h e) | e <- edges].
Proof.
move=> /outo_loop_ok[h1 ->]; rewrite out_loopE; case: edges h1 => [//|x0 es]; set edges := x0 :: es => h1.
have h2 i : i < size edges -> h (nth x0 edges i) = Ok (oval [::] (h (nth x0 edges i))).
  by move=> hi; have := h1 i hi; rewrite (load_out x0 hi) /=.
split.
  by apply/(all_nthP x0) => i hi; rewrite h2.
congr flatten; rewrite -[in RHS](mkseq_nth x0 edges) -map_comp.
apply/eq_in_map => i; rewrite mem_iota => /andP[_ hi].
by rewrite (@load_out _ edges i x0 hi).
Qed.
Lemma loop_words k (f : nat -> outcome text) s : outo_loop k f = Ok s ->
  (forall i, i < k -> is_ok (f i)) /\ s = flatten (mkseq (fun i => oval [::] (f i)) k).
Proof. by move=> /outo_loop_ok[h1 ->]; rewrite out_loopE; split=> // i /h1 ->. Qed.
Lemma flatten_nested (A B C : Type) (f : A -> seq B) (g : B -> seq C) (s : seq A) :
  flatten [seq flatten [seq g y | y <- f x] | x <- s] = flatten [seq g y | y <- flatten [seq f x | x <- s]].
Proof. by elim: s => [//|x s IH] /=; rewrite map_cat flatten_cat IH. Qed.

Lemma all_flatten (A : Type) (p : pred A) (ss : seq (seq A)) : all p (flatten ss) = all (all p) ss.
Proof. by elim: ss => [//|s ss IH] /=; rewrite all_cat IH. Qed.

Section Points.
Variables (F : realFieldType) (W : nat).
Variables (E : Type) (edges : seq (seq nat * E)).
Variables (d space_dim n_sub : nat).
Variable show : F -> text.
Variable lexicographic : E -> nat -> seq F -> outcome (seq F).
Variable boundary_lexicographic : E -> nat -> nat -> F -> seq F -> outcome (seq F).
Variable o : plot_options F.
Local Notation n := n_sub.+1.
Local Notation m := (size edges).
Local Notation mb := (m * (2 * d)).
Hypothesis d_range : 0 < d <= 3.
Hypothesis space3 : space_dim <= 3.
Hypothesis show_word : float_word show.
Hypothesis pow_W : n ^ d < W.

Local Notation point_words := (point_words space_dim show).
Lemma size_point_words p : size (point_words p) = 3.
Proof. by rewrite size_cat size_map size_iota size_nseq subnKC. Qed.
Lemma show_loop k (f : nat -> F) : words (out_loop k (fun i => t_ "  " ++ show (f i))) = [seq show (f i) | i <- iota 0 k].
Proof.
rewrite words_out_loop_start // -[RHS](flatten1 (fun i => show (f i))); apply: eq_flatten => i _.
by rewrite words_pre // words_solid //; [exact: fw_nonempty show_word _ | exact: fw_word show_word _].
Qed.
Lemma show_notin k (f : nat -> F) : "<"%char \notin out_loop k (fun i => t_ "  " ++ show (f i)).
Proof. by apply: out_loop_notin => i _; apply: cat_notin => //; exact: fw_bracket. Qed.
Lemma const_loop k (w : text) : w != [::] -> solid w -> words (out_loop k (fun _ => t_ "  " ++ w)) = nseq k w.
Proof.
move=> h1 h2; rewrite words_out_loop_start // -(mkseq_nseq w) -[RHS]flatten1; apply: eq_flatten => i _.
by rewrite words_pre // words_solid.
Qed.
Lemma point_line_words p : words (point_line space_dim show p) = point_words p.
Proof.
rewrite /point_line words_pre // catA words_endl words_cat; last first.
  by rewrite (out_loop_starts (fun _ _ => _)) ?orbT.
rewrite show_loop; congr cat.
exact: (@const_loop _ (t_ "0.0")).
Qed.
Lemma point_line_ends p : ends_space (point_line space_dim show p).
Proof. by rewrite /point_line !catA; exact: ends_endl. Qed.
Lemma point_line_notin p : "<"%char \notin point_line space_dim show p.
Proof.
apply: cat_notin => //; apply: cat_notin; first exact: show_notin.
by apply: cat_notin => //; apply: out_loop_notin.
Qed.

(** The points written. *)
Local Notation edge_points := (edge_points d n_sub lexicographic).
Local Notation boundary_points := (boundary_points d n_sub boundary_lexicographic o).
Local Notation plot_points := (plot_points edges d n_sub lexicographic boundary_lexicographic o).
Lemma size_plot_points sub bsub : size (plot_points sub bsub) = n_pts edges d n_sub o.
Proof.
have H (f : seq nat * E -> seq (outcome (seq F))) k : (forall e, size (f e) = k) ->
    size (flatten [seq f e | e <- edges]) = m * k.
  by move=> h; elim: (edges) => [//|e es IH] /=; rewrite size_cat h IH mulSn.
rewrite size_cat /n_pts; congr addn; case: ifP => // _.
  by apply: H => e; rewrite size_map size_iota.
by rewrite -mulnA; apply: H => e; rewrite size_allpairs !size_iota.
Qed.

Definition line_of (x : outcome (seq F)) : text := oval [::] (omap (point_line space_dim show) x).
Lemma lines_ok (l : seq (outcome (seq F))) : all (@is_ok _) l ->
  [/\ words (flatten [seq line_of x | x <- l]) = flatten [seq point_words (oval [::] x) | x <- l],
      ends_space (flatten [seq line_of x | x <- l]) & "<"%char \notin flatten [seq line_of x | x <- l]].
Proof.
elim: l => [//|x l IH] /andP[hx /IH[h1 h2 h3]]; case: x hx => [p _|||] //.
have -> : flatten [seq line_of x | x <- Ok p :: l] = point_line space_dim show p ++ flatten [seq line_of x | x <- l] by [].
split.
- by rewrite words_cat ?point_line_ends // h1 point_line_words.
- by apply: ends_space_cat2 => //; exact: point_line_ends.
- by apply: cat_notin => //; exact: point_line_notin.
Qed.
Lemma loop_lines k (f : nat -> outcome (seq F)) s :
  outo_loop k (fun i => omap (point_line space_dim show) (f i)) = Ok s ->
  all (@is_ok _) [seq f i | i <- iota 0 k] /\ s = flatten [seq line_of x | x <- [seq f i | i <- iota 0 k]].
Proof.
move=> /loop_words[h1 ->]; split; last by rewrite -map_comp.
rewrite all_map; apply/allP => i; rewrite mem_iota => /andP[_ hi] /=.
by move: (h1 i hi); case: (f i).
Qed.

Lemma points_words sub bsub s :
  points_text W edges d space_dim n_sub show lexicographic boundary_lexicographic o sub bsub = Ok s ->
  [/\ all (@is_ok _) (plot_points sub bsub),
      words s = flatten [seq point_words (oval [::] x) | x <- plot_points sub bsub],
      ends_space s & "<"%char \notin s].
Proof.
rewrite /points_text (ppeE pow_W) (ppbE pow_W).
set A := (if plot_edges o then _ else _); set B := (if plot_edge_boundaries o then _ else _).
case EA: A => [a|||] //=; case EB: B => [b|||] //= [<-].
pose la := if plot_edges o then flatten [seq edge_points sub e | e <- edges] else [::].
pose lb := if plot_edge_boundaries o then flatten [seq boundary_points bsub e | e <- edges] else [::].
have obindA (i : nat) (f : E -> outcome text) : obind (omap snd (load edges i)) f = obind (load edges i) (fun e => f e.2).
  by case: (load edges i).
have key (f : seq nat * E -> seq (outcome (seq F))) (h : E -> outcome text) s' :
    (forall e s, h e.2 = Ok s -> all (@is_ok _) (f e) /\ s = flatten [seq line_of x | x <- f e]) ->
    outo_loop m (fun i => obind (omap snd (load edges i)) h) = Ok s' ->
    all (@is_ok _) (flatten [seq f e | e <- edges]) /\
    s' = flatten [seq line_of x | x <- flatten [seq f e | e <- edges]].
  move=> hf; have -> : outo_loop m (fun i => obind (omap snd (load edges i)) h) =
      outo_loop m (fun i => obind (load edges i) (fun e => h e.2)).
    rewrite /outo_loop /foro; move: [::]; elim: (iota 0 m) => [//|i l IH] s0 /=.
    by rewrite obindA; case: (obind (load edges i) _) => //= y; exact: IH.
  move=> /loop_edges[hok ->]; split.
    rewrite all_flatten; elim: (edges) hok => [//|e es IH] /= /andP[he /IH ->]; rewrite andbT.
    by case: (hf e _ (is_okE [::] he)).
  rewrite -flatten_nested; congr flatten.
  elim: (edges) hok => [//|e es IH] /= /andP[he /IH ->].
  by have [_ <-] := hf e _ (is_okE [::] he).
have [ha1 ha2] : all (@is_ok _) la /\ a = flatten [seq line_of x | x <- la].
  move: EA; rewrite /A /la; case: (plot_edges o) => [|[<-] //].
  by apply: key => e s' /loop_lines.
have [hb1 hb2] : all (@is_ok _) lb /\ b = flatten [seq line_of x | x <- lb].
  move: EB; rewrite /B /lb; case: (plot_edge_boundaries o) => [|[<-] //].
  apply: key => e s' /loop_words[h1 ->]; split.
    rewrite all_flatten all_map; apply/allP => i; rewrite mem_iota => /andP[_ hi] /=.
    by case: (loop_lines (is_okE [::] (h1 i hi))).
  rewrite -flatten_nested; congr flatten; apply/eq_in_map => i; rewrite mem_iota => /andP[_ hi].
  by case: (loop_lines (is_okE [::] (h1 i hi))).
have -> : a ++ b = flatten [seq line_of x | x <- plot_points sub bsub].
  by rewrite map_cat flatten_cat ha2 hb2.
have hp : all (@is_ok _) (plot_points sub bsub) by rewrite all_cat; apply/andP.
by case: (lines_ok hp).
Qed.
End Points.
