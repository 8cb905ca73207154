(** The point data of a plot file; the whole file. *)
From Coq Require Import Ascii String.
From mathcomp Require Import all_ssreflect all_algebra zify.
From Verif Require Import M_Base L_Base M_Index S_Index L_Index M_Text S_ReadDomain L_Text M_Plot S_Plot L_PlotText
  L_PlotGrid L_PlotFile L_PlotTags L_PlotArrays L_PlotMain.
Set Implicit Arguments. Unset Strict Implicit. Unset Printing Implicit Defensive.

Section Values.
Variables (F : realFieldType) (W : nat) (asserts : bool).
Variables (E : Type) (edges : seq (seq nat * E)).
Variables (d space_dim n_sub : nat).
Variable show : F -> text.
Variable lexicographic : E -> nat -> seq F -> outcome (seq F).
Variable boundary_lexicographic : E -> nat -> nat -> F -> seq F -> outcome (seq F).
Variable o : plot_options F.
Variables (n_dofs system_dim node_system_dim : nat).
Variable bulk_values : E -> seq F -> seq (seq F) -> outcome (seq (seq F)).
Variable lambda : seq F.
Local Notation n := n_sub.+1.
Local Notation m := (size edges).
Local Notation mb := (m * (2 * d)).
Hypothesis d_range : 0 < d <= 3.
Hypothesis space3 : space_dim <= 3.
Hypothesis show_word : float_word show.
Hypothesis pow_W : n ^ d < W.
Hypothesis sys0 : system_dim != 0.
Hypothesis nodes_size : all (fun e : seq nat * E => size e.1 == 2 * d) edges.

Notation edge_dof_values := (edge_dof_values d n_dofs).
Notation local_dofs := (local_dofs n_dofs lambda).
Lemma edge_dofs (hyNodes : seq nat) v : size hyNodes = 2 * d -> edge_dof_values hyNodes lambda = Ok v -> v = local_dofs hyNodes.
Proof.
move=> hs; rewrite /M_Plot.edge_dof_values /foro.
suff H k : k <= 2 * d -> forall v', foldo (fun k dofs => obind (get_dof_values n_dofs (nth 0 hyNodes k) lambda) (fun v =>
    Ok (upd dofs k v))) (nseq (2 * d) [::]) (iota 0 k) = Ok v' ->
    size v' = 2 * d /\ forall i, i < k -> nth [::] v' i = [seq nth 0%R lambda (nth 0 hyNodes i * n_dofs + j) | j <- iota 0 n_dofs].
  move=> h; have [hv1 hv2] := H _ (leqnn _) _ h.
  apply: (@eq_from_nth _ [::]); first by rewrite size_map hs.
  by rewrite hv1 => i hi; rewrite hv2 // (nth_map 0) ?hs.
elim: k => [|k IH] hk v'; first by case=> <-; rewrite size_nseq.
rewrite -[in iota 0 _](addn1 k) iotaD foldo_cat add0n; case Ek: (foldo _ _ _) => [w|||] //=.
have [hw1 hw2] := IH (ltnW hk) _ Ek.
rewrite /get_dof_values; case: ifP => //= hlen [<-]; split; first by rewrite size_upd.
move=> i hi; rewrite nth_upd hw1 hk; case: (i =P k) => [->|hne].
  have -> : [seq nth 0%R lambda (nth 0 hyNodes k * n_dofs + j) | j <- iota 0 n_dofs] =
      mkseq (fun j => nth 0%R lambda (nth 0 hyNodes k * n_dofs + j)) n_dofs by [].
  apply: (@eq_from_nth _ 0%R); rewrite (@size_for_assign _ _ id) size_nseq ?size_mkseq // => j hj.
  by rewrite (@nth_for_assign_in _ 0%R n_dofs id (fun k0 _ => nth 0%R lambda (nth 0 hyNodes k * n_dofs + k0))) ?size_nseq // nth_mkseq.
by rewrite hw2 // ltn_neqAle -ltnS hi andbT; apply/eqP.
Qed.

Definition edge_line (values : seq (seq F)) : text :=
  t_ "      " ++
  out_loop (n_vertices d) (fun corner =>
    t_ "  " ++
    out_loop system_dim (fun k => t_ "  " ++ show (nth 0%R (nth [::] values k) corner)) ++
    out_loop (node_system_dim - system_dim) (fun _ => t_ "  " ++ t_ "0")) ++ endl.
Lemma corner_line values corner :
  words (t_ "  " ++ out_loop system_dim (fun k => t_ "  " ++ show (nth 0%R (nth [::] values k) corner)) ++
    out_loop (node_system_dim - system_dim) (fun _ => t_ "  " ++ t_ "0")) =
  corner_words show system_dim node_system_dim values corner.
Proof.
rewrite words_pre // words_cat; last by rewrite out_loop_starts // orbT.
by rewrite (show_loop show_word) const_loop.
Qed.
Lemma edge_line_words values : words (edge_line values) =
  [seq w | corner <- iota 0 (2 ^ d), w <- corner_words show system_dim node_system_dim values corner].
Proof.
rewrite /edge_line words_pre // words_endl words_out_loop_start //.
rewrite (eq_flatten (g := corner_words show system_dim node_system_dim values)); last by move=> i _; exact: corner_line.
by rewrite /mkseq; congr flatten; apply: eq_map => i; rewrite map_id.
Qed.
Lemma edge_line_ends values : ends_space (edge_line values).
Proof. by rewrite /edge_line !catA; exact: ends_endl. Qed.
Lemma edge_line_notin values : "<"%char \notin edge_line values.
Proof.
apply: cat_notin => //; apply: cat_notin => //; apply: out_loop_notin => i _; apply: cat_notin => //.
apply: cat_notin; first exact: show_notin.
exact: out_loop_notin.
Qed.
Definition boundary_line : text :=
  t_ "      " ++
  out_loop (n_vertices d.-1) (fun _ =>
    t_ "  " ++ out_loop node_system_dim (fun _ => t_ "  " ++ show 0%R)) ++
  out_loop (system_dim - node_system_dim) (fun _ => t_ "  " ++ t_ "0") ++ endl.
Lemma flatten_nseq (A : Type) (x : A) i j : flatten (nseq i (nseq j x)) = nseq (i * j) x.
Proof. by elim: i => [//|i IH] /=; rewrite IH mulSn nseqD. Qed.
Lemma boundary_line_words : words boundary_line = boundary_words d show system_dim node_system_dim.
Proof.
rewrite /boundary_line words_pre // catA words_endl words_cat; last by rewrite (out_loop_starts (n := _ - _)) ?orbT.
rewrite /boundary_words -[X in _ = _ ++ X](const_loop (system_dim - node_system_dim) (w := t_ "0")) //.
congr (_ ++ _); rewrite words_out_loop_start // -flatten_nseq -mkseq_nseq; apply: eq_flatten => i _.
rewrite words_pre // const_loop //; [exact: fw_nonempty show_word _ | exact: fw_word show_word _].
Qed.
Lemma boundary_line_ends : ends_space boundary_line.
Proof. by rewrite /boundary_line !catA; exact: ends_endl. Qed.
Lemma boundary_line_notin : "<"%char \notin boundary_line.
Proof.
apply: cat_notin => //; apply: cat_notin.
  by apply: out_loop_notin => i _; apply: cat_notin => //; exact: (show_notin show_word).
by apply: cat_notin => //; exact: out_loop_notin.
Qed.
Definition good (s : text) (ws : seq text) : Prop := [/\ words s = ws, ends_space s & "<"%char \notin s].
Lemma good_nil : good [::] [::]. Proof. by []. Qed.
Lemma good_cat s t ws wt : good s ws -> good t wt -> good (s ++ t) (ws ++ wt).
Proof.
case=> h1 h2 h3 [k1 k2 k3]; split; last exact: cat_notin.
  by rewrite words_cat ?h2 // h1 k1.
exact: ends_space_cat2.
Qed.
Lemma good_flatten (A : Type) (l : seq A) (f : A -> text) (g : A -> seq text) :
  (forall x, good (f x) (g x)) -> good (flatten [seq f x | x <- l]) (flatten [seq g x | x <- l]).
Proof.
move=> h; elim: l => [|x l IH]; first exact: good_nil.
exact: good_cat.
Qed.

Lemma obind_Ok (A B : Type) (x : A) (f : A -> outcome B) : obind (Ok x) f = f x. Proof. by []. Qed.
Lemma values_words s : values_of asserts edges d n_sub show n_dofs system_dim node_system_dim bulk_values o lambda = Ok s ->
  good s (plot_values edges d n_sub show o n_dofs system_dim node_system_dim bulk_values lambda).
Proof.
rewrite /values_of.
set A := (if plot_edges o then _ else _); set B := (if plot_edge_boundaries o then _ else _).
case EA: A => [a|||] //=; case EB: B => [b|||] //= [<-]; apply: good_cat.
  move: EA; rewrite /A; case: (plot_edges o) => [|[<-]]; last exact: good_nil.
  rewrite /edge_values_text; set abscissas := abscissas_of n_sub o; move=> /loop_edges[hok ->].
  elim: (edges) nodes_size hok => [|e es IH]; first by move=> _ _; exact: good_nil.
  case/andP=> /eqP hse hses /andP[he /(IH hses) hes]; apply: good_cat hes.
  move: he; rewrite /edge_words; case Ed: (M_Plot.edge_dof_values _ _ _ _) => [dofs|||] //=.
  rewrite (edge_dofs hse Ed); case: (bulk_values _ _ _) => [values|||] //= _.
  split; [exact: edge_line_words | exact: edge_line_ends | exact: edge_line_notin].
move: EB; rewrite /B; case: (plot_edge_boundaries o) => [|[<-]]; last exact: good_nil.
rewrite /boundary_values_text; move=> /loop_edges[hok ->].
have hb : good boundary_line (boundary_words d show system_dim node_system_dim).
  split; [exact: boundary_line_words | exact: boundary_line_ends | exact: boundary_line_notin].
elim: (edges) hok => [|e es IH]; first by move=> _; exact: good_nil.
case/andP=> he /IH hes; have -> : size (e :: es) = (size es).+1 by [].
rewrite mulSn nseqD flatten_cat; apply: good_cat hes.
move: he; case: (M_Plot.edge_dof_values _ _ _ _) => [dofs|||] //; rewrite !obind_Ok => /(is_okE [::]) /loop_words[hok].
move=> ->; rewrite (eq_flatten (g := fun _ => boundary_line)) => [|i hi]; last first.
  by have := hok i hi; case: (foro _ _ _).
rewrite mkseq_nseq -mulSn.
elim: (2 * d) => [|k IHk]; first exact: good_nil.
exact: good_cat hb IHk.
Qed.
Lemma words_wrap' t : words (endl ++ t ++ t_ "        ") = words t.
Proof.
rewrite words_pre // words_cat; last by rewrite orbT.
by rewrite cats0.
Qed.
Lemma numbers_notin : "<"%char \notin numbers_text W edges d n_sub o.
Proof.
apply: cat_notin; case: ifP => // _; do 2 (apply: out_loop_notin => ? _);
  by apply: cat_notin => //; exact: lt_decimal.
Qed.
Hypothesis pts_W : n_pts edges d n_sub o < W.
Lemma numbers_words : words (numbers_text W edges d n_sub o) = cell_numbers edges d n_sub o.
Proof.
have hp : hc_pow_w W d n_sub = n_sub ^ d.
  rewrite hc_pow_wE modn_small //; apply: leq_ltn_trans pow_W.
  by rewrite leq_exp2r //; case/andP: d_range.
rewrite /numbers_text hp words_cat; last first.
  by case: (plot_edge_boundaries o); rewrite ?orbT // out_loop_starts ?orbT // => i _; exact: out_loop_starts.
have H (c : text) k (g : nat -> nat) : all is_space c -> word_end c -> c != [::] ->
    words (out_loop k (fun i => out_loop (n_sub ^ d) (fun _ => c ++ decimal (g i)))) =
    flatten (mkseq (fun i => nseq (n_sub ^ d) (decimal (g i))) k).
  move=> h1 h2 h3; have hc x : word_end (c ++ x) by case: (c) h2 h3.
  rewrite words_out_loop_start => [|i _]; last by apply: out_loop_starts.
  apply: eq_flatten => i _; rewrite words_out_loop_start // -(mkseq_nseq (decimal _)) -[RHS]flatten1.
  by apply: eq_flatten => j _; rewrite words_pre // words_decimal.
have G (x : text) k : [seq x | _ <- iota 0 k] = nseq k x by rewrite -(mkseq_nseq x).
congr cat; case hb: (_ o) => //.
  by rewrite (H _ _ id) //; congr flatten; apply: eq_map => i; rewrite G.
rewrite (boundariesE pts_W hb) (H _ _ succn) //.
rewrite (iotaDl 1 0) -map_comp; congr flatten; apply: eq_map => i /=.
by rewrite G.
Qed.
End Values.
