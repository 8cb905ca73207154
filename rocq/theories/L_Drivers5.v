(** Eigenvalue drivers: index lists, symmetry, definiteness, and an example. *)
From mathcomp Require Import all_ssreflect all_algebra.
From mathcomp Require Import zify ring.
From Verif Require Import S_Lapack S_LocalSolver M_Base L_Base M_Global S_Global M_Lapack M_DiffusionUniform M_Diffusion.
From Verif Require Import S_Hdg S_GlobalParab M_DiffusionEigs S_DiffusionEigs S_GlobalEigs L_DiffusionUniform2 L_Lapack L_ParabEx L_EigsEx.
From Verif Require Import M_Drivers S_Drivers L_Drivers L_Drivers2 L_Drivers3 L_Newton.
Set Implicit Arguments. Unset Strict Implicit. Unset Printing Implicit Defensive.
Import Order.TTheory GRing.Theory Num.Theory.
Local Open Scope ring_scope.

Section Lists.
Variables (N : nat) (dir : seq nat).
Hypotheses (hs : sorted ltn dir) (hN : all (fun d => d < N)%N dir).
Lemma index_lists : exists ix, [/\ make_index N dir = Ok ix,
  size ix.1 = (N - size dir)%N, size ix.2 = N,
  forall i, (i < N - size dir)%N -> nth None ix.1 i = Some (nth 0%N (free_dofs N dir) i) &
  forall d, (d < N)%N -> nth None ix.2 d = if d \in dir then None else Some (index d (free_dofs N dir))].
Proof.
eexists; split; first exact: (make_indexE hs hN).
- by rewrite size_map size_free.
- by rewrite size_map size_iota.
- by move=> i hi; rewrite (nth_map 0%N) ?size_free.
move=> d hd; rewrite (nth_map 0%N) ?size_iota // nth_iota // add0n.
by case: ifP => // /negbT h; rewrite index_free.
Qed.
End Lists.

Section Ops.
Variables (F : realFieldType) (N : nat) (dir : seq nat) (ix : seq (option nat) * seq (option nat)).
Hypotheses (hs : sorted ltn dir) (hN : all (fun d => d < N)%N dir) (hix : make_index N dir = Ok ix).
Local Notation n' := (N - size dir)%N.
Implicit Types (v w x y k m : seq F).
Section One.
Variables (op : seq F -> outcome (seq F)) (A : seq F -> seq F).
Hypothesis hA : acts_as N op A.
Hypothesis hsym : forall x y, size x = N -> size y = N -> vanishes dir x -> vanishes dir y -> dot N (A x) y = dot N (A y) x.
Let sym (f : seq F -> outcome (seq F)) (c : F) :
  (forall v, size v = n' -> exists2 k, f v = Ok k & size k = n' /\ forall i, (i < n')%N -> nth 0 k i = c * row N dir A v i) ->
  forall v w k l, size v = n' -> size w = n' -> f v = Ok k -> f w = Ok l -> dot n' k w = dot n' l v.
Proof.
move=> H v w k l sv sw ek el; have [k' e1 [_ h1]] := H v sv; have [l' e2 [_ h2]] := H w sw.
move: e1 e2; rewrite ek el => -[e1] [e2]; subst k' l'.
have := row_sym hs hN v w c hsym; rewrite /dot => h.
rewrite (eq_bigr (fun i : 'I_n' => c * row N dir A v i * nth 0 w i)); last by move=> i _; rewrite h1.
by rewrite h; apply: eq_bigr => i _; rewrite h2.
Qed.
Lemma ma_stiff_sym v w k l : size v = n' -> size w = n' -> ma_stiff op ix v = Ok k -> ma_stiff op ix w = Ok l ->
  dot n' k w = dot n' l v.
Proof.
apply: (sym (c := -1)) => z hz; have [k' e [s h]] := ma_stiffE hs hN hix hA hz.
by exists k' => //; split=> // i hi; rewrite h // mulN1r.
Qed.
Lemma ma_mass_sym v w k l : size v = n' -> size w = n' -> ma_mass op ix v = Ok k -> ma_mass op ix w = Ok l ->
  dot n' k w = dot n' l v.
Proof.
apply: (sym (c := 1)) => z hz; have [k' e [s h]] := ma_massE hs hN hix hA hz.
by exists k' => //; split=> // i hi; rewrite h // mul1r.
Qed.
End One.
Lemma si_sym (flux : seq F -> F -> outcome (seq F)) sigma A v w k l :
  acts_as N (flux^~ sigma) A ->
  (forall x y, size x = N -> size y = N -> vanishes dir x -> vanishes dir y -> dot N (A x) y = dot N (A y) x) ->
  size v = n' -> size w = n' -> si_shifted flux sigma ix v = Ok k -> si_shifted flux sigma ix w = Ok l ->
  dot n' k w = dot n' l v.
Proof.
move=> hA hsym sv sw ek el.
have [k' e1 [_ h1]] := si_stiffE hs hN hix hA (fun x => erefl) sv; have [l' e2 [_ h2]] := si_stiffE hs hN hix hA (fun x => erefl) sw.
move: ek el; rewrite /si_shifted e1 e2 => -[e3] [e4]; subst k' l'.
have := row_sym hs hN v w (-1) hsym; rewrite /dot => h.
rewrite (eq_bigr (fun i : 'I_n' => -1 * row N dir A v i * nth 0 w i)); last by move=> i _; rewrite h1 // mulN1r.
by rewrite h; apply: eq_bigr => i _; rewrite h2 // mulN1r.
Qed.
Lemma ma_pos (op : seq F -> outcome (seq F)) A v k : acts_as N op A ->
  (forall x, size x = N -> vanishes dir x -> x != nseq N 0 -> dot N (A x) x < 0) ->
  size v = n' -> v != nseq n' 0 -> ma_stiff op ix v = Ok k -> 0 < dot n' k v.
Proof.
move=> hA hneg sv v0 ek; have [k' e1 [_ h1]] := ma_stiffE hs hN hix hA sv.
move: e1; rewrite ek => -[e1]; subst k'; have := row_neg hs hN hneg sv v0; rewrite /dot -oppr_gt0 -sumrN => h.
by rewrite (eq_bigr (fun i : 'I_n' => - (row N dir A v i * nth 0 v i))) // => i _; rewrite h1 // mulNr.
Qed.
Lemma si_pos (flux : seq F -> F -> outcome (seq F)) A v k : acts_as N (flux^~ 0) A ->
  (forall x, size x = N -> vanishes dir x -> x != nseq N 0 -> dot N (A x) x < 0) ->
  size v = n' -> v != nseq n' 0 -> si_stiff flux ix v = Ok k -> 0 < dot n' k v.
Proof.
move=> hA hneg sv v0; have [k' e1 [_ h1]] := si_stiffE hs hN hix hA (fun x => erefl) sv; rewrite /si_stiff e1 => -[e2]; subst k'.
have := row_neg hs hN hneg sv v0; rewrite /dot -oppr_gt0 -sumrN => h.
by rewrite (eq_bigr (fun i : 'I_n' => - (row N dir A v i * nth 0 v i))) // => i _; rewrite h1 // mulNr.
Qed.
End Ops.

Section Round.
Variables (F : realFieldType) (N : nat) (dir : seq nat) (ix : seq (option nat) * seq (option nat)).
Hypotheses (hs : sorted ltn dir) (hN : all (fun d => d < N)%N dir) (hix : make_index N dir = Ok ix).
Lemma short_long (v : seq F) : size v = (N - size dir)%N -> obind (long_vector ix v) (short_vector ix) = Ok v.
Proof.
move=> h; rewrite (long_vectorE hs hN hix h) /= (short_vectorE hs hN hix) ?size_extend //.
by rewrite restrict_extend.
Qed.
Lemma long_short (x : seq F) : size x = N -> vanishes dir x -> obind (short_vector ix x) (long_vector ix) = Ok x.
Proof.
move=> h h0; rewrite (short_vectorE hs hN hix h) /= (long_vectorE hs hN hix) ?size_restrict //.
by rewrite extend_restrict0.
Qed.
End Round.
Lemma newton_example (F : realFieldType) (a : F) :
  newton (fun v => `|nth 0 v 0|) (fun _ r _ => (r, 0%N)) (fun x => Ok x) [:: a] = Ok [:: 0].
Proof.
apply: (@newton_one F (fun v => `|nth 0 v 0|) _ _ (fun v => normr_ge0 _) [:: a] [:: a] [:: a] [:: 0] [:: 0]) => //.
  by rewrite /np_subtract /= subrr.
by rewrite /= normr0.
Qed.

(** Duplicates in the list of constrained unknowns. *)
Lemma duplicate_loses : make_index 3 [:: 0; 0]%N = Ok ([:: Some 1%N], [:: None; Some 0%N; None]).
Proof. by []. Qed.
Lemma unsorted_wrong : make_index 3 [:: 1; 0]%N = Ok ([:: Some 0%N], [:: Some 0%N; None; None]).
Proof. by []. Qed.
Lemma index_example : make_index 5 [:: 1; 3]%N = Ok ([:: Some 0%N; Some 2%N; Some 4%N],
  [:: Some 0%N; None; Some 1%N; None; Some 2%N]).
Proof. by []. Qed.

(** The eigenpair of L_EigsEx. *)
Section Pair.
Variable F : rcfType.
Notation PP := (fun _ : nat => oneP (fun=> 1 : F) [:: 1; 0]%N).
Lemma pair_regular : regular_all 1 0 1 pair_nodes PP (3%:R / 2%:R).
Proof.
move=> i _ q u [h1 h2]; have [hm hd he [hb ha']] := oneH (fun=> 1 : F) [:: 1; 0]%N (3%:R / 2%:R).
have q0 d : q d = 0.
  have := h1 d; rewrite hm hd mul0mx subr0 !big_ord_recl big_ord0 !mulmx0 !scaler0 !addr0 mul1mx => ->.
  by rewrite ?oppr0.
split=> //; move: h2; rewrite !big_ord_recl !big_ord0 !hd !he !hb !addr0 !q0 !mulmx0 !mul1mx.
move=> /colP/(_ 0) h; apply/colP => j; rewrite ord1 [RHS]mxE; move: h; rewrite !mxE /=.
move: (u 0 0) => a h; have h3 : (2%:R - 3%:R / 2%:R) * a = 0.
  by move/eqP: h; rewrite -subr_eq0 => /eqP h; rewrite -{}h; ring.
apply/eqP; move/eqP: h3; rewrite mulf_eq0 => /orP [|//] /eqP h3.
have : (1 : F) = 0 by rewrite -(mulr0 2%:R) -h3; field; by rewrite ?pnatr_eq0.
by move/eqP; rewrite oner_eq0.
Qed.
Lemma driver_example (ix := ([:: Some 1%N], [:: None; Some 0%N])) :
  let dir := dirichlet_indices 1 (fun i => de_node_types 1 [:: 1%N] (PP i)) [::] (indexed pair_nodes) in
  [/\ dir = [:: 0%N], make_index 2 dir = Ok ix, extend 2 dir [:: 1 : F] = [:: 0; 1],
  forall v, (v < 2)%N -> row_type v \in [:: 1%N] -> has (fun l => v \in l) pair_nodes &
  regular_all 1 0 1 pair_nodes PP (3%:R / 2%:R)] /\
  exists q u, eigenpair 1 0 [:: 1%N] 1 pair_nodes 2 row_type PP [:: 0; 1] (3%:R / 2%:R) q u.
Proof.
move=> dir; split; last by have [_ h] := pair_exists F; do 2 eexists; exact: h.
have e : dir = [:: 0%N] by [].
rewrite e; split=> //; last exact: pair_regular.
by case=> [|[|]].
Qed.
End Pair.
