(** Lexicographic points, barycenters and the in-place map of hyperedges. *)
From mathcomp Require Import all_ssreflect all_algebra zify.
From Verif Require Import M_Base L_Base M_DenseLA S_DenseLA L_DenseLA M_Index S_Index L_Index M_Topology S_Topology
  L_Topology L_Topology2 M_Geometry S_Geometry L_Geometry L_Geometry2 L_Geometry3 L_Geometry4 L_Geometry5
  L_Geometry11.
Set Implicit Arguments. Unset Strict Implicit. Unset Printing Implicit Defensive.
Import Order.TTheory GRing.Theory Num.Theory.
Local Open Scope ring_scope.

Lemma boundary_index s d b t : size t = d.-1 -> all (fun x => (x < s)%N) t -> (b < 2 * d)%N ->
  (s ^ d.-1 * b + compose s t < s ^ d.-1 * d * 2)%N.
Proof.
move=> hs ht hb; have := compose_lt ht; rewrite hs; move: (s ^ d.-1)%N (compose s t) => m k hk.
have : (m * b.+1 <= m * (2 * d))%N by rewrite leq_mul2l hb orbT.
by rewrite mulnS (mulnC 2%N) mulnA; lia.
Qed.

Section Grid.
Variable F : realFieldType.
Variables (enum : tpcc -> seq cell) (slice : nat -> seq nat -> nat).
Hypotheses (henum : tpcc_spec enum) (hslice : slice_spec slice).
Variables (d L : nat) (dims : seq nat).
Hypotheses (hd : (0 < d)%N) (hL : (0 < L)%N) (hpos : all (fun n => (0 < n)%N) dims).
Let T := cubic_refine enum L (cubic_new enum d dims).
Let G := ucube_refine L (ucube_new d dims).
Variables (idx : nat) (g : hgeo F).
Hypothesis hidx : (idx < cu_n_edges T)%N.
Hypothesis hg : ucube_at F enum G idx = Ok g.
Let n := size dims.
Let c := grid_cell enum d dims L idx.

Let gE : g = hgeo_of F (fine_dims L dims) c.
Proof. by move: hg; rewrite (at_Ok F henum hslice hL hpos hidx) => -[]. Qed.
Let cs : size c = size (fine_dims L dims). Proof. exact: (gc_size henum hslice hd hL hidx). Qed.
Let ca : n_along c = d. Proof. exact: (gc_along henum hslice hL hidx). Qed.
Let fn : size (fine_dims L dims) = n. Proof. by rewrite size_map. Qed.
Let fp : all (fun n => (0 < n)%N) (fine_dims L dims). Proof. exact: fine_dims_pos. Qed.
Let gd : g_d g = d. Proof. by rewrite gE g_dE. Qed.
Let gn : g_n g = n. Proof. by rewrite gE g_nE // fn. Qed.

Lemma grid_volume n_vec points : d = n -> size points = (n * n_vec)%N ->
  uc_map_volume g n_vec points = uc_map g n_vec points.
Proof. by move=> h hs; rewrite gE uc_map_volumeE // ?fn ?ca. Qed.

Let one points : size points = d ->
  (if g_d g == g_n g then uc_map_volume g 1 points else uc_map g 1 points) = uc_map g 1 points.
Proof. by move=> hs; rewrite gd gn; case: eqP => // h; rewrite grid_volume // muln1 -h. Qed.

Lemma grid_lexicographic s t (pts : seq F) : size t = d -> all (fun x => (x < s)%N) t ->
  uc_lexicographic g s (compose s t) pts = uc_map g 1 [seq pts`_k | k <- t].
Proof.
move=> hs ht; rewrite /uc_lexicographic gd -{1}hs compose_lt // -hs lex_pointE // hs -gd.
by apply: one; rewrite size_map.
Qed.

Lemma grid_boundary s t b (scale : F) (pts : seq F) :
  size t = d.-1 -> all (fun x => (x < s)%N) t -> (b < 2 * d)%N ->
  uc_boundary_lexicographic g s (s ^ d.-1 * b + compose s t) b scale pts =
  uc_map g 1 (let q := [seq pts`_k | k <- t] in
    take (b %/ 2) q ++ (scale * ((b %% 2)%:R - 2%:R^-1) + 2%:R^-1) :: drop (b %/ 2) q).
Proof.
move=> hs ht hb; rewrite /uc_boundary_lexicographic gd boundary_index // ltnNge leq_addr /= (boundary_pointE _ _ hs ht hb) -gd.
have hj := half_lt hb.
by apply: one; rewrite /= size_cat /= size_drop size_takel size_map hs; lia.
Qed.

Lemma grid_lexicographic_out s index (pts : seq F) : (s ^ d <= index)%N ->
  uc_lexicographic g s index pts = Abort.
Proof. by move=> h; rewrite /uc_lexicographic gd ltnNge h. Qed.
End Grid.

Section File.
Variable F : realFieldType.
Variable T : linear F.
Let d := l_d T.

Lemma file_lexicographic s t (pts : seq F) : size t = d -> all (fun x => (x < s)%N) t ->
  gf_lexicographic T s (compose s t) pts = Ok (linear_map T 1 [seq pts`_k | k <- t]).
Proof. by move=> hs ht; rewrite /gf_lexicographic -/d -hs compose_lt // lex_pointE. Qed.

Lemma file_boundary s t b (scale : F) (pts : seq F) :
  size t = d.-1 -> all (fun x => (x < s)%N) t -> (b < 2 * d)%N ->
  gf_boundary_lexicographic T s (s ^ d.-1 * b + compose s t) b scale pts =
  Ok (linear_map T 1 (let q := [seq pts`_k | k <- t] in
    take (b %/ 2) q ++ (scale * ((b %% 2)%:R - 2%:R^-1) + 2%:R^-1) :: drop (b %/ 2) q)).
Proof.
move=> hs ht hb; rewrite /gf_boundary_lexicographic -/d boundary_index //.
rewrite ltnNge leq_addr /=.
by rewrite (boundary_pointE _ _ hs ht hb).
Qed.

Lemma file_barycenter i : (i < 2 * d)%N -> exists2 p, on_face d i p
  & (forall j, (j < d)%N -> j != (i %/ 2)%N -> p`_j = 2%:R^-1) /\ gf_face_barycenter T i = gf_map T 1 p.
Proof.
move=> hi; have hj := half_lt hi; rewrite /gf_face_barycenter -/d hi; eexists; last by split; last reflexivity;
  move=> j hjd ne; rewrite nth_upd size_nseq muln1 hj andbT (negbTE ne) nth_nseq muln1 hjd.
have e : (if (i %% 2 != 0)%N then 1 else 0) = (i %% 2)%:R :> F.
  by have := ltn_mod i 2; case: (i %% 2)%N => [|[|]].
split; last by rewrite nth_upd eqxx size_nseq muln1 hj.
split; first by rewrite size_upd size_nseq muln1.
apply/(all_nthP 0) => k; rewrite size_upd size_nseq muln1 => hk.
rewrite nth_upd size_nseq muln1 hj andbT nth_nseq muln1 hk.
case: ifP => _; first by case: ifP; rewrite ?ler01 ?lexx.
by rewrite invr_ge0 ler0n /= invf_le1 ?ltr0n // ler1n.
Qed.
End File.
