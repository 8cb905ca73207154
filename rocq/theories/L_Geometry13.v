(** Normals and factors of the unit cube geometry for the hyperedges of a hypergraph. *)
From mathcomp Require Import all_ssreflect all_algebra zify.
From Verif Require Import M_Base L_Base M_DenseLA S_DenseLA L_DenseLA M_Topology S_Topology L_Topology L_Topology2
  M_Geometry S_Geometry L_Geometry L_Geometry2 L_Geometry3 L_Geometry4 L_Geometry5 L_Geometry6 L_Geometry7.
Set Implicit Arguments. Unset Strict Implicit. Unset Printing Implicit Defensive.
Import Order.TTheory GRing.Theory Num.Theory.
Local Open Scope ring_scope.

Section Grid.
Variable F : realFieldType.
Variables (enum : tpcc -> seq cell) (slice : nat -> seq nat -> nat).
Hypotheses (henum : tpcc_spec enum) (hslice : slice_spec slice).
Variables (d L : nat) (dims : seq nat).
Hypotheses (hd : (0 < d)%N) (hL : (0 < L)%N) (hpos : all (fun n => (0 < n)%N) dims).
Let T := cubic_refine enum L (cubic_new enum d dims).
Let G := ucube_refine L (ucube_new d dims).
Variables (idx : nat) (g : hgeo F).
Hypothesis hidx : (idx < cu_n_edges T)%N.
Hypothesis hg : ucube_at F enum G idx = Ok g.
Let n := size dims.
Let c := grid_cell enum d dims L idx.

Let gE : g = hgeo_of F (fine_dims L dims) c.
Proof. by move: hg; rewrite (at_Ok F henum hslice hL hpos hidx) => -[]. Qed.
Let cs : size c = size (fine_dims L dims). Proof. exact: (gc_size henum hslice hd hL hidx). Qed.
Let ca : n_along c = d. Proof. exact: (gc_along henum hslice hL hidx). Qed.
Let fn : size (fine_dims L dims) = n. Proof. by rewrite size_map. Qed.
Let fp : all (fun n => (0 < n)%N) (fine_dims L dims). Proof. exact: fine_dims_pos. Qed.

Lemma grid_local_normal i v : (i < 2 * d)%N -> uc_local_normal g i = Ok v ->
  [/\ size v = d, \sum_(k < d) v`_k * v`_k = 1,
      forall p q, on_face d i p -> on_face d i q -> \sum_(k < d) (q`_k - p`_k) * v`_k = 0
    & forall p q, on_face d i p -> in_open_cube d q -> \sum_(k < d) (q`_k - p`_k) * v`_k < 0].
Proof. by rewrite gE -ca; exact: local_normal_spec. Qed.

Lemma grid_inner_normal i v : (i < 2 * d)%N -> uc_inner_normal g i = Ok v ->
  [/\ size v = n, \sum_(k < n) v`_k * v`_k = 1,
      forall p q y z, on_face d i p -> on_face d i q -> uc_map g 1 p = Ok y -> uc_map g 1 q = Ok z ->
        \sum_(k < n) (z`_k - y`_k) * v`_k = 0
    & forall p q y z, on_face d i p -> in_open_cube d q -> uc_map g 1 p = Ok y -> uc_map g 1 q = Ok z ->
        \sum_(k < n) (z`_k - y`_k) * v`_k < 0].
Proof. by rewrite gE -ca -fn; exact: inner_normal_spec. Qed.

Lemma grid_normal_opp j v w v' w' : (j < d)%N ->
  uc_local_normal g (2 * j) = Ok v -> uc_local_normal g (2 * j).+1 = Ok w ->
  uc_inner_normal g (2 * j) = Ok v' -> uc_inner_normal g (2 * j).+1 = Ok w' ->
  v = [seq - x | x <- w] /\ v' = [seq - x | x <- w'].
Proof.
rewrite gE -{1}ca => hj h1 h2 h3 h4; split.
  exact: (local_normal_opp fp cs hj h1 h2).
exact: (inner_normal_opp fp cs hj h3 h4).
Qed.

Lemma grid_normals_total i : (i < 2 * d)%N -> exists v w a,
  [/\ uc_local_normal g i = Ok v, uc_inner_normal g i = Ok w, uc_face_area g i = Ok a & 0 < a].
Proof. by rewrite gE -ca; exact: normals_total. Qed.

Lemma grid_normal_sum (a : nat -> F) (v w : nat -> seq F) k :
  (forall i, (i < 2 * d)%N -> [/\ uc_face_area g i = Ok (a i), uc_local_normal g i = Ok (v i)
     & uc_inner_normal g i = Ok (w i)]) ->
  \sum_(i < 2 * d) a i * (v i)`_k = 0 /\ \sum_(i < 2 * d) a i * (w i)`_k = 0.
Proof. by rewrite gE -ca; exact: normal_sum. Qed.

Lemma grid_mat_q : (mx_of n n (uc_mat_q g))^T *m mx_of n n (uc_mat_q g) = 1%:M.
Proof. by rewrite gE -fn; exact: mat_q_orth. Qed.

Lemma grid_mat_qr j v i : (j < d)%N -> uc_span_vec g j = Ok v -> (i < n)%N ->
  v`_i = \sum_(k < d) mget n (uc_mat_q g) i k * mget d (uc_mat_r g) k j.
Proof. by rewrite gE -ca -fn => hj hv hi; exact: mat_qr. Qed.

Lemma grid_outer_normal i : (i < n - d)%N -> exists v,
  [/\ uc_outer_normal g i = Ok v, size v = n,
      forall k, (k < n)%N -> v`_k = mget n (uc_mat_q g) k (d + i)
    & forall p q y z, in_cube d p -> in_cube d q -> uc_map g 1 p = Ok y -> uc_map g 1 q = Ok z ->
        \sum_(k < n) (z`_k - y`_k) * v`_k = 0].
Proof.
move=> hi.
have hi' : (i < size (fine_dims L dims) - n_along c)%N by rewrite ca fn.
have [v hv] := outer_normal_total F cs hi'.
have [sv hcol] := outer_normal_col fp cs hi' hv.
rewrite fn ca -gE in hv sv hcol; exists v; split=> // p q y z hp hq hy hz.
move: hy hz; rewrite gE.
rewrite !(uc_map1 cs) ?ca // => -[<-] [<-].
have := outer_normalE F cs hi'; rewrite -gE hv => -[ev].
set a := nth 0%N (across_dirs c) i in ev.
have ha : a \in across_dirs c by apply: mem_nth; rewrite (size_across_dirs cs).
move: ha; rewrite (across_rest cs) mem_filter mem_iota add0n => /andP [na /andP [_ ha]].
rewrite fn in ev ha; rewrite (bigD1 (Ordinal ha)) //= !(phys_nth _ cs) ?fn // !place_nth ?cs ?fn //.
rewrite (negbTE na) subrr mul0r add0r big1 // => k; rewrite -val_eqE /= => /negbTE hk.
by rewrite ev nth_mkseq // hk mulr0.
Qed.
End Grid.
