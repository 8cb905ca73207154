(** Proofs about the unit cube geometry: hyperedges of the refined hypergraph. *)
From mathcomp Require Import all_ssreflect all_algebra zify ring.
From Verif Require Import M_Base L_Base M_DenseLA S_DenseLA L_DenseLA M_Lapack S_Lapack L_Lapack M_Index
  S_Index L_Index M_Topology S_Topology L_Topology L_Topology2 M_Geometry S_Geometry L_Geometry L_Geometry2
  L_Geometry3.
Set Implicit Arguments. Unset Strict Implicit. Unset Printing Implicit Defensive.
Import Order.TTheory GRing.Theory Num.Theory.
Local Open Scope ring_scope.

Local Notation cn c i := (nth (false, 0%N) c i).

Lemma fine_dims_pos L dims : (0 < L)%N -> all (fun n => (0 < n)%N) dims ->
  all (fun n => (0 < n)%N) (fine_dims L dims).
Proof. by move=> hL h; rewrite all_map; apply/allP => x /(allP h) /=; rewrite muln_gt0 hL. Qed.
Lemma fine_dims1 dims : fine_dims 1 dims = dims.
Proof. by rewrite -[RHS]map_id; apply: eq_map => x; rewrite mul1n. Qed.
Lemma refine1 (E : cell) r : size r = n_along E -> all (fun x => (x < 1)%N) r -> refine 1 E (full r) = E.
Proof.
rewrite /n_along; elim: E r => [//|[[] x] E IH] r /=; rewrite ?add1n ?add0n.
  by case: r => [//|[|y] r] [hr] //= h; rewrite mul1n addn0 IH.
by move=> hr h; rewrite mul1n IH.
Qed.

(** *** Barycentres, normals and areas of the data of a cell *)
Section Cell.
Variable F : realFieldType.
Variables (dims : seq nat) (c : cell).
Hypothesis hpos : all (fun n => (0 < n)%N) dims.
Let n := size dims.
Hypothesis hc : size c = n.
Let d := n_along c.
Let g := hgeo_of F dims c.

Lemma half_in : (0 : F) <= (2%:R^-1 : F) <= 1.
Proof. by rewrite invr_ge0 ler0n /= invf_le1 ?ltr0n // ler1n. Qed.

Lemma face_barycenterE i : (i < 2 * d)%N ->
  uc_face_barycenter g i =
  Ok (phys dims (facet_at c (i %/ 2) (i %% 2)) (nseq d.-1 (2%:R^-1 : F))).
Proof.
move=> hi; have hj : (i %/ 2 < d)%N by rewrite ltn_divLR // mulnC.
rewrite /uc_face_barycenter g_dE -/d hi g_nE.
set ctr := upd _ _ _.
have hs : size ctr = d by rewrite size_upd size_nseq muln1.
have hnth k : (k < d)%N -> ctr`_k = if k == (i %/ 2)%N then (i %% 2)%:R else 2%:R^-1.
  move=> hk; rewrite nth_upd size_nseq muln1 hj andbT; case: eqP => _; last by rewrite nth_nseq muln1 hk.
  by case: (i %% 2)%N (ltn_mod i 2) => [|[]].
have hin : in_cube d ctr.
  split=> //; apply/(all_nthP 0) => k; rewrite hs => hk; rewrite hnth //; case: ifP => _; last exact: half_in.
  by rewrite ler0n lern1 -ltnS ltn_mod.
have -> : (if d == n then uc_map_volume g 1 ctr else uc_map g 1 ctr) = uc_map g 1 ctr.
  by case: eqP => // e; rewrite uc_map_volumeE // hs muln1.
rewrite uc_map1 // /phys (@place_facet _ _ (i %/ 2) (i %% 2)) ?hnth ?eqxx //.
congr (Ok [seq _ | _ <- zip (place _ _) _]).
apply: (@eq_from_nth _ 0).
  by rewrite size_cat size_take size_drop hs hj size_nseq; lia.
move=> k; rewrite size_cat size_take size_drop hs hj => hk.
have hk' : (k < d.-1)%N by lia.
rewrite nth_nseq hk' nth_cat size_take hs hj.
case: ltnP => h.
  by rewrite nth_take // hnth ?ltn_eqF //; exact: (ltn_trans h hj).
have hk2 : ((i %/ 2).+1 + (k - i %/ 2) = k.+1)%N by lia.
rewrite nth_drop hk2 hnth; last by lia.
by rewrite gtn_eqF // ltnS.
Qed.

(** Face [i] is the image of the face of the reference cube. *)
Lemma face_imageE i y : (i < 2 * d)%N ->
  (exists2 p, on_face d i p & uc_map g 1 p = Ok y) <->
  cell_points dims (facet_at c (i %/ 2) (i %% 2)) y.
Proof.
move=> hi; have hj : (i %/ 2 < d)%N by rewrite ltn_divLR // mulnC.
have hs : (i %% 2 < 2)%N by rewrite ltn_mod.
rewrite -(face_points y hc hj hs); split.
  by move=> [p [hp hpj]]; rewrite uc_map1 // => -[<-]; exists p.
by move=> [p [hp hpj ->]]; exists p => //; rewrite uc_map1.
Qed.

(** Areas. *)
Lemma uc_areaE : uc_area g = \prod_(a <- along_dirs c) (nth 0%N dims a)%:R^-1.
Proof.
rewrite /uc_area g_dE -/d (big_nth 0%N) size_along_dirs big_mkord.
have H m : (m <= d)%N -> for_ m (fun i a => a * (g_char g)`_i) 1 =
    \prod_(j < m) (nth 0%N dims (nth 0%N (along_dirs c) j))%:R^-1 :> F.
  elim: m => [|m IH] hm; first by rewrite big_ord0.
  by rewrite for_S IH ?big_ord_recr /= ?charE //; exact: ltnW.
exact: H.
Qed.
Lemma uc_face_areaE i : (i < 2 * d)%N -> uc_face_area g i =
  Ok (\prod_(j < d | j != (i %/ 2)%N :> nat) (nth 0%N dims (nth 0%N (along_dirs c) j))%:R^-1).
Proof.
move=> hi; rewrite /uc_face_area g_dE -/d hi; congr Ok.
have H m : (m <= d)%N -> for_ m (fun k a => if k != (i %/ 2)%N then a * (g_char g)`_k else a) 1 =
    \prod_(j < m | j != (i %/ 2)%N :> nat) (nth 0%N dims (nth 0%N (along_dirs c) j))%:R^-1 :> F.
  elim: m => [|m IH] hm; first by rewrite big_ord0.
  rewrite for_S IH; last exact: ltnW.
  by rewrite [in RHS]big_mkcond big_ord_recr /= -big_mkcond /= charE //; case: ifP; rewrite ?mulr1.
exact: H.
Qed.
Lemma uc_area_gt0 : 0 < uc_area g.
Proof.
rewrite uc_areaE big_seq; apply: prodr_gt0 => a; rewrite mem_along_dirs hc => /andP [ha _].
by rewrite invr_gt0 (fdims_gt0 F hpos).
Qed.

Lemma uc_span_vecE j : (j < d)%N -> uc_span_vec g j =
  Ok (mkseq (fun a => if a == nth 0%N (along_dirs c) j then (nth 0%N dims a)%:R^-1 else 0) n).
Proof.
move=> hj; rewrite /uc_span_vec g_dE g_nE -/d hj charE //; congr Ok.
apply: (@eq_from_nth _ 0); rewrite size_upd size_nseq muln1 ?size_mkseq // => a ha.
rewrite nth_upd size_nseq muln1 nth_nseq muln1 ha nth_mkseq //.
by rewrite (dir_lt hc) // andbT; case: eqP => [->|].
Qed.

(** Normals. *)
Definition sgn (i : nat) : F := if (i %% 2 != 0)%N then 1 else -1.
Lemma local_normalE i : (i < 2 * d)%N -> uc_local_normal g i =
  Ok (mkseq (fun k => if k == (i %/ 2)%N then sgn i else 0) d).
Proof.
move=> hi; have hj : (i %/ 2 < d)%N by rewrite ltn_divLR // mulnC.
rewrite /uc_local_normal g_dE -/d hi; congr Ok.
apply: (@eq_from_nth _ 0); rewrite size_upd size_nseq muln1 ?size_mkseq // => a ha.
by rewrite nth_upd size_nseq muln1 nth_nseq muln1 ha nth_mkseq // hj andbT.
Qed.
Lemma inner_normalE i : (i < 2 * d)%N -> uc_inner_normal g i =
  Ok (mkseq (fun k => if k == nth 0%N (along_dirs c) (i %/ 2) then sgn i else 0) n).
Proof.
move=> hi; have hj : (i %/ 2 < d)%N by rewrite ltn_divLR // mulnC.
rewrite /uc_inner_normal g_dE g_nE -/d hi; congr Ok.
apply: (@eq_from_nth _ 0); rewrite size_upd size_nseq muln1 ?size_mkseq // => a ha.
by rewrite nth_upd size_nseq muln1 nth_nseq muln1 ha nth_mkseq // (dir_lt hc) // andbT.
Qed.

Lemma sum_unit m a (x : F) (f : nat -> F) : (a < m)%N ->
  \sum_(k < m) f k * (mkseq (fun k => if k == a then x else 0) m)`_k = f a * x.
Proof.
move=> ha; rewrite (bigD1 (Ordinal ha)) //= big1 ?addr0 ?nth_mkseq ?eqxx //.
by move=> k; rewrite -val_eqE /= nth_mkseq // => /negbTE ->; rewrite mulr0.
Qed.
End Cell.
