(** Proofs about the unit cube geometry: hyperedges of the refined hypergraph. *)
From mathcomp Require Import all_ssreflect all_algebra zify ring.
From Verif Require Import M_Base L_Base M_DenseLA S_DenseLA L_DenseLA M_Lapack S_Lapack L_Lapack M_Index
  S_Index L_Index M_Topology S_Topology L_Topology L_Topology2 M_Geometry S_Geometry L_Geometry L_Geometry2
  L_Geometry3 L_Geometry4.
Set Implicit Arguments. Unset Strict Implicit. Unset Printing Implicit Defensive.
Import Order.TTheory GRing.Theory Num.Theory.
Local Open Scope ring_scope.

(** Corners of a grid cell are grid points. *)
Lemma corner_place (F : realFieldType) (c : cell) dims (p : seq F) :
  all (fun x => (x == 0) || (x == 1)) p -> all2 (valid_entry true) dims c -> size p = n_along c ->
  forall i, (i < size c)%N -> exists2 m, (m <= nth 0 dims i)%N & (place c p)`_i = m%:R.
Proof.
rewrite /n_along; elim: c dims p => [//|[[] x] c IH] [//|m dm] p hall /= /andP [hx hv] hp [|i] /=.
- case: p hall hp => [//|z p] /= /andP [hz _] _ _.
  move: hx; rewrite /valid_entry /= => hx.
  case/orP: hz => /eqP ->; first by exists x; [exact: ltnW | rewrite addr0].
  by exists x.+1; [ | rewrite -addn1 natrD].
- rewrite ltnS => hi; case: p hall hp => [//|z p] /= /andP [_ hall] [hp].
  exact: (IH dm p hall hv hp i hi).
- by move=> _; exists x.
by rewrite ltnS => hi; exact: (IH dm p hall hv hp i hi).
Qed.

Section Grid.
Variable F : realFieldType.
Variables (enum : tpcc -> seq cell) (slice : nat -> seq nat -> nat).
Hypotheses (henum : tpcc_spec enum) (hslice : slice_spec slice).
Variables (d L : nat) (dims : seq nat).
Hypotheses (hd : (0 < d)%N) (hL : (0 < L)%N) (hpos : all (fun n => (0 < n)%N) dims).
Let T := cubic_refine enum L (cubic_new enum d dims).
Let G := ucube_refine L (ucube_new d dims).
Let G0 := ucube_new d dims.
Let n := size dims.
Let elements := Tpcc true d dims.
Let parts := Tpcc true d (nseq d L).
Local Notation gc idx := (grid_cell enum d dims L idx).
Local Notation fdims := (fine_dims L dims).

Let hfpos : all (fun n => (0 < n)%N) fdims. Proof. exact: fine_dims_pos. Qed.
Lemma size_fdims : size fdims = n. Proof. by rewrite size_map. Qed.

Lemma gc_size idx : (idx < cu_n_edges T)%N -> size (gc idx) = size fdims.
Proof. by move=> h; rewrite size_fdims; case: (size_grid_cell henum hslice hd hL h). Qed.
Lemma gc_along idx : (idx < cu_n_edges T)%N -> n_along (gc idx) = d.
Proof. exact: (grid_cell_along henum hslice hL). Qed.

(** Data of hyperedge [idx]. *)
Lemma at_Ok idx : (idx < cu_n_edges T)%N -> ucube_at F enum G idx = Ok (hgeo_of F fdims (gc idx)).
Proof. exact: (ucube_atE F henum hslice hL hpos). Qed.

Lemma grid_cell_inj idx idx' : (idx < cu_n_edges T)%N -> (idx' < cu_n_edges T)%N ->
  gc idx = gc idx' -> idx = idx'.
Proof.
move=> h h'; rewrite (grid_cellE henum hslice hL h) (grid_cellE henum hslice hL h').
have [v1 l1 m1 s1 [a1 e1]] := idx_parts henum hslice hL h.
have [v2 l2 m2 s2 [a2 e2]] := idx_parts henum hslice hL h'.
set E1 := nth _ _ _ in v1 *; set E2 := nth _ _ _ in v2 *.
set r1 := along _ in s1 a1 e1 *; set r2 := along _ in s2 a2 e2 *.
have fine r : all (fun x => (x < L)%N) r -> all (fine_entry L) (full r).
  by rewrite /full all_map => /allP hr; apply/allP => x /hr.
have nE1 : n_along E1 = d by case/and3P: v1 => _ /eqP.
have nE2 : n_along E2 = d by case/and3P: v2 => _ /eqP.
case/refine_inj; rewrite ?size_full ?nE1 ?nE2 //; try exact: fine.
move=> eE eF.
have eq1 : (idx %/ L ^ d = idx' %/ L ^ d)%N.
  by rewrite -(index_uniq [::] l1 (enum_uniq henum _)) -(index_uniq [::] l2 (enum_uniq henum _)) -/E1 -/E2 eE.
have eq2 : (idx %% L ^ d = idx' %% L ^ d)%N.
  by rewrite -(index_uniq [::] m1 (enum_uniq henum _)) -(index_uniq [::] m2 (enum_uniq henum _)) e1 e2 eF.
by rewrite (divn_eq idx (L ^ d)) eq1 eq2 -divn_eq.
Qed.

(** C17: shared faces as point sets and by their barycentres. *)
Lemma share_points idx idx' i i' v v' g g' :
  cubic_at enum slice T idx = Ok v -> cubic_at enum slice T idx' = Ok v' ->
  ucube_at F enum G idx = Ok g -> ucube_at F enum G idx' = Ok g' ->
  (idx < cu_n_edges T)%N -> (idx' < cu_n_edges T)%N -> (i < 2 * d)%N -> (i' < 2 * d)%N ->
  nth 0%N v i = nth 0%N v' i' <->
  (forall y, (exists2 p, on_face d i p & uc_map g 1 p = Ok y) <->
             (exists2 p, on_face d i' p & uc_map g' 1 p = Ok y)).
Proof.
move=> hv hv' + + h h' hi hi'; rewrite !at_Ok // => -[<-] [<-].
rewrite (share_cells henum hslice hd hL hv hv' hi hi').
have sz := gc_size h; have sz' := gc_size h'; have na := gc_along h; have na' := gc_along h'.
have A y := @face_imageE F fdims (gc idx) sz i y; have A' y := @face_imageE F fdims (gc idx') sz' i' y.
split=> [e y|H].
  have := A y; have := A' y; rewrite na na' => H' H; rewrite H // H' // e.
  by split.
apply: (@cell_points_inj F fdims hfpos); rewrite ?size_facet // => y.
by have := A y; have := A' y; rewrite na na' => H' H0; rewrite -H0 // -H'.
Qed.
Lemma share_barycenter idx idx' i i' v v' g g' :
  cubic_at enum slice T idx = Ok v -> cubic_at enum slice T idx' = Ok v' ->
  ucube_at F enum G idx = Ok g -> ucube_at F enum G idx' = Ok g' ->
  (idx < cu_n_edges T)%N -> (idx' < cu_n_edges T)%N -> (i < 2 * d)%N -> (i' < 2 * d)%N ->
  nth 0%N v i = nth 0%N v' i' <-> uc_face_barycenter g i = uc_face_barycenter g' i'.
Proof.
move=> hv hv' + + h h' hi hi'; rewrite !at_Ok // => -[<-] [<-].
rewrite (share_cells henum hslice hd hL hv hv' hi hi').
have sz := gc_size h; have sz' := gc_size h'; have na := gc_along h; have na' := gc_along h'.
have hj : (i %/ 2 < d)%N by rewrite ltn_divLR // mulnC.
have hj' : (i' %/ 2 < d)%N by rewrite ltn_divLR // mulnC.
rewrite !face_barycenterE ?na ?na' //.
split=> [->//|[e]].
by apply: (@middle_inj F fdims hfpos); rewrite ?size_facet // !n_along_facet ?na ?na'.
Qed.

(** C21 *)
Lemma map_points idx g (points : seq F) n_vec : (idx < cu_n_edges T)%N -> ucube_at F enum G idx = Ok g ->
  in_ref (d * n_vec) points ->
  exists y, [/\ uc_map g n_vec points = Ok y, size y = (n * n_vec)%N
    & forall i j, (i < n)%N -> (j < n_vec)%N ->
        mget n y i j = (phys fdims (gc idx) (mkseq (fun k => mget d points k j) d))`_i].
Proof.
move=> h; rewrite at_Ok // => -[<-] hin.
have := uc_mapE (gc_size h) (points := points) (n_vec := n_vec).
by rewrite gc_along // size_fdims; apply.
Qed.
Lemma map_point idx g (p : seq F) : (idx < cu_n_edges T)%N -> ucube_at F enum G idx = Ok g ->
  in_cube d p -> uc_map g 1 p = Ok (phys fdims (gc idx) p).
Proof. by move=> h; rewrite at_Ok // => -[<-] hp; rewrite uc_map1 ?gc_size // gc_along. Qed.

Lemma disjoint idx idx' g g' (p p' : seq F) : (idx < cu_n_edges T)%N -> (idx' < cu_n_edges T)%N ->
  ucube_at F enum G idx = Ok g -> ucube_at F enum G idx' = Ok g' ->
  in_open_cube d p -> in_open_cube d p' -> uc_map g 1 p = uc_map g' 1 p' -> idx = idx' /\ p = p'.
Proof.
have cl (q : seq F) : in_open_cube d q -> in_cube d q.
  case=> hs ha; split=> //; apply/allP => x /(allP ha) /andP [h1 h2]; by rewrite !ltW.
move=> h h' hg hg' hp hp'; rewrite (map_point h hg (cl _ hp)) (map_point h' hg' (cl _ hp')) => -[e].
have := @interior_inj F fdims hfpos _ _ p p' (gc_size h) (gc_size h'); rewrite !gc_along // => H.
by case: (H hp hp' e) => /grid_cell_inj ->.
Qed.

Lemma coarse_lt e k : (e < size (enum elements))%N -> (k < L ^ d)%N -> (e * L ^ d + k < cu_n_edges T)%N.
Proof.
move=> he hk; rewrite (n_edges_fine henum hslice) -/elements.
apply: (@leq_trans (e.+1 * L ^ d)); first by rewrite mulSn addnC ltn_add2r.
by rewrite leq_mul2r he orbT.
Qed.
Lemma G0E : G0 = ucube_refine 1 (ucube_new d dims). Proof. by []. Qed.
Lemma n_coarse : cu_n_edges (cubic_new enum d dims) = size (enum elements).
Proof. by have := n_edges_fine henum hslice d 1 dims; rewrite exp1n muln1. Qed.
Lemma coarse_atE e : (e < size (enum elements))%N ->
  ucube_at F enum G0 e = Ok (hgeo_of F dims (nth [::] (enum elements) e)).
Proof.
move=> he; have h1 : (e < cu_n_edges (cubic_refine enum 1 (cubic_new enum d dims)))%N.
  by rewrite (n_edges_fine henum hslice) exp1n muln1.
rewrite G0E (ucube_atE F henum hslice _ hpos h1) // fine_dims1; congr (Ok (hgeo_of _ _ _)).
rewrite (grid_cellE henum hslice (ltn0Sn 0) h1) exp1n divn1.
have [/and3P [_ /eqP v1 _] _ _ s1 [a1 _]] := idx_parts henum hslice (ltn0Sn 0) h1.
by rewrite exp1n divn1 /= in v1; rewrite exp1n /= in s1 a1; apply: refine1; rewrite ?s1 ?v1.
Qed.
Lemma elem_valid e : (e < size (enum elements))%N ->
  size (nth [::] (enum elements) e) = n /\ n_along (nth [::] (enum elements) e) = d.
Proof. by move=> /(nth_enum_valid henum) /and3P [/eqP ? /eqP ? _]. Qed.
Lemma part_atE e k : (e < size (enum elements))%N -> (k < L ^ d)%N ->
  exists r, [/\ size r = d, all (fun x => (x < L)%N) r, nth [::] (enum parts) k = full r
    & gc (e * L ^ d + k) = refine L (nth [::] (enum elements) e) (full r)].
Proof.
move=> he hk; have h := coarse_lt he hk.
have hLd : (0 < L ^ d)%N by rewrite expn_gt0 hL.
have [_ _ _ s1 [a1 e1]] := idx_parts henum hslice hL h.
have E1 : ((e * L ^ d + k) %/ L ^ d = e)%N by rewrite divnMDl // divn_small ?addn0.
have E2 : ((e * L ^ d + k) %% L ^ d = k)%N by rewrite modnMDl modn_small.
rewrite (grid_cellE henum hslice hL h) E1.
by move: s1 a1 e1; rewrite /= E2 => s1 a1 e1; exists (along (nth [::] (enum parts) k)); split.
Qed.
Lemma part_index r : size r = d -> all (fun x => (x < L)%N) r ->
  exists2 k, (k < L ^ d)%N & nth [::] (enum parts) k = full r.
Proof.
move=> hs ha; have hv : valid parts (full r).
  rewrite /valid size_full size_nseq hs eqxx n_along_full hs eqxx /=.
  by rewrite all2_nseq ?size_full // /full all_map.
exists (index (full r) (enum parts)); last by rewrite nth_index // (mem_enum henum).
by have := index_lt henum hv; rewrite (size_ref henum hslice).
Qed.

Lemma cover e g0 y : (e < size (enum elements))%N -> ucube_at F enum G0 e = Ok g0 ->
  (exists2 p, in_cube d p & uc_map g0 1 p = Ok y) <->
  (exists k g q, [/\ (k < L ^ d)%N, ucube_at F enum G (e * L ^ d + k) = Ok g, in_cube d q
    & uc_map g 1 q = Ok y]).
Proof.
move=> he; rewrite coarse_atE // => -[<-]; have [sE nE] := elem_valid he.
set E := nth _ _ _ in sE nE *.
split.
  move=> [p hp]; rewrite uc_map1 ?nE // => -[<-].
  have [r [q [hr ar hq eq]]] : exists r q, [/\ size r = n_along E, all (fun x => (x < L)%N) r,
      in_cube (n_along E) q & phys fdims (refine L E (full r)) q = phys dims E p].
    by apply: refine_cover => //; rewrite nE.
  rewrite nE in hr hq.
  have [k hk ek] := part_index hr ar; have [r' [_ _ er' egc]] := part_atE he hk.
  have err : full r = full r' by rewrite -ek -er'.
  exists k, (hgeo_of F fdims (gc (e * L ^ d + k))), q; split=> //.
    by apply: at_Ok; exact: coarse_lt.
  by rewrite (map_point (coarse_lt he hk) (at_Ok (coarse_lt he hk)) hq) egc -err -/E eq.
move=> [k [g [q [hk hg hq]]]]; rewrite (map_point (coarse_lt he hk) hg hq) => -[<-].
have [r [sr ar _ ->]] := part_atE he hk.
have [p hp ->] : exists2 p, in_cube (n_along E) p & phys fdims (refine L E (full r)) q = phys dims E p.
  by apply: refine_inside; rewrite ?nE.
by exists p; rewrite -?nE // uc_map1.
Qed.

Lemma span_size e k j g g0 : (e < size (enum elements))%N -> (k < L ^ d)%N -> (j < d)%N ->
  ucube_at F enum G0 e = Ok g0 -> ucube_at F enum G (e * L ^ d + k) = Ok g ->
  exists s s0, [/\ uc_span_vec g j = Ok s, uc_span_vec g0 j = Ok s0 & s = [seq x / L%:R | x <- s0]].
Proof.
move=> he hk hj; have h := coarse_lt he hk; rewrite coarse_atE // at_Ok // => -[<-] [<-].
have [sE nE] := elem_valid he; have [r [sr ar _ er]] := part_atE he hk.
rewrite !uc_span_vecE ?gc_size ?gc_along ?nE //; do 2 eexists; split; [reflexivity..|].
have -> : along_dirs (gc (e * L ^ d + k)) = along_dirs (nth [::] (enum elements) e).
  by rewrite er along_dirs_refine // nE.
rewrite size_fdims /mkseq -map_comp; apply/eq_in_map => a; rewrite mem_iota add0n /= => ha.
rewrite (nth_map 0%N) //; case: ifP => _; last by rewrite mul0r.
by rewrite natrM invfM mulrC.
Qed.

Lemma corner_grid idx g (p : seq F) y i : (idx < cu_n_edges T)%N -> ucube_at F enum G idx = Ok g ->
  size p = d -> all (fun x => (x == 0) || (x == 1)) p -> uc_map g 1 p = Ok y -> (i < n)%N ->
  exists2 m, (m <= L * nth 0 dims i)%N & y`_i = m%:R / (L * nth 0 dims i)%N%:R.
Proof.
move=> h hg hp hall.
have hin : in_cube d p.
  by split=> //; apply/allP => x /(allP hall) /orP [] /eqP ->; rewrite ?lexx ler01.
rewrite (map_point h hg hin) => -[<-] hi.
rewrite phys_nth ?gc_size ?size_fdims // (nth_map 0%N) //.
suff [m hm ->] : exists2 m, (m <= L * nth 0 dims i)%N & (place (gc idx) p)`_i = m%:R by exists m.
have [v1 _ _ s1 [a1 _]] := idx_parts henum hslice hL h.
have hv : valid (Tpcc true d fdims) (gc idx).
  rewrite (grid_cellE henum hslice hL h).
  set E := nth _ _ _ in v1 *; set r := along _ in s1 a1 *.
  case/and3P: v1 => /eqP sE /eqP nE vE; apply/and3P; split.
  - by rewrite size_refine sE size_fdims.
  - by rewrite n_along_refine_full ?nE.
  rewrite /= in nE; move: s1; rewrite -nE {nE} /n_along.
  elim: (dims) E r {sE} a1 vE => [|m dm IH] [|[[] x] E] r //= ar /andP [hx vE].
    case: r ar => [//|z r] /= /andP [hz ar] [hr]; have /= -> := IH E r ar vE hr; rewrite andbT /valid_entry /=.
    apply: (@leq_trans (L * x.+1)); first by rewrite mulnS addnC ltn_add2r.
    by move: hx; rewrite /valid_entry /= leq_mul2l => ->; rewrite orbT.
  by rewrite add0n => hr; have /= -> := IH E r ar vE hr; move: hx; rewrite andbT /valid_entry /= leq_mul2l => ->; rewrite orbT.
have na := gc_along h; case/and3P: hv => /eqP sz _ hv.
by have := corner_place hall hv; rewrite na sz size_fdims; move/(_ hp i hi); rewrite (nth_map 0%N).
Qed.
End Grid.
