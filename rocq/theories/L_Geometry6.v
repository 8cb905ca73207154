(** Proofs about the unit cube geometry: normals and areas. *)
From mathcomp Require Import all_ssreflect all_algebra zify ring.
From Verif Require Import M_Base L_Base M_DenseLA S_DenseLA L_DenseLA M_Lapack S_Lapack L_Lapack M_Index
  S_Index L_Index M_Topology S_Topology L_Topology L_Topology2 M_Geometry S_Geometry L_Geometry L_Geometry2
  L_Geometry3 L_Geometry4 L_Geometry5.
Set Implicit Arguments. Unset Strict Implicit. Unset Printing Implicit Defensive.
Import Order.TTheory GRing.Theory Num.Theory.
Local Open Scope ring_scope.

Lemma sum_pairs (V : zmodType) (f : nat -> V) d :
  \sum_(i < 2 * d) f i = \sum_(j < d) (f (2 * j)%N + f (2 * j).+1).
Proof.
elim: d => [|d IH]; first by rewrite muln0 !big_ord0.
rewrite [in RHS]big_ord_recr /= -IH.
have -> : (2 * d.+1 = (2 * d).+2)%N by lia.
by rewrite 2!big_ord_recr /= addrA.
Qed.

Section Cell.
Variable F : realFieldType.
Variables (dims : seq nat) (c : cell).
Hypothesis hpos : all (fun n => (0 < n)%N) dims.
Let n := size dims.
Hypothesis hc : size c = n.
Let d := n_along c.
Let g := hgeo_of F dims c.

Lemma sgn_sq i : sgn F i * sgn F i = 1.
Proof. by rewrite /sgn; case: ifP => _; rewrite ?mulr1 // mulrNN mulr1. Qed.
Lemma sgn_even j : sgn F (2 * j) = -1. Proof. by rewrite /sgn mulnC modnMl. Qed.
Lemma sgn_odd j : sgn F (2 * j).+1 = 1.
Proof. by rewrite /sgn; have -> : ((2 * j).+1 %% 2 = 1)%N by lia. Qed.
Lemma half_even j : (2 * j %/ 2 = j)%N. Proof. by rewrite mulKn. Qed.
Lemma half_odd j : ((2 * j).+1 %/ 2 = j)%N. Proof. by lia. Qed.

Lemma sgn_out i (x : F) : 0 < x < 1 -> (x - (i %% 2)%:R) * sgn F i < 0.
Proof.
move=> /andP [h0 h1]; rewrite /sgn; have : (i %% 2 < 2)%N by rewrite ltn_mod.
case: (i %% 2)%N => [|[|//]] _ /=; first by rewrite subr0 mulrN1 oppr_lt0.
by rewrite mulr1 subr_lt0.
Qed.

Lemma local_normal_spec i v : (i < 2 * d)%N -> uc_local_normal g i = Ok v ->
  [/\ size v = d, \sum_(k < d) v`_k * v`_k = 1,
      forall p q : seq F, on_face d i p -> on_face d i q -> \sum_(k < d) (q`_k - p`_k) * v`_k = 0
    & forall p q : seq F, on_face d i p -> in_open_cube d q -> \sum_(k < d) (q`_k - p`_k) * v`_k < 0].
Proof.
move=> hi; have hj : (i %/ 2 < d)%N by rewrite ltn_divLR // mulnC.
rewrite local_normalE // => -[<-]; split; first by rewrite size_mkseq.
- rewrite (@sum_unit F d (i %/ 2) (sgn F i)
    (fun k => (mkseq (fun k => if k == (i %/ 2)%N then sgn F i else 0) d)`_k)) //.
  by rewrite nth_mkseq // eqxx sgn_sq.
- move=> p q [_ hp] [_ hq].
  by rewrite (@sum_unit F d (i %/ 2) (sgn F i) (fun k => q`_k - p`_k)) // hp hq subrr mul0r.
move=> p q [_ hp] [sq /(all_nthP 0)]; rewrite sq => /(_ _ hj) hq.
by rewrite (@sum_unit F d (i %/ 2) (sgn F i) (fun k => q`_k - p`_k)) // hp sgn_out.
Qed.
Lemma local_normal_opp j v w : (j < d)%N -> uc_local_normal g (2 * j) = Ok v ->
  uc_local_normal g (2 * j).+1 = Ok w -> v = [seq - x | x <- w].
Proof.
move=> hj; rewrite !local_normalE; [|lia|lia] => -[<-] [<-]; rewrite /mkseq -map_comp.
by apply: eq_map => k /=; rewrite half_even half_odd sgn_even sgn_odd; case: ifP; rewrite ?oppr0.
Qed.

Lemma phys_diff (p q : seq F) j : (j < d)%N ->
  (phys dims c q)`_(nth 0%N (along_dirs c) j) - (phys dims c p)`_(nth 0%N (along_dirs c) j) =
  (q`_j - p`_j) / (nth 0%N dims (nth 0%N (along_dirs c) j))%:R.
Proof.
move=> hj; have ha := dir_lt hc hj; rewrite !phys_nth // !place_nth ?hc //.
rewrite mem_nth ?size_along_dirs // index_uniq ?size_along_dirs ?along_dirs_uniq //.
by rewrite -mulrBl; congr (_ / _); ring.
Qed.
Lemma inner_normal_spec i v : (i < 2 * d)%N -> uc_inner_normal g i = Ok v ->
  [/\ size v = n, \sum_(k < n) v`_k * v`_k = 1,
      forall (p q : seq F) y z, on_face d i p -> on_face d i q -> uc_map g 1 p = Ok y -> uc_map g 1 q = Ok z ->
        \sum_(k < n) (z`_k - y`_k) * v`_k = 0
    & forall (p q : seq F) y z, on_face d i p -> in_open_cube d q -> uc_map g 1 p = Ok y ->
        uc_map g 1 q = Ok z -> \sum_(k < n) (z`_k - y`_k) * v`_k < 0].
Proof.
move=> hi; have hj : (i %/ 2 < d)%N by rewrite ltn_divLR // mulnC.
have ha := dir_lt hc hj; set a := nth _ _ _ in ha.
rewrite (inner_normalE F hc) // => -[<-]; split; first by rewrite size_mkseq.
- rewrite (@sum_unit F n a (sgn F i) (fun k => (mkseq (fun k => if k == a then sgn F i else 0) n)`_k)) //.
  by rewrite nth_mkseq // eqxx sgn_sq.
- move=> p q y z [hp ep] [hq eq]; rewrite !(uc_map1 hc) // => -[<-] [<-].
  rewrite (@sum_unit F n a (sgn F i) (fun k => (phys dims c q)`_k - (phys dims c p)`_k)) //.
  by rewrite phys_diff // ep eq subrr !mul0r.
move=> p q y z [hp ep] hq.
have hq' : in_cube d q.
  case: hq => hs hall; split=> //; apply/allP => x /(allP hall) /andP [h1 h2]; by rewrite !ltW.
rewrite !(uc_map1 hc) // => -[<-] [<-].
rewrite (@sum_unit F n a (sgn F i) (fun k => (phys dims c q)`_k - (phys dims c p)`_k)) //.
rewrite phys_diff // ep mulrAC pmulr_llt0 ?invr_gt0 ?(fdims_gt0 F hpos) //; apply: sgn_out.
by case: hq => sq /(all_nthP 0); apply; rewrite sq.
Qed.
Lemma inner_normal_opp j v w : (j < d)%N -> uc_inner_normal g (2 * j) = Ok v ->
  uc_inner_normal g (2 * j).+1 = Ok w -> v = [seq - x | x <- w].
Proof.
move=> hj; rewrite !(inner_normalE F hc); [|lia|lia] => -[<-] [<-]; rewrite /mkseq -map_comp.
by apply: eq_map => k /=; rewrite half_even half_odd sgn_even sgn_odd; case: ifP; rewrite ?oppr0.
Qed.
Lemma normals_total i : (i < 2 * d)%N ->
  exists v w a, [/\ uc_local_normal g i = Ok v, uc_inner_normal g i = Ok w, uc_face_area g i = Ok a & 0 < a].
Proof.
move=> hi; rewrite (local_normalE F dims hi) (inner_normalE F hc hi) uc_face_areaE //.
do 3 eexists; split; try reflexivity.
by apply: prodr_gt0 => j _; rewrite invr_gt0 (fdims_gt0 F hpos) // (dir_lt hc).
Qed.
Lemma normal_sum (a : nat -> F) (v w : nat -> seq F) k :
  (forall i, (i < 2 * d)%N -> [/\ uc_face_area g i = Ok (a i), uc_local_normal g i = Ok (v i)
     & uc_inner_normal g i = Ok (w i)]) ->
  \sum_(i < 2 * d) a i * (v i)`_k = 0 /\ \sum_(i < 2 * d) a i * (w i)`_k = 0.
Proof.
move=> H.
have ha j : (j < d)%N -> a (2 * j)%N = a (2 * j).+1.
  move=> hj; have [+ _ _] := H (2 * j)%N ltac:(lia); have [+ _ _] := H (2 * j).+1 ltac:(lia).
  by rewrite !uc_face_areaE; [|lia|lia] => -[<-] [<-]; rewrite half_even half_odd.
have opp (x y : seq F) : x = [seq - z | z <- y] -> x`_k = - y`_k.
  move=> ->; case: (ltnP k (size y)) => hk; first by rewrite (nth_map 0).
  by rewrite !nth_default ?size_map ?oppr0.
split; [rewrite (@sum_pairs _ (fun i => a i * (v i)`_k)) | rewrite (@sum_pairs _ (fun i => a i * (w i)`_k))];
  apply: big1 => j _.
  have [_ h1 _] := H (2 * j)%N ltac:(move: (ltn_ord j); lia).
  have [_ h2 _] := H (2 * j).+1 ltac:(move: (ltn_ord j); lia).
  by rewrite (opp _ _ (local_normal_opp (ltn_ord j) h1 h2)) ha // mulrN addNr.
have [_ _ h1] := H (2 * j)%N ltac:(move: (ltn_ord j); lia).
have [_ _ h2] := H (2 * j).+1 ltac:(move: (ltn_ord j); lia).
by rewrite (opp _ _ (inner_normal_opp (ltn_ord j) h1 h2)) ha // mulrN addNr.
Qed.
End Cell.

Section Grid.
Variable F : realFieldType.
Variables (enum : tpcc -> seq cell) (slice : nat -> seq nat -> nat).
Hypotheses (henum : tpcc_spec enum) (hslice : slice_spec slice).
Variables (d L : nat) (dims : seq nat).
Hypotheses (hd : (0 < d)%N) (hL : (0 < L)%N) (hpos : all (fun n => (0 < n)%N) dims).
Let G := ucube_refine L (ucube_new d dims).
Let G0 := ucube_new d dims.
Let elements := Tpcc true d dims.
Let parts := Tpcc true d (nseq d L).

Lemma L_neq0 : L%:R != 0 :> F. Proof. by rewrite pnatr_eq0 -lt0n. Qed.

(** The numbers of the parts at one face of the coarse hyperedge. *)
Lemma count_coarse i : (i < 2 * d)%N -> (\sum_(k < L ^ d | on_coarse enum d L k i) 1 = L ^ d.-1)%N.
Proof.
move=> hi; have hj : (i %/ 2 < d)%N by rewrite ltn_divLR // mulnC.
set j := (i %/ 2)%N in hj *.
pose x0 := if (i %% 2 == 0)%N then 0%N else L.-1.
have hx0 : (x0 < L)%N by rewrite /x0; case: ifP; rewrite ?prednK // hL.
pose keep (c : cell) := nth 0%N (along c) j == x0.
pose cut (c : cell) := full (take j (along c) ++ drop j.+1 (along c)).
have sp : size (enum parts) = (L ^ d)%N by exact: (size_ref henum hslice).
have -> : (\sum_(k < L ^ d | on_coarse enum d L k i) 1)%N = count keep (enum parts).
  rewrite -sum1_count (big_nth [::]) big_mkord sp; apply: eq_bigl => k.
  have hk : (k < size (enum parts))%N by rewrite sp.
  have /valid_ref [r [er sr ar]] := nth_enum_valid henum hk.
  rewrite /keep er along_full /on_coarse /local_face modn_small // er across_facet_full ?sr //= andbT -/j.
  have hr : (nth 0%N r j < L)%N by apply: (all_nthP 0%N ar); rewrite sr.
  rewrite /x0; have : (i %% 2 < 2)%N by rewrite ltn_mod.
  by case: (i %% 2)%N => [|[|//]] _ /=; lia.
rewrite -size_filter -(size_map cut) -(size_ref henum hslice L d.-1).
apply/perm_size/uniq_perm; last 1 first.
- move=> c; rewrite (mem_enum henum); apply/mapP/idP.
    move=> [e]; rewrite mem_filter (mem_enum henum) => /andP [_ /valid_ref [r [-> sr ar]]] ->.
    apply/valid_ref; rewrite /cut along_full; exists (take j r ++ drop j.+1 r); split=> //.
      by rewrite size_cat size_take size_drop sr hj; lia.
    by rewrite all_cat; apply/andP; split; apply/allP => y hy; apply: (allP ar);
      [exact: mem_take hy | exact: mem_drop hy].
  move=> /valid_ref [r [-> sr ar]].
  exists (full (take j r ++ x0 :: drop j r)).
    rewrite mem_filter (mem_enum henum) /keep along_full nth_cat size_take sr.
    have -> : (if (j < d.-1)%N then j else d.-1) = j by case: ifP => h //; lia.
    rewrite ltnn subnn eqxx /=; apply/valid_ref; exists (take j r ++ x0 :: drop j r); split=> //.
      by rewrite size_cat /= size_take size_drop sr; case: ifP => h; lia.
    by rewrite all_cat /= hx0 -all_cat cat_take_drop.
  have st : size (take j r) = j by rewrite size_take sr; case: ifP => h; lia.
  rewrite /cut along_full take_cat st ltnn subnn take0 cats0.
  by rewrite drop_cat st ltnNge leqnSn /= subSnn /= ?drop0 cat_take_drop.
- rewrite map_inj_in_uniq ?filter_uniq ?(enum_uniq henum) // => c c'.
  rewrite !mem_filter !(mem_enum henum) /keep.
  move=> /andP [/eqP e /valid_ref [r [er sr ar]]] /andP [/eqP e' /valid_ref [r' [er' sr' ar']]].
  move: e e'; rewrite /cut er er' !along_full => e e' /(congr1 along); rewrite !along_full => /eqP.
  rewrite eqseq_cat ?size_take ?sr ?sr' // => /andP [/eqP e1 /eqP e2].
  congr full; rewrite -[r](cat_take_drop j) -[r'](cat_take_drop j) e1; congr cat.
  by rewrite (drop_nth 0%N) ?sr // (drop_nth 0%N (s := r')) ?sr' // e e' e2.
exact: (enum_uniq henum).
Qed.

Lemma dims_part e k j : (e < size (enum elements))%N -> (k < L ^ d)%N -> (j < d)%N ->
  (nth 0%N (fine_dims L dims) (nth 0%N (along_dirs (grid_cell enum d dims L (e * L ^ d + k))) j))%:R^-1 =
  L%:R^-1 * (nth 0%N dims (nth 0%N (along_dirs (nth [::] (enum elements) e)) j))%:R^-1 :> F.
Proof.
move=> he hk hj; have [sE nE] := elem_valid henum he.
have [r [sr ar _ ->]] := part_atE henum hslice hL he hk.
rewrite along_dirs_refine ?nE // (nth_map 0%N) ?natrM ?invfM //.
by rewrite -sE along_dirs_lt // nE.
Qed.

Lemma area_ord ds c : uc_area (hgeo_of F ds c) =
  \prod_(j < n_along c) (nth 0%N ds (nth 0%N (along_dirs c) j))%:R^-1.
Proof. by rewrite uc_areaE (big_nth 0%N) big_mkord size_along_dirs. Qed.
Lemma area_sum e (g : nat -> hgeo F) g0 : (e < size (enum elements))%N -> ucube_at F enum G0 e = Ok g0 ->
  (forall k, (k < L ^ d)%N -> ucube_at F enum G (e * L ^ d + k) = Ok (g k)) ->
  [/\ 0 < uc_area g0, forall k, (k < L ^ d)%N -> uc_area (g k) = uc_area g0 / (L ^ d)%:R
    & \sum_(k < L ^ d) uc_area (g k) = uc_area g0].
Proof.
move=> he; rewrite (coarse_atE F henum hslice hpos he) => -[<-] hg.
have [sE nE] := elem_valid henum he.
have H k : (k < L ^ d)%N -> uc_area (g k) = uc_area (hgeo_of F dims (nth [::] (enum elements) e)) / (L ^ d)%:R.
  move=> hk; have := hg k hk; rewrite (at_Ok F henum hslice hL hpos (coarse_lt henum hslice he hk)) => -[<-].
  have hlt := coarse_lt henum hslice he hk.
  rewrite !area_ord nE (gc_along henum hslice hL hlt).
  under [LHS]eq_bigr do rewrite dims_part //.
  by rewrite big_split /= prodr_const card_ord natrX exprVn mulrC.
split=> //; first by apply: uc_area_gt0.
under eq_bigr => k _ do rewrite H //.
by rewrite sumr_const card_ord -[_ *+ _]mulr_natr divfK // pnatr_eq0 -lt0n expn_gt0 hL.
Qed.
Lemma face_area_sum e i (g : nat -> hgeo F) g0 (a : nat -> F) a0 : (e < size (enum elements))%N ->
  (i < 2 * d)%N -> ucube_at F enum G0 e = Ok g0 ->
  (forall k, (k < L ^ d)%N -> ucube_at F enum G (e * L ^ d + k) = Ok (g k)) ->
  uc_face_area g0 i = Ok a0 -> (forall k, (k < L ^ d)%N -> uc_face_area (g k) i = Ok (a k)) ->
  [/\ 0 < a0, forall k, (k < L ^ d)%N -> a k = a0 / (L ^ d.-1)%:R
    & \sum_(k < L ^ d | on_coarse enum d L k i) a k = a0].
Proof.
move=> he hi; rewrite (coarse_atE F henum hslice hpos he) => -[<-] hg.
have [sE nE] := elem_valid henum he.
have hj : (i %/ 2 < d)%N by rewrite ltn_divLR // mulnC.
rewrite uc_face_areaE ?nE // => -[ea] ha.
have H k : (k < L ^ d)%N -> a k = a0 / (L ^ d.-1)%:R.
  move=> hk; have := hg k hk; rewrite (at_Ok F henum hslice hL hpos (coarse_lt henum hslice he hk)) => -[eg].
  have hlt := coarse_lt henum hslice he hk.
  have := ha k hk; rewrite -eg uc_face_areaE ?(gc_along henum hslice hL hlt) // => -[<-].
  under [LHS]eq_bigr do rewrite dims_part //.
  rewrite big_split /= ea prodr_const mulrC natrX; congr (_ * _).
  rewrite exprVn; congr (_ ^- _).
  have <- : #|[pred x : 'I_d | x == Ordinal hj]| = 1%N by apply: eq_card1.
  have := cardC (pred1 (Ordinal hj)); rewrite card1 card_ord add1n => e1.
  rewrite -[in RHS]e1 /=; apply: eq_card => x; rewrite !inE -val_eqE //=.
split=> //.
  by rewrite -ea; apply: prodr_gt0 => j _; rewrite invr_gt0 (fdims_gt0 F hpos) // (dir_lt sE) // nE.
under eq_bigr => k _ do rewrite H //.
rewrite sumr_const -[_ *+ _]mulr_natr -sum1_card count_coarse //.
by rewrite divfK // pnatr_eq0 -lt0n expn_gt0 hL.
Qed.

(** [on_coarse] as a relation between point sets. *)
Lemma on_coarse_points e k i g g0 : (e < size (enum elements))%N -> (k < L ^ d)%N -> (i < 2 * d)%N ->
  ucube_at F enum G0 e = Ok g0 -> ucube_at F enum G (e * L ^ d + k) = Ok g ->
  on_coarse enum d L k i <->
  (forall p, on_face d i p -> exists2 q, on_face d i q & uc_map g 1 p = uc_map g0 1 q).
Proof.
move=> he hk hi; rewrite (coarse_atE F henum hslice hpos he) => -[<-].
have hlt := coarse_lt henum hslice he hk.
rewrite (at_Ok F henum hslice hL hpos hlt) => -[<-].
have [sE nE] := elem_valid henum he.
have hj : (i %/ 2 < d)%N by rewrite ltn_divLR // mulnC.
have [r [sr ar er egc]] := part_atE henum hslice hL he hk.
have hr j : (j < d)%N -> (nth 0%N r j < L)%N by move=> h; apply: (all_nthP 0%N ar); rewrite sr.
have L0 := L_neq0; have Lp : 0 < L%:R :> F by rewrite ltr0n.
have s2 : (i %% 2 < 2)%N by rewrite ltn_mod.
have sgc := gc_size henum hslice hd hL hlt; have ngc := gc_along henum hslice hL hlt.
have -> : on_coarse enum d L k i = ((nth 0%N r (i %/ 2) + i %% 2)%N == (L * (i %% 2))%N).
  rewrite /on_coarse /local_face modn_small // er across_facet_full ?sr //= andbT.
  by have := hr _ hj; move: s2; case: (i %% 2)%N => [|[|//]] _; lia.
pose up (p : seq F) := mkseq (fun j => ((nth 0%N r j)%:R + p`_j) / L%:R) d.
have upE (p : seq F) j : (j < d)%N -> L%:R * (up p)`_j = (nth 0%N r j)%:R + p`_j.
  by move=> h; rewrite nth_mkseq // mulrC divfK.
have up_in p : in_cube d p -> in_cube d (up p).
  move=> hp; split; first by rewrite size_mkseq.
  apply/(all_nthP 0) => j; rewrite size_mkseq => h; have /andP [p0 p1] := in_cube_nth j hp.
  rewrite nth_mkseq // ler_pdivl_mulr // ler_pdivr_mulr // mul0r mul1r addr_ge0 ?ler0n //=.
  by rewrite (le_trans (y := (nth 0%N r j).+1%:R)) ?ler_nat ?hr // -addn1 natrD ler_add2l.
have img p : in_cube d p -> uc_map (hgeo_of F (fine_dims L dims) (grid_cell enum d dims L (e * L ^ d + k))) 1 p =
    Ok (phys dims (nth [::] (enum elements) e) (up p)).
  move=> hp; rewrite uc_map1 ?ngc // egc; congr Ok; apply: phys_refine; rewrite ?nE ?size_mkseq //.
    by case: hp.
  exact: upE.
split.
  move=> /eqP h p [hp ep]; exists (up p); last by rewrite img // uc_map1 ?nE //; exact: up_in.
  split; first exact: up_in.
  by apply: (mulfI L0); rewrite upE // ep -natrD h natrM.
pose p := mkseq (fun j => if j == (i %/ 2)%N then (i %% 2)%:R else 0 : F) d.
have hp : on_face d i p.
  split; last by rewrite nth_mkseq // eqxx.
  split; rewrite ?size_mkseq //; apply/(all_nthP 0) => j; rewrite size_mkseq => h; rewrite nth_mkseq //.
  by case: ifP => _; rewrite ?lexx ?ler01 // ler0n lern1 -ltnS.
move=> /(_ p hp) [q [hq eq]]; rewrite img; last by case: hp.
rewrite uc_map1 ?nE // => -[/(@phys_inj _ _ hpos)] /(_ sE sE) e2.
have := congr1 (fun s => s`_(nth 0%N (along_dirs (nth [::] (enum elements) e)) (i %/ 2))) e2.
have ha := dir_lt sE; rewrite nE in ha; rewrite !place_nth ?sE ?ha // mem_nth ?size_along_dirs ?nE //.
rewrite index_uniq ?along_dirs_uniq ?size_along_dirs ?nE // => /addrI.
rewrite eq => /(congr1 (fun x => L%:R * x)); rewrite upE // nth_mkseq // eqxx -natrD -natrM.
by move=> /eqP; rewrite eqr_nat.
Qed.
End Grid.
