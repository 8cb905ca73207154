(** Proofs: file graphs, node types, histories of refinement, satisfiability of the TPCC contract. *)
From mathcomp Require Import all_ssreflect all_algebra zify.
From Verif Require Import M_Base L_Base M_Index S_Index L_Index M_Topology S_Topology L_Topology.
Set Implicit Arguments. Unset Strict Implicit. Unset Printing Implicit Defensive.
Implicit Types (c E F A B : cell) (dims r : seq nat).

(** *** The contract of TPCC can be met *)
Lemma ex_enum_spec : tpcc_spec ex_enum.
Proof.
move=> [bnd k dims]; rewrite /ex_enum /=; split.
  elim: dims k => [|n dims IH] k /=; first by case: eqP.
  have up : uniq (if bnd then iota 0 n.+1 else iota 1 n.-1) by case: bnd {IH}; exact: iota_uniq.
  rewrite cat_uniq; apply/and3P; split.
  - by apply: allpairs_uniq => // -[x c] [x' c'] _ _ /= [-> ->].
  - apply/hasPn => c; case: k => [|k] //; case/allpairsP => -[x c'] [_ _ ->].
    by apply/negP => /allpairsP [[y c'']] [_ _].
  - case: k => [//|k]; apply: allpairs_uniq => //; first exact: iota_uniq.
    by move=> -[x c] [x' c'] _ _ /= [-> ->].
elim: dims k => [|n dims IH] k c /=.
  by rewrite /valid /=; case: c => [|p c]; case: k => [|k]; rewrite ?inE.
have hp x : (x \in (if bnd then iota 0 n.+1 else iota 1 n.-1)) = valid_entry bnd n (false, x).
  by rewrite /valid_entry /=; case: bnd {IH}; rewrite ?inE ?mem_iota; lia.
rewrite mem_cat; apply/orP/idP.
  case; last case: k => [//|k]; move=> /allpairsP [[x c'] /= [hx hc ->]]; rewrite IH in hc;
    case/and3P: hc => /= h1 h2 h3; apply/and3P; split; rewrite /= ?eqSS //.
  - by rewrite h3 -hp hx.
  - by rewrite h3 andbT /valid_entry /=; move: hx; rewrite mem_iota.
case: c => [|[[] x] c] /and3P [/= h1]; rewrite // ?eqSS in h1 *; rewrite /n_along /= ?add1n ?add0n.
  case: k => [//|k] h2 /andP [hx h3]; right; apply/allpairsP; exists (x, c); split=> //=.
    by rewrite mem_iota /= add0n.
  by rewrite IH /valid /= h1 -eqSS h2.
move=> h2 /andP [hx h3]; left; apply/allpairsP; exists (x, c); split=> //=; first by rewrite hp.
by rewrite IH /valid /= h1 h2.
Qed.

Lemma ex_slice_spec : slice_spec ex_slice.
Proof.
move=> L m; split.
- elim: m => [|m IH] [|x c] //= [h] /andP [hx hl]; have := IH c h hl; rewrite expnS; nia.
- elim: m => [|m IH] [|x c] [|x' c'] //= [h] [h'] /andP [hx hl] /andP [hx' hl'].
  rewrite /ex_slice /= -/(ex_slice L c) -/(ex_slice L c') ![_ + L * _]addnC.
  by move=> /(mul_add_inj hx hx') [e ->]; rewrite (IH c c').
- elim: m => [|m IH] k; first by rewrite expn0; case: k => // _; exists [::].
  rewrite expnS => hk; have hL : 0 < L by case: L hk {IH}.
  have [|c [h hl e]] := IH (k %/ L); first by rewrite ltn_divLR // mulnC.
  exists (k %% L :: c); split; rewrite /= ?h ?ltn_mod ?hL //.
  by rewrite /ex_slice /= -/(ex_slice L c) e addnC mulnC -divn_eq.
Qed.

(** *** Base 3 codes *)
Lemma base3_cons p ps : base3 (p :: ps) = p + 3 * base3 ps.
Proof.
rewrite /base3 /= big_ord_recl /= expn0 muln1; congr addn; rewrite big_distrr /=.
by apply: eq_bigr => i _; rewrite expnS; lia.
Qed.

Lemma base3_inj ps qs : size ps = size qs -> all (fun x => x < 3) ps -> all (fun x => x < 3) qs ->
  base3 ps = base3 qs -> ps = qs.
Proof.
elim: ps qs => [|p ps IH] [|q qs] //= [h] /andP [hp hps] /andP [hq hqs]; rewrite !base3_cons.
by rewrite ![_ + 3 * _]addnC => /(mul_add_inj hp hq) [/(IH _ h hps hqs) -> ->].
Qed.

Lemma planes_lt3 dims A : all (fun x => x < 3) (planes dims A).
Proof.
by apply/allP => x /mapP [[n p] _ ->]; rewrite /plane; case: p.1 => //=; case: (p.2 == 0) => //; case: (p.2 == n).
Qed.

Lemma size_planes dims A : size A = size dims -> size (planes dims A) = size dims.
Proof. by move=> h; rewrite size_map size_zip h minnn. Qed.

Lemma nth_planes dims A i : size A = size dims -> i < size dims ->
  nth 0 (planes dims A) i = plane (nth 0 dims i) (nth (false, 0) A i).
Proof.
move=> h hi; rewrite (nth_map (0, (false, 0))) ?size_zip ?h ?minnn //.
by rewrite nth_zip // h.
Qed.

Lemma base3_eq0 ps : (base3 ps == 0) = all (fun x => x == 0) ps.
Proof. by elim: ps => [|p ps IH]; rewrite ?base3_cons /= -?IH /base3 ?big_ord0 //; lia. Qed.

Lemma acrossE c : across c = [seq (nth (false, 0) c i).2 | i <- across_dirs c].
Proof.
rewrite /across /across_dirs -{1}(mkseq_nth (false, 0) c) /mkseq filter_map -map_comp.
by congr map.
Qed.

Lemma size_across c : size (across c) = size c - n_along c.
Proof.
rewrite /across size_map size_filter /n_along -(count_predC fst c) addKn.
by apply: eq_count.
Qed.

Lemma face_codeE dims A n : size A = size dims -> n = size A - n_along A -> all (fun m => 0 < m) dims ->
  face_code dims n A = Ok (base3 (planes dims A)).
Proof.
move=> hs hn hpos; rewrite /face_code.
pose t i := plane (nth 0 dims i) (nth (false, 0) A i) * 3 ^ i.
have hsd : size (across_dirs A) = n by rewrite hn -size_across acrossE size_map.
have H k : k <= n -> foro k (fun k code => obind (exterior_coordinate A k) (fun x =>
    obind (exterior_direction A k) (fun dir =>
      Ok (if (x == 0) || (x == nth 0 dims dir) then code + (1 + (x != 0)) * 3 ^ dir else code)))) 0
    = Ok (\sum_(i <- take k (across_dirs A)) t i).
  elim: k => [|k IH] hk; first by rewrite take0 big_nil.
  rewrite foroS IH ?(ltnW hk) //= /exterior_coordinate /exterior_direction -hn hk /=.
  have hk' : k < size (across_dirs A) by rewrite hsd.
  rewrite (take_nth 0) // -cats1 big_cat big_seq1 /= acrossE (nth_map 0) //.
  set i := nth 0 (across_dirs A) k.
  have : i \in across_dirs A by rewrite mem_nth.
  rewrite mem_filter mem_iota /= add0n => /andP [hi1 hi2].
  congr Ok; rewrite /t /plane (negbTE hi1).
  have hn0 : 0 < nth 0 dims i by apply: (allP hpos); rewrite mem_nth // -hs.
  case: eqP => [->|hx] /=; first by rewrite addn0 mul1n addnC.
  by case: eqP => _ /=; rewrite ?mul0n ?add0n // addnC.
rewrite H // -hsd take_size /base3 size_planes //; congr Ok.
rewrite big_filter -(big_mkord xpredT (fun i => nth 0 (planes dims A) i * 3 ^ i)) /index_iota subn0 hs.
rewrite big_mkcond; apply: eq_big_seq => i; rewrite mem_iota /= add0n => hi; rewrite nth_planes //.
by case: ifP => // /negbFE h; rewrite /plane h.
Qed.

Lemma upd_same (w : seq nat) i : upd w i (nth 0 w i) = w.
Proof.
by apply: (@eq_from_nth _ 0); rewrite size_upd // => k hk; rewrite nth_upd; case: andP => // -[/eqP ->].
Qed.

(** *** Node types *)
Section Types.
Variable enum : tpcc -> seq cell.
Variable slice : nat -> seq nat -> nat.
Hypothesis henum : tpcc_spec enum.
Hypothesis hslice : slice_spec slice.
Variables (d L : nat) (dims : seq nat).
Hypothesis hd : 0 < d.
Hypothesis hL : 0 < L.

Lemma refine_typesE r v : size r = d -> size v = 2 * d ->
  refine_types d L (full r) v =
  Ok (mkseq (fun i => if at_boundary L r (i %/ 2) (i %% 2) then nth 0 v i else 0) (2 * d)).
Proof.
move=> hr hv.
apply: (@foro_upd _ _ (fun i vi => if at_boundary L r (i %/ 2) (i %% 2) then vi else 0)) => // i w hi hw.
have hj := half_lt hi.
rewrite (get_faceE (d := d)) ?n_along_full //= /exterior_coordinate size_facet size_full.
rewrite n_along_facet ?n_along_full ?hr //; have -> : 0 < d - d.-1 by lia.
rewrite /= across_facet_full ?hr //= -negb_or -/(at_boundary L r (i %/ 2) (i %% 2)).
by case: at_boundary; rewrite //= upd_same.
Qed.

Hypothesis hdim : d <= size dims.
Hypothesis hpos : all (fun n => 0 < n) dims.
Let T := cubic_refine enum L (cubic_new enum d dims).
Let N := cnode_refine enum L (cnode_new enum d dims).
Let elem_of idx := nth [::] (enum (Tpcc true d dims)) (idx %/ L ^ d).
Let part_of idx := along (nth [::] (enum (Tpcc true d (nseq d L))) (idx %% L ^ d)).

Lemma cnode_edges : cn_n_edges N = cu_n_edges T. Proof. by []. Qed.

Lemma cnode_atE idx : idx < cu_n_edges T ->
  cnode_at enum N idx = Ok (mkseq (fun i => let j := i %/ 2 in let s := i %% 2 in
    if at_boundary L (part_of idx) j s then base3 (planes dims (facet_at (elem_of idx) j s)) else 0)
    (2 * d)).
Proof.
move=> h; have [hE h1 h2 hr [hl er]] := idx_parts henum hslice hL h.
have hEa : n_along (elem_of idx) = d by case/and3P: hE => _ /eqP.
have hEs : size (elem_of idx) = size dims by case/and3P: hE => /eqP.
have he : n_elements enum (cn_ref_elem N) = L ^ d by exact: size_ref.
rewrite /cnode_at cnode_edges h he /get_element /= /n_elements h1 /= -/(elem_of idx).
rewrite (@foro_upd _ _ (fun i _ => base3 (planes dims (facet_at (elem_of idx) (i %/ 2) (i %% 2)))));
  last first.
- move=> i w hi hw; rewrite (get_faceE hEa) //=.
  rewrite face_codeE //; first by rewrite size_facet.
  rewrite size_facet n_along_facet; last by rewrite hEa half_lt.
  by rewrite hEs hEa; lia.
- by rewrite size_nseq.
rewrite /= h2 /= er refine_typesE ?size_mkseq //; congr Ok.
apply/eq_in_map => i; rewrite mem_iota add0n /= => hi.
by case: ifP => //; rewrite nth_mkseq.
Qed.

Lemma planes_refine ds c B : size c = size ds -> size B = n_along c -> all fst B ->
  planes [seq L * n | n <- ds] (refine L c B) = planes ds c.
Proof.
rewrite /n_along /planes; elim: c B ds => [|[[] x] c IH] B [|n ds] //=.
  move=> [h]; case: B => [//|[b y] B] /= [hB] /andP [hb hall]; rewrite hb IH //.
move=> [h]; rewrite add0n => hB hall; rewrite IH //; congr cons; rewrite /plane /=.
by rewrite muln_eq0 eqn_pmul2l //; case: (L) hL.
Qed.

Lemma across_refine_full c r : size r = n_along c ->
  across (refine L c (full r)) = [seq L * x | x <- across c].
Proof.
rewrite /n_along /across; elim: c r => [//|[[] x] c IH] r /=; rewrite ?add0n ?add1n.
  by case: r => [//|y r] [h] /=; rewrite IH.
by move=> h; rewrite /= IH.
Qed.

Local Notation fine_code := (fine_code L dims).

Lemma across_interior E r j s : size r = n_along E -> j < n_along E -> all (fun x => x < L) r -> s < 2 ->
  ~~ at_boundary L r j s -> ~~ all (fun x => L %| x) (across (facet_at (refine L E (full r)) j s)).
Proof.
move=> hs hj hl h2 hb; rewrite facet_refine //.
have hlj : nth 0 r j < L by apply: (allP hl); rewrite mem_nth // hs.
have {hb hl} hx : ~~ (L %| nth 0 r j + s).
  move: hb; rewrite /at_boundary => /norP [b1 b2]; apply/negP => /dvdnP [q eq].
  by case: q eq => [|[|q]] eq; move: b1 b2; rewrite eq ?mul1n ?eqxx //; nia.
move: hs hj hx; clear hlj; rewrite /n_along.
elim: E r j => [//|[[] x] E IH] r j /=; rewrite ?add0n ?add1n; last first.
  by move=> h h' hx; rewrite /across /= negb_and -/(across _) IH ?orbT.
case: r => [//|y r] [h]; case: j => [|j] /=; last by rewrite ltnS => h' hx; exact: IH.
by move=> _ hx; rewrite /across /= negb_and dvdn_addr ?dvdn_mulr // hx.
Qed.

Lemma cnode_fine idx i v : idx < cu_n_edges T -> i < 2 * d -> cnode_at enum N idx = Ok v ->
  nth 0 v i = fine_code (facet_at (grid_cell enum d dims L idx) (i %/ 2) (i %% 2)).
Proof.
move=> h hi; rewrite cnode_atE // => -[<-]; rewrite nth_mkseq //=.
have [hE h1 h2 hr [hl er]] := idx_parts henum hslice hL h.
have hEa : n_along (elem_of idx) = d by case/and3P: hE => _ /eqP.
have hEs : size (elem_of idx) = size dims by case/and3P: hE => /eqP.
have hj := half_lt hi; have hs : i %% 2 < 2 by rewrite ltn_mod.
rewrite (grid_cellE henum hslice) // -/(elem_of idx) -/(part_of idx) /S_Topology.fine_code; case: ifP => hb.
  have hnx : nth 0 (part_of idx) (i %/ 2) + i %% 2 = L * (i %% 2).
    by apply/eqP; rewrite -(boundaryE hd hL) ?hr.
  have hsz : size (along (facet_at (full (part_of idx)) (i %/ 2) (i %% 2))) =
             n_along (facet_at (elem_of idx) (i %/ 2) (i %% 2)).
    by rewrite size_along !n_along_facet ?n_along_full ?hr ?hEa.
  rewrite facet_refine ?hr ?hEa // refine_boundary ?hr ?hEa //.
  rewrite across_refine_full // ifT; last by rewrite all_map; apply/allP => x _; rewrite /= dvdn_mulr.
  rewrite planes_refine ?size_facet ?size_full //.
  by rewrite /full all_map; apply/allP.
by rewrite ifN // across_interior ?hr ?hEa // hb.
Qed.

(** With hyperedges of full dimension a face has one normal direction, and faces inside a coarse
    hyperedge touch no boundary plane. *)
Lemma fine_code_exact f : size f = size dims -> n_along f = d.-1 -> (d = size dims \/ L = 1) ->
  fine_code f = base3 (planes [seq L * n | n <- dims] f).
Proof.
move=> hs ha hor; rewrite /S_Topology.fine_code; case: ifP => // hn.
case: hor => [hor|hor]; last first.
  by move: hn; rewrite hor; have -> : all (fun x => 1 %| x) (across f) by apply/allP => x _; rewrite dvd1n.
apply/esym/eqP; rewrite base3_eq0.
have hs' : size f = size [seq L * n | n <- dims] by rewrite size_map.
apply/(all_nthP 0) => k; rewrite size_planes // -hs' => hk; rewrite nth_planes // -?hs' //.
rewrite /plane; case hp : (nth (false, 0) f k).1 => //.
have hsz : size (across f) = 1 by rewrite size_across hs ha -hor; lia.
have hx : across f = [:: (nth (false, 0) f k).2].
  have : (nth (false, 0) f k).2 \in across f.
    by apply/mapP; exists (nth (false, 0) f k) => //; rewrite mem_filter hp mem_nth.
  by case: (across f) hsz => [//|x [|]] // _; rewrite inE => /eqP ->.
move: hn; rewrite hx /= andbT => hn; have [e|_] := (nth (false, 0) f k).2 =P 0.
  by rewrite e dvdn0 in hn.
rewrite (nth_map 0) -?hs //; have [e|//] := (nth (false, 0) f k).2 =P L * nth 0 dims k.
by rewrite e dvdn_mulr in hn.
Qed.
End Types.

(** *** One-dimensional hypergraphs from file *)
Section FileGraph.
Variable enum : tpcc -> seq cell.
Variable slice : nat -> seq nat -> nat.
Hypothesis henum : tpcc_spec enum.
Hypothesis hslice : slice_spec slice.
Variables (L : nat) (D : domain).
Hypothesis hL : 0 < L.
Hypothesis hE : size (do_nodes D) = do_n_edges D.
Hypothesis hN : forall e, e < do_n_edges D -> size (nth [::] (do_nodes D) e) = 2.

Let T := file_refine enum L (file_new enum 1 D).
Let refs := Tpcc true 1 [:: L].
Let pts := Tpcc false 0 [:: L].

Lemma fi_epeE : fi_epe T = L.
Proof. by have := size_ref henum hslice L 1; rewrite expn1. Qed.

Lemma fi_n_edgesE : fi_n_edges T = do_n_edges D * L.
Proof. by have e := fi_epeE; rewrite -[in RHS]e. Qed.

Lemma valid_pts c : valid pts c = [&& size c == 1, ~~ (nth (true, 0) c 0).1,
  0 < (nth (true, 0) c 0).2 & (nth (true, 0) c 0).2 < L].
Proof. by case: c => [|[[] x] [|q c]] //=; rewrite /valid /valid_entry /n_along /= ?andbF ?andbT. Qed.

Lemma size_pts : size (enum pts) = L.-1.
Proof.
rewrite -(size_iota 1 L.-1) -(size_map (fun x => [:: (false, x)] : cell)).
apply/perm_size/uniq_perm; first exact: enum_uniq.
  by rewrite map_inj_uniq ?iota_uniq // => x y [].
move=> c; rewrite mem_enum // valid_pts; apply/and4P/mapP.
  case: c => [|[b x] [|q c]] //= [] // _ hb h1 h2; exists x; last by case: b hb.
  by rewrite mem_iota; lia.
by move=> [x]; rewrite mem_iota => hx ->; split=> //=; lia.
Qed.

(** Where hyperedge number [k] of a coarse edge lies, and the number of the part at position [p]. *)
Definition at_pos p := index [:: (true, p)] (enum refs).
Definition new_node e p := do_n_nodes D + L.-1 * e + index [:: (false, p)] (enum pts).
Definition walk e p :=
  if p == 0 then nth 0 (nth [::] (do_nodes D) e) 0
  else if p == L then nth 0 (nth [::] (do_nodes D) e) 1 else new_node e p.

Lemma valid_refs p : p < L -> valid refs [:: (true, p)].
Proof. by move=> h; rewrite /valid /valid_entry /n_along /= h. Qed.
Lemma valid_pt p : 0 < p < L -> valid pts [:: (false, p)].
Proof. by move=> h; rewrite valid_pts /= h. Qed.

Lemma at_pos_lt p : p < L -> at_pos p < L.
Proof. by move=> h; have := index_lt henum (valid_refs h); rewrite [X in _ < X]fi_epeE. Qed.
Lemma at_pos_inj p q : p < L -> q < L -> at_pos p = at_pos q -> p = q.
Proof. by move=> h h' /(index_inj henum (valid_refs h) (valid_refs h')) []. Qed.

Lemma slice_nil : slice L [::] = 0.
Proof. by have [h _ _] := hslice L 0; have := h [::] erefl isT; rewrite expn0; case: slice. Qed.

Lemma file_walk e p : e < do_n_edges D -> p < L ->
  file_at enum slice T (e * L + at_pos p) = Ok [:: walk e p; walk e p.+1].
Proof.
move=> he hp; have hq := at_pos_lt hp.
have hn : e * L + at_pos p < fi_n_edges T.
  by rewrite fi_n_edgesE; nia.
have e1 : (e * L + at_pos p) %/ L = e by rewrite divnMDl // divn_small ?addn0.
have e2 : (e * L + at_pos p) %% L = at_pos p by rewrite modnMDl modn_small.
rewrite /file_at hn fi_epeE e1 e2 (loadE [::]) ?hE //=.
rewrite /get_element /n_elements -/refs.
have -> : at_pos p < size (enum refs) by apply: index_lt => //; exact: valid_refs.
rewrite /= /at_pos nth_index ?mem_enum ?valid_refs //.
have h1 : size [:: p] = 1 by [].
have h2 : all (fun x => x < L) [:: p] by rewrite /= hp.
have := @refine_nodesE enum slice henum 1 L (isT : 0 < 1) hL 1 (n_elements enum pts) (do_n_nodes D)
  [:: p] e (nth [::] (do_nodes D) e) h1 h2 (hN he).
rewrite he /= => H; apply: (etrans H); congr Ok; rewrite /mkseq /= -/pts.
rewrite /at_boundary /= /along /= slice_nil !addn0 !mul1n muln1 /walk /new_node /n_elements size_pts.
congr [:: _; _].
  by case: (p =P 0) => //= h; have -> : (p == L) = false by lia.
by rewrite addn1 /=.
Qed.

Lemma walk_new e p : e < do_n_edges D -> 0 < p < L ->
  walk e p = new_node e p /\ do_n_nodes D <= walk e p < fi_n_nodes T.
Proof.
move=> he hp; have -> : walk e p = new_node e p.
  by rewrite /walk; case: eqP => [|_]; [lia | case: eqP => //; lia].
split=> //; have := index_lt henum (valid_pt hp); rewrite size_pts /new_node => hi.
by rewrite /T /= /n_elements size_pts hc_powE /= expn0; nia.
Qed.

Lemma new_inj e e' p p' : 0 < p < L -> 0 < p' < L -> new_node e p = new_node e' p' -> e = e' /\ p = p'.
Proof.
move=> hp hp'; rewrite /new_node -!addnA => /addnI.
have := index_lt henum (valid_pt hp); have := index_lt henum (valid_pt hp'); rewrite size_pts => h' h.
move=> /(mul_add_inj h h') [-> e2]; split=> //.
by have [] := index_inj henum (valid_pt hp) (valid_pt hp') e2.
Qed.

Lemma new_onto k : do_n_nodes D <= k < fi_n_nodes T ->
  exists e p, [/\ e < do_n_edges D, 0 < p < L & walk e p = k].
Proof.
rewrite /T /= /n_elements -/pts size_pts hc_powE /= expn0 muln1 => /andP [h1 h2].
have hL1 : 0 < L.-1 by case: (L.-1) h2 => //; rewrite muln0; lia.
set k' := k - do_n_nodes D; have hk' : k' < do_n_edges D * L.-1 by rewrite /k'; lia.
have hq : k' %/ L.-1 < do_n_edges D by rewrite ltn_divLR.
have hm : k' %% L.-1 < size (enum pts) by rewrite size_pts ltn_mod.
have := nth_enum_valid henum hm; rewrite valid_pts => /and4P [/eqP h3 h4 h5 h6].
set c := nth [::] (enum pts) (k' %% L.-1) in h3 h4 h5 h6.
have ec : c = [:: (false, (nth (true, 0) c 0).2)].
  by move: h3 h4; case: (c) => [|[[] x] [|]].
have hp : 0 < (nth (true, 0) c 0).2 < L by rewrite h5.
exists (k' %/ L.-1), (nth (true, 0) c 0).2; split=> //.
have [-> _] := walk_new hq hp; rewrite /new_node -ec /c index_uniq ?enum_uniq //.
by rewrite -addnA [L.-1 * _]mulnC -divn_eq /k'; lia.
Qed.

Lemma fi_counts : fi_n_edges T = do_n_edges D * L /\
  fi_n_nodes T = do_n_nodes D + do_n_edges D * L.-1.
Proof.
split; first exact: fi_n_edgesE.
by rewrite /T /= /n_elements -/pts size_pts hc_powE /= expn0 muln1.
Qed.
End FileGraph.

(** *** Histories of refinements *)
Section Histories.
Variable enum : tpcc -> seq cell.
Variable slice : nat -> seq nat -> nat.
Hypothesis henum : tpcc_spec enum.
Hypothesis hslice : slice_spec slice.

Lemma hg_refine_last l ls H :
  foldl (fun H l => hg_refine enum l H) H (rcons ls l) = hg_refine enum l H.
Proof.
rewrite -cats1 foldl_cat /=; elim/last_ind: ls => [//|ls l' IH].
by rewrite -cats1 foldl_cat /= -IH.
Qed.

Lemma hg_refine_one d dims H : hg_new enum d dims = Ok H -> hg_refine enum 1 H = H.
Proof. by rewrite /hg_new; case: ifP => // _ [<-]. Qed.

Lemma fg_refine_last l ls H :
  foldl (fun H l => fg_refine enum l H) H (rcons ls l) = fg_refine enum l H.
Proof.
rewrite -cats1 foldl_cat /=; elim/last_ind: ls => [//|ls l' IH].
by rewrite -cats1 foldl_cat /= -IH.
Qed.

(** A hypergraph built from an already refined topology agrees with one refined later. *)
Lemma refined_parts d dims l :
  let T := cubic_new enum d dims in
  [/\ ucube_of (cubic_refine enum l T) = ucube_refine l (ucube_of T),
      cnode_of (cubic_refine enum l T) = cnode_refine enum l (cnode_of T),
      cnode_refine enum l (cnode_of T) = cnode_refine enum l (cnode_new enum d dims)
    & ucube_of T = ucube_new d dims].
Proof. by []. Qed.

Lemma hg_agree d dims H ls : hg_new enum d dims = Ok H ->
  let H' := foldl (fun H l => hg_refine enum l H) H ls in
  let l := last 1 ls in
  [/\ cu_level (hg_topo H') = l /\ uc_level (hg_geom H') = l, cn_level (hg_node H') = l,
      hg_n_nodes H' = cu_n_nodes (hg_topo H'), hg_n_data H' = cu_n_edges (hg_topo H')
    & [/\ cn_n_edges (hg_node H') = cu_n_edges (hg_topo H'),
          n_elements enum (uc_elements (hg_geom H')) * uc_n_loc (hg_geom H') = cu_n_edges (hg_topo H'),
          uc_n_loc (hg_geom H') = cu_epe (hg_topo H')
        & n_elements enum (cn_ref_elem (hg_node H')) = cu_epe (hg_topo H')]].
Proof.
move=> h /=.
have -> : foldl (fun H l => hg_refine enum l H) H ls = hg_refine enum (last 1 ls) H.
  elim/last_ind: ls => [|ls l _]; first by rewrite (hg_refine_one h).
  by rewrite hg_refine_last last_rcons.
move: h; rewrite /hg_new; case: ifP => // _ [<-] /=.
have e : hc_pow d (last 1 ls) = n_elements enum (create_tpcc d (nseq d (last 1 ls))).
  by rewrite hc_powE; apply/esym; exact: size_ref.
by rewrite e; split.
Qed.

Lemma fg_agree d D H ls : fg_new enum d D = Ok H ->
  let H' := foldl (fun H l => fg_refine enum l H) H ls in
  let l := last 1 ls in
  [/\ fi_level (fg_topo H') = l /\ gf_level (fg_geom H') = l, fn_level (fg_node H') = l,
      fg_n_nodes H' = fi_n_nodes (fg_topo H'), fg_n_data H' = fi_n_edges (fg_topo H')
    & [/\ fn_n_edges (fg_node H') = fi_n_edges (fg_topo H'),
          do_n_edges D * gf_n_loc (fg_geom H') = fi_n_edges (fg_topo H'),
          gf_n_loc (fg_geom H') = fi_epe (fg_topo H')
        & H' = (if ls is [::] then H else fg_refine enum l H)]].
Proof.
move=> h /=.
have e0 : fg_refine enum 1 H = H by move: h; rewrite /fg_new; case: ifP => // _ [<-].
have -> : foldl (fun H l => fg_refine enum l H) H ls = fg_refine enum (last 1 ls) H.
  elim/last_ind: ls => [|ls l _]; first by rewrite e0.
  by rewrite fg_refine_last last_rcons.
move: h e0; rewrite /fg_new; case: ifP => // _ [<-] e0 /=.
have e : hc_pow d (last 1 ls) = n_elements enum (create_tpcc d (nseq d (last 1 ls))).
  by rewrite hc_powE; apply/esym; exact: size_ref.
by rewrite e; split=> //; split=> //; case: ls {e} => //; rewrite [last _ _]/= e0.
Qed.
End Histories.

(** *** Hypergraphs from file, any dimension *)
Section FileShare.
Variable enum : tpcc -> seq cell.
Variable slice : nat -> seq nat -> nat.
Hypothesis henum : tpcc_spec enum.
Hypothesis hslice : slice_spec slice.
Variables (d L : nat) (D : domain).
Hypothesis hd : 0 < d.
Hypothesis hL : 0 < L.
Hypothesis hE : size (do_nodes D) = do_n_edges D.
Hypothesis hN : forall e, e < do_n_edges D ->
  size (nth [::] (do_nodes D) e) = 2 * d /\ all (fun k => k < do_n_nodes D) (nth [::] (do_nodes D) e).
Let T := file_refine enum L (file_new enum d D).
Let refs := Tpcc true d (nseq d L).
Let rfaces := Tpcc false d.-1 (nseq d L).
Let part_of idx := nth [::] (enum refs) (idx %% L ^ d).

Local Notation local_face := (local_face enum d L).
Local Notation on_coarse := (on_coarse enum d L).

Definition file_node idx i :=
  if on_coarse idx i then L ^ d.-1 * nth 0 (nth [::] (do_nodes D) (idx %/ L ^ d)) i
                          + slice L (along (local_face idx i))
  else do_n_nodes D * L ^ d.-1 + size (enum rfaces) * (idx %/ L ^ d) + index (local_face idx i) (enum rfaces).

Lemma file_edges : fi_n_edges T = do_n_edges D * L ^ d.
Proof. by rewrite -(size_ref henum hslice). Qed.

Lemma part_full idx : exists r, [/\ part_of idx = full r, size r = d & all (fun x => x < L) r].
Proof.
have h : idx %% L ^ d < size (enum refs) by rewrite (size_ref henum hslice) ltn_mod expn_gt0 hL.
exact: ((valid_ref _ _ _ _).1 (nth_enum_valid henum h)).
Qed.

Lemma on_coarseE idx i r : part_of idx = full r -> size r = d -> i < 2 * d ->
  on_coarse idx i = at_boundary L r (i %/ 2) (i %% 2).
Proof.
move=> e hr hi; rewrite /S_Topology.on_coarse /S_Topology.local_face -/refs -/(part_of idx) e across_facet_full ?hr ?half_lt //=.
by rewrite andbT.
Qed.

Lemma file_atE idx : idx < fi_n_edges T ->
  file_at enum slice T idx = Ok (mkseq (file_node idx) (2 * d)).
Proof.
move=> h; rewrite /file_at h.
have he : fi_epe T = L ^ d by exact: size_ref.
have h0 : 0 < L ^ d by rewrite expn_gt0 hL.
have hq : idx %/ L ^ d < do_n_edges D by rewrite ltn_divLR // -file_edges.
have hm : idx %% L ^ d < size (enum refs) by rewrite (size_ref henum hslice) ltn_mod.
have [r [er hr hl]] := part_full idx.
rewrite he (loadE [::]) hE hq /= /get_element /n_elements hm /= -/refs -/(part_of idx) er.
have [hs _] := hN hq.
rewrite (refine_nodesE slice henum hd hL) // hc_powE; congr Ok.
apply/eq_in_map => i; rewrite mem_iota add0n /= => hi.
by rewrite /file_node (on_coarseE er hr hi) /S_Topology.local_face -/refs -?/(part_of _) er.
Qed.

Lemma file_share idx idx' i i' : idx < fi_n_edges T -> idx' < fi_n_edges T ->
  i < 2 * d -> i' < 2 * d ->
  (file_node idx i = file_node idx' i' <->
   if on_coarse idx i
   then [/\ on_coarse idx' i', nth 0 (nth [::] (do_nodes D) (idx %/ L ^ d)) i =
              nth 0 (nth [::] (do_nodes D) (idx' %/ L ^ d)) i'
          & along (local_face idx i) = along (local_face idx' i')]
   else [/\ ~~ on_coarse idx' i', idx %/ L ^ d = idx' %/ L ^ d & local_face idx i = local_face idx' i']).
Proof.
have h0 : 0 < L ^ d by rewrite expn_gt0 hL.
have [hs1 hs2 _] := hslice L d.-1.
have B k l : k < fi_n_edges T -> l < 2 * d ->
    if on_coarse k l
    then [/\ size (along (local_face k l)) = d.-1, all (fun x => x < L) (along (local_face k l))
           & file_node k l < do_n_nodes D * L ^ d.-1]
    else valid rfaces (local_face k l).
  move=> hk hl; have [r [er hr hlr]] := part_full k.
  have hj := half_lt hl; have h2 : l %% 2 < 2 by rewrite ltn_mod.
  rewrite (on_coarseE er hr hl) /file_node (on_coarseE er hr hl) /S_Topology.local_face -/refs -?/(part_of _) er; case: ifP => hb; last first.
    by apply: valid_rface; rewrite ?hb.
  have e1 : size (along (facet_at (full r) (l %/ 2) (l %% 2))) = d.-1.
    by rewrite size_along n_along_facet ?n_along_full hr.
  have e2 : all (fun x => x < L) (along (facet_at (full r) (l %/ 2) (l %% 2))).
    rewrite along_facet_full ?hr // all_cat; apply/andP; split; apply/allP => x hx; apply: (allP hlr).
      exact: mem_take hx.
    exact: mem_drop hx.
  split=> //; have := hs1 _ e1 e2.
  have hq : k %/ L ^ d < do_n_edges D by rewrite ltn_divLR // -file_edges.
  have [hsz hall] := hN hq.
  have : nth 0 (nth [::] (do_nodes D) (k %/ L ^ d)) l < do_n_nodes D.
    by apply: (allP hall); rewrite mem_nth ?hsz.
  move: (nth 0 _ l) (slice _ _) (L ^ d.-1) (do_n_nodes D) => a s P n h1 h3.
  by rewrite hb; apply: (@leq_trans (a.+1 * P)); [rewrite mulSn; nia | rewrite leq_mul2r h1 orbT].
move=> hk hk' hi hi'; have := B _ _ hk hi; have := B _ _ hk' hi'; rewrite /file_node.
case b' : (on_coarse idx' i'); case b : (on_coarse idx i).
- move=> [p1 p2 p3] [q1 q2 q3]; split; last by move=> [_ -> ->].
  by move=> /(mul_add_inj (hs1 _ q1 q2) (hs1 _ p1 p2)) [-> /(hs2 _ _ q1 p1 q2 p2) ->].
- move=> [p1 p2 p3] q; split; last by case.
  by move=> e; move: p3; rewrite -e -addnA ltnNge leq_addr.
- move=> p [q1 q2 q3]; split; last by case.
  by move=> e; move: q3; rewrite e -addnA ltnNge leq_addr.
- move=> p q; split; last by move=> [_ -> ->].
  rewrite -!addnA => /addnI /(mul_add_inj (index_lt henum q) (index_lt henum p)) [-> e]; split=> //.
  exact: index_inj e.
Qed.
End FileShare.

(** *** Statements in the form used by the property theorems *)
Section Final.
Variable enum : tpcc -> seq cell.
Variable slice : nat -> seq nat -> nat.
Hypothesis henum : tpcc_spec enum.
Hypothesis hslice : slice_spec slice.

Lemma share_cells d L dims idx idx' i i' v v' : 0 < d -> 0 < L ->
  let T := cubic_refine enum L (cubic_new enum d dims) in
  cubic_at enum slice T idx = Ok v -> cubic_at enum slice T idx' = Ok v' -> i < 2 * d -> i' < 2 * d ->
  (nth 0 v i = nth 0 v' i' <->
   facet_at (grid_cell enum d dims L idx) (i %/ 2) (i %% 2) =
   facet_at (grid_cell enum d dims L idx') (i' %/ 2) (i' %% 2)).
Proof.
move=> hd hL T h h' hi hi'.
have lt k w : cubic_at enum slice T k = Ok w -> k < cu_n_edges T by rewrite /cubic_at; case: ifP.
have hk := lt _ _ h; have hk' := lt _ _ h'.
move: h h'; rewrite !(cubic_atE henum hslice) // => -[<-] [<-]; rewrite !nth_mkseq //.
exact: cubic_share.
Qed.

Lemma file_path L D : 0 < L -> size (do_nodes D) = do_n_edges D ->
  (forall e, e < do_n_edges D -> size (nth [::] (do_nodes D) e) = 2) ->
  let T := file_refine enum L (file_new enum 1 D) in
  exists (pos : nat -> nat) (w : nat -> nat -> nat),
  [/\ fi_n_edges T = do_n_edges D * L /\ fi_n_nodes T = do_n_nodes D + do_n_edges D * L.-1,
      forall e, e < do_n_edges D ->
        w e 0 = nth 0 (nth [::] (do_nodes D) e) 0 /\ w e L = nth 0 (nth [::] (do_nodes D) e) 1,
      (forall p, p < L -> pos p < L) /\ {in gtn L &, injective pos},
      forall e p, e < do_n_edges D -> p < L ->
        file_at enum slice T (e * L + pos p) = Ok [:: w e p; w e p.+1]
    & [/\ forall e p, e < do_n_edges D -> 0 < p < L -> do_n_nodes D <= w e p < fi_n_nodes T,
          forall e e' p p', e < do_n_edges D -> e' < do_n_edges D -> 0 < p < L -> 0 < p' < L ->
            w e p = w e' p' -> e = e' /\ p = p'
        & forall k, do_n_nodes D <= k < fi_n_nodes T ->
            exists e p, [/\ e < do_n_edges D, 0 < p < L & w e p = k]]].
Proof.
move=> hL hE hN T; exists (at_pos enum L), (walk enum L D); split.
- exact: (fi_counts henum hslice).
- by move=> e he; rewrite /walk (gtn_eqF hL) !eqxx.
- split; first by move=> p; exact: (at_pos_lt henum hslice D).
  by move=> p q; rewrite !inE; exact: (at_pos_inj henum).
- by move=> e p; exact: file_walk.
split.
- by move=> e p he hp; have [] := walk_new henum hL hE he hp.
- move=> e e' p p' he he' hp hp'.
  have [-> _] := walk_new henum hL hE he hp; have [-> _] := walk_new henum hL hE he' hp'.
  exact: new_inj.
- by move=> k; exact: new_onto.
Qed.

Lemma share_file d L D idx idx' i i' v v' : 0 < d -> 0 < L -> size (do_nodes D) = do_n_edges D ->
  (forall e, e < do_n_edges D -> size (nth [::] (do_nodes D) e) = 2 * d /\
                                 all (fun k => k < do_n_nodes D) (nth [::] (do_nodes D) e)) ->
  let T := file_refine enum L (file_new enum d D) in
  file_at enum slice T idx = Ok v -> file_at enum slice T idx' = Ok v' -> i < 2 * d -> i' < 2 * d ->
  (nth 0 v i = nth 0 v' i' <->
   if on_coarse enum d L idx i
   then [/\ on_coarse enum d L idx' i',
            nth 0 (nth [::] (do_nodes D) (idx %/ L ^ d)) i = nth 0 (nth [::] (do_nodes D) (idx' %/ L ^ d)) i'
          & along (local_face enum d L idx i) = along (local_face enum d L idx' i')]
   else [/\ ~~ on_coarse enum d L idx' i', idx %/ L ^ d = idx' %/ L ^ d
          & local_face enum d L idx i = local_face enum d L idx' i']).
Proof.
move=> hd hL hE hN T h h' hi hi'.
have lt k w : file_at enum slice T k = Ok w -> k < fi_n_edges T by rewrite /file_at; case: ifP.
have hk := lt _ _ h; have hk' := lt _ _ h'.
move: h h'; rewrite !(file_atE henum hslice) // => -[<-] [<-]; rewrite !nth_mkseq //.
exact: file_share.
Qed.

Lemma types_total d L dims idx : 0 < d -> 0 < L -> d <= size dims -> all (fun n => 0 < n) dims ->
  let T := cubic_refine enum L (cubic_new enum d dims) in
  let N := cnode_refine enum L (cnode_new enum d dims) in
  idx < cu_n_edges T ->
  exists v, [/\ cnode_at enum N idx = Ok v, size v = 2 * d
    & forall i, i < 2 * d ->
      nth 0 v i = fine_code L dims (facet_at (grid_cell enum d dims L idx) (i %/ 2) (i %% 2))].
Proof.
move=> hd hL hdim hpos T N h.
have := cnode_atE henum hslice hd hL hdim hpos h; set v := mkseq _ _ => ev.
exists v; split=> //; first by rewrite size_mkseq.
by move=> i hi; exact: (cnode_fine henum hslice hd hL hdim hpos h hi ev).
Qed.

Lemma types_shared d L dims idx idx' i i' v v' t t' : 0 < d -> 0 < L -> d <= size dims ->
  all (fun n => 0 < n) dims ->
  let T := cubic_refine enum L (cubic_new enum d dims) in
  let N := cnode_refine enum L (cnode_new enum d dims) in
  cubic_at enum slice T idx = Ok v -> cubic_at enum slice T idx' = Ok v' ->
  cnode_at enum N idx = Ok t -> cnode_at enum N idx' = Ok t' -> i < 2 * d -> i' < 2 * d ->
  nth 0 v i = nth 0 v' i' -> nth 0 t i = nth 0 t' i'.
Proof.
move=> hd hL hdim hpos T N h h' ht ht' hi hi' e.
have e2 := (share_cells hd hL h h' hi hi').1 e.
have lt k w : cubic_at enum slice T k = Ok w -> k < cu_n_edges T by rewrite /cubic_at; case: ifP.
rewrite (cnode_fine henum hslice hd hL hdim hpos (lt _ _ h) hi ht).
by rewrite (cnode_fine henum hslice hd hL hdim hpos (lt _ _ h') hi' ht') e2.
Qed.

Lemma size_grid_cell d L dims idx : 0 < d -> 0 < L ->
  idx < cu_n_edges (cubic_refine enum L (cubic_new enum d dims)) ->
  size (grid_cell enum d dims L idx) = size dims /\ n_along (grid_cell enum d dims L idx) = d.
Proof.
move=> hd hL h; split; last exact: (grid_cell_along henum hslice).
rewrite (grid_cellE henum hslice) // size_refine.
by have [/and3P [/eqP]] := idx_parts henum hslice hL h.
Qed.

Lemma types_exact d L dims idx i v : 0 < d -> 0 < L -> d <= size dims -> all (fun n => 0 < n) dims ->
  d = size dims \/ L = 1 ->
  let T := cubic_refine enum L (cubic_new enum d dims) in
  let N := cnode_refine enum L (cnode_new enum d dims) in
  idx < cu_n_edges T -> i < 2 * d -> cnode_at enum N idx = Ok v ->
  nth 0 v i = base3 (planes [seq L * n | n <- dims]
                       (facet_at (grid_cell enum d dims L idx) (i %/ 2) (i %% 2))).
Proof.
move=> hd hL hdim hpos hor T N h hi ev.
rewrite (cnode_fine henum hslice hd hL hdim hpos h hi ev).
have [h1 h2] := size_grid_cell hd hL h.
apply: (@fine_code_exact d) => //; first by rewrite size_facet.
by rewrite n_along_facet h2 // half_lt.
Qed.

Lemma codes_distinct dims A A' : size A = size dims -> size A' = size dims ->
  (base3 (planes dims A) = base3 (planes dims A') <-> planes dims A = planes dims A') /\
  (base3 (planes dims A) = 0 <-> all (fun x => x == 0) (planes dims A)).
Proof.
move=> h h'; split; first split=> [|-> //]; first by apply: base3_inj; rewrite ?planes_lt3 ?size_planes.
by rewrite -base3_eq0; split=> /eqP.
Qed.

(** In a graph of edges in the plane, refining puts nodes on the boundary that get type 0. *)
Lemma types_refuted :
  exists d L dims idx i v, [/\ 0 < d <= size dims, 0 < L & all (fun n => 0 < n) dims] /\
    let T := cubic_refine enum L (cubic_new enum d dims) in
    let N := cnode_refine enum L (cnode_new enum d dims) in
    let f := facet_at (grid_cell enum d dims L idx) (i %/ 2) (i %% 2) in
    [/\ idx < cu_n_edges T, i < 2 * d, cnode_at enum N idx = Ok v, nth 0 v i = 0
      & ~~ all (fun x => x == 0) (planes [seq L * n | n <- dims] f)].
Proof.
pose E : cell := [:: (true, 0); (false, 0)]; pose R : cell := [:: (true, 0)].
pose tE := Tpcc true 1 [:: 1; 1]; pose tR := Tpcc true 1 [:: 2].
have vE : valid tE E by []. have vR : valid tR R by [].
have hE := index_lt henum vE; have hR := index_lt henum vR.
have sR : size (enum tR) = 2 by have := size_ref henum hslice 2 1.
rewrite sR in hR.
pose idx := index E (enum tE) * 2 + index R (enum tR).
have q1 : idx %/ 2 ^ 1 = index E (enum tE) by rewrite expn1 divnMDl // divn_small ?addn0.
have q2 : idx %% 2 ^ 1 = index R (enum tR) by rewrite expn1 modnMDl modn_small.
have hidx : idx < cu_n_edges (cubic_refine enum 2 (cubic_new enum 1 [:: 1; 1])).
  rewrite (n_edgesE henum hslice) expn1 -ltn_divLR // -[2]expn1 q1.
  exact: hE.
have eg : grid_cell enum 1 [:: 1; 1] 2 idx = [:: (true, 0); (false, 0)].
  by rewrite /grid_cell q1 q2 !nth_index ?mem_enum.
have [v [ev _ hv]] := @types_total 1 2 [:: 1; 1] idx isT isT isT isT hidx.
exists 1, 2, [:: 1; 1], idx, 1, v; split=> //; split=> //; first by rewrite hv // eg.
by rewrite eg.
Qed.
End Final.
