(** Proofs about cells, refinement and the numbering of hypernodes. *)
From mathcomp Require Import all_ssreflect all_algebra zify.
From Verif Require Import M_Base L_Base M_Index S_Index L_Index M_Topology S_Topology.
Set Implicit Arguments. Unset Strict Implicit. Unset Printing Implicit Defensive.

Implicit Types (c E F A B : cell) (dims r : seq nat).

(** *** Cells *)
Lemma size_facet c j s : size (facet_at c j s) = size c.
Proof. by elim: c j => [//|[[] x] c IH] [|j] //=; rewrite ?IH. Qed.

Lemma n_along_le c : n_along c <= size c.
Proof. exact: count_size. Qed.

Lemma n_along_facet c j s : j < n_along c -> n_along (facet_at c j s) = (n_along c).-1.
Proof.
rewrite /n_along; elim: c j => [//|[[] x] c IH] [|j] //=.
- by rewrite !add1n ltnS => h; rewrite IH //; case: (count _ _) h.
- by rewrite !add0n => h; rewrite IH.
- by rewrite !add0n => h; rewrite IH.
Qed.

Lemma size_along c : size (along c) = n_along c.
Proof. by rewrite /along size_map size_filter. Qed.

Lemma facet_inj c j s j' s' : j < n_along c -> j' < n_along c ->
  facet_at c j s = facet_at c j' s' -> j = j' /\ s = s'.
Proof.
rewrite /n_along; elim: c j j' => [//|[[] x] c IH] [|j] [|j'] //=; rewrite ?add0n ?add1n ?ltnS.
- by move=> _ _ [] /addnI.
- by move=> h h' [] /(IH _ _ h h') [-> ->].
all: by move=> h h' [] /(IH _ _ h h').
Qed.

Lemma valid_facet dims d c j s : s < 2 -> j < d ->
  valid (Tpcc true d dims) c -> valid (Tpcc true d.-1 dims) (facet_at c j s).
Proof.
move=> hs hj /and3P [/= h1 /eqP h2 h3]; apply/and3P; split => /=; rewrite ?size_facet //.
  by rewrite n_along_facet ?h2.
move: hj; rewrite -h2 /n_along => {h1 h2}.
elim: c dims j h3 => [|[[] x] c IH] [|n dims] [|j] //=; rewrite /valid_entry /= ?add0n ?add1n.
- by case/andP => h ->; rewrite andbT => _; lia.
- by case/andP => -> h; rewrite ltnS => hj /=; apply: IH.
- by case/andP => -> h hj /=; apply: IH.
- by case/andP => -> h hj /=; apply: IH.
Qed.

(** Every face of the grid is a facet of some cell. *)
Lemma facet_surj dims d A : all (fun n => 0 < n) dims -> d < size dims ->
  valid (Tpcc true d dims) A ->
  exists c j s, [/\ valid (Tpcc true d.+1 dims) c, j < d.+1, s < 2 & A = facet_at c j s].
Proof.
move=> hpos hd /and3P [/= /eqP h1 /eqP h2 h3].
have : n_along A < size A by rewrite h1 h2.
suff H : n_along A < size A ->
    exists c j s, [/\ size c = size A, n_along c = (n_along A).+1, all2 (valid_entry true) dims c,
      j < n_along c & s < 2] /\ A = facet_at c j s.
  case/H => c [j [s [[e1 e2 e3 e4 e5] e6]]]; exists c, j, s; split=> //; last by rewrite -h2 -e2.
  by apply/and3P; split => /=; rewrite ?e1 ?h1 ?e2 ?h2.
rewrite /n_along; elim: A dims h3 hpos {hd h1 h2} => [//|[[] x] A IH] [|n dims] //=;
  rewrite /valid_entry /= => /andP [hx h3] /andP [hn hpos].
  rewrite add1n ltnS => /(IH _ h3 hpos) [c [j [s [[e1 e2 e3 e4 e5] e6]]]].
  exists ((true, x) :: c), j.+1, s; split; last by rewrite e6.
  by split=> //=; rewrite ?e1 ?e2 ?add1n ?e3 ?hx // ltnS; rewrite -e2.
move=> _; case: (ltnP x n) => hxn.
  exists ((true, x) :: A), 0, 0; split; last by rewrite /= addn0.
  by split=> //=; rewrite ?add1n ?add0n //= h3 hxn.
exists ((true, n.-1) :: A), 0, 1; split; last by rewrite /=; congr ((_, _) :: _); lia.
by split=> //=; rewrite ?add1n ?add0n //= h3 andbT; lia.
Qed.

(** *** Refinement of cells *)
Lemma size_refine L E F : size (refine L E F) = size E.
Proof. by elim: E F => [//|[[] x] E IH] [|[b y] F] /=; rewrite IH. Qed.

Lemma n_along_full r : n_along (full r) = size r.
Proof. by rewrite /n_along /full count_map; elim: r => //= x r ->. Qed.
Lemma size_full r : size (full r) = size r. Proof. by rewrite size_map. Qed.
Lemma along_full r : along (full r) = r.
Proof. by rewrite /along /full; elim: r => //= x r ->. Qed.

Definition fine_entry L (p : bool * nat) := if p.1 then p.2 < L else (0 < p.2) && (p.2 < L).
Notation fine_entries L F := (all (fine_entry L) F).

Lemma fine_lt L p : fine_entry L p -> p.2 < L.
Proof. by case: p => [[] y]; rewrite /fine_entry //= => /andP []. Qed.

Lemma mul_add_inj L x y x' y' : y < L -> y' < L -> L * x + y = L * x' + y' -> x = x' /\ y = y'.
Proof.
move=> h h' e; have ex : x = x'.
  have := congr1 (fun z => z %/ L) e; have hL : 0 < L by lia.
  by rewrite ![L * _]mulnC !divnMDl // !divn_small // !addn0.
by split=> //; move: e; rewrite ex => /addnI.
Qed.

Lemma not_mult L x y x' : 0 < y < L -> L * x + y = L * x' -> False.
Proof.
move=> /andP [h h']; rewrite -[L * x']addn0 => /mul_add_inj [] //; first by lia.
by move=> _ e; rewrite e in h.
Qed.

Lemma refine_inj L E F E' F' : size F = n_along E -> size F' = n_along E' ->
  fine_entries L F -> fine_entries L F' -> 0 < L -> refine L E F = refine L E' F' -> E = E' /\ F = F'.
Proof.
move=> + + + + hL; rewrite /n_along.
elim: E E' F F' => [|[b x] E IH] [|[b' x'] E'] F F' /=.
- by case: F F' => [|? ?] [|? ?].
- by case: b' F' => [] [|[]].
- by case: b F => [] [|[]].
case: b; case: b' => /=; rewrite ?add0n ?add1n.
- case: F F' => [//|[b y] F] [//|[b' y'] F'] /= [h1] [h2] /andP [h3 h4] /andP [h5 h6] [eb exy er].
  have [e1 e2] := IH _ _ _ h1 h2 h4 h6 er.
  have [ex ey] : x = x' /\ y = y'.
    by apply: mul_add_inj exy; [exact: fine_lt h3 | exact: fine_lt h5].
  by rewrite ex ey eb e1 e2.
- case: F => [//|[[] y] F] //= [h1] h2 /andP [h3 h4] h6 [exy er].
  by exfalso; exact: not_mult h3 exy.
- case: F' => [//|[[] y] F'] //= h1 [h2] h3 /andP [h5 h6] [exy er].
  by exfalso; exact: not_mult h5 (esym exy).
- move=> h1 h2 h3 h4 [ex er]; have [-> ->] := IH _ _ _ h1 h2 h3 h4 er.
  by move/eqP: ex; rewrite eqn_pmul2l // => /eqP ->.
Qed.

(** Facets of a refined cell. *)
Lemma facet_refine L E r j s : size r = n_along E ->
  facet_at (refine L E (full r)) j s = refine L E (facet_at (full r) j s).
Proof.
rewrite /n_along; elim: E r j => [//|[[] x] E IH] r j /=; rewrite ?add0n ?add1n; last first.
  by move=> h; rewrite IH.
case: r => [//|y r] [h]; case: j => [|j] /=; first by rewrite addnA.
by rewrite IH.
Qed.

Lemma facet_full r j s : j < size r ->
  facet_at (full r) j s = take j (full r) ++ (false, nth 0 r j + s) :: drop j.+1 (full r).
Proof.
by elim: r j => [//|y r IH] [|j] //= h; rewrite ?drop0 // IH.
Qed.

Lemma across_facet_full r j s : j < size r -> across (facet_at (full r) j s) = [:: nth 0 r j + s].
Proof.
by rewrite /across; elim: r j => [//|y r IH] [|j] //= h; [elim: r {h IH} => //= x r -> | rewrite IH].
Qed.

Lemma along_facet_full r j s : j < size r ->
  along (facet_at (full r) j s) = take j r ++ drop j.+1 r.
Proof.
elim: r j => [//|y r IH] [|j] //= h; first by rewrite drop0; exact: along_full.
by congr cons; exact: IH.
Qed.

(** A face at the boundary of the local grid is part of the coarse face. *)
Lemma refine_boundary L E r j s : size r = n_along E -> j < size r ->
  nth 0 r j + s = L * s ->
  refine L E (facet_at (full r) j s) = refine L (facet_at E j s) (full (along (facet_at (full r) j s))).
Proof.
move=> hs hj; rewrite along_facet_full //.
move: hs hj; rewrite /n_along; elim: E r j => [|[[] x] E IH] r j /=; rewrite ?add0n ?add1n.
- by move/size0nil ->.
- case: r => [//|y r] [h]; case: j => [|j] /=; first by move=> _ e; rewrite ?drop0 /= mulnDr -e.
  by rewrite ltnS => hj e; rewrite IH.
- by move=> h hj e; rewrite IH.
Qed.

(** *** Loops that treat one entry after the other *)
Lemma foro_upd (n : nat) (body : nat -> seq nat -> outcome (seq nat)) (g : nat -> nat -> nat) v :
  size v = n ->
  (forall i w, i < n -> size w = n -> body i w = Ok (upd w i (g i (nth 0 w i)))) ->
  foro n body v = Ok (mkseq (fun i => g i (nth 0 v i)) n).
Proof.
move=> hv hb.
have H m : m <= n -> exists w, [/\ foro m body v = Ok w, size w = n &
    forall i, i < n -> nth 0 w i = if i < m then g i (nth 0 v i) else nth 0 v i].
  elim: m => [|m IH] hm; first by exists v.
  have [w [e hw hn]] := IH (ltnW hm).
  exists (upd w m (g m (nth 0 w m))); split; first by rewrite foroS e /= hb.
    by rewrite size_upd.
  move=> i hi; rewrite nth_upd hw hm andbT; case: eqP => [->|hne].
    by rewrite ltnSn hn // ltnn.
  by rewrite hn // ltnS [i <= m]leq_eqVlt; case: eqP.
have [w [-> hw hn]] := H n (leqnn _); congr Ok.
apply: (@eq_from_nth _ 0); rewrite ?size_mkseq // => i; rewrite hw => hi.
by rewrite nth_mkseq // hn // hi.
Qed.

Section Numbering.
Variable enum : tpcc -> seq cell.
Variable slice : nat -> seq nat -> nat.
Hypothesis henum : tpcc_spec enum.
Hypothesis hslice : slice_spec slice.

Lemma enum_uniq t : uniq (enum t). Proof. by case: (henum t). Qed.
Lemma mem_enum t c : (c \in enum t) = valid t c. Proof. by case: (henum t). Qed.
Lemma nth_enum_valid t i : i < size (enum t) -> valid t (nth [::] (enum t) i).
Proof. by move=> h; rewrite -mem_enum mem_nth. Qed.
Lemma index_lt t c : valid t c -> index c (enum t) < size (enum t).
Proof. by rewrite index_mem mem_enum. Qed.
Lemma index_inj t c c' : valid t c -> valid t c' -> index c (enum t) = index c' (enum t) -> c = c'.
Proof.
by rewrite -!mem_enum => h h' e; rewrite -(nth_index [::] h) -(nth_index [::] h') e.
Qed.

(** Local cells run along every direction. *)
Lemma all_along_full c : n_along c = size c -> c = full (along c).
Proof.
rewrite /n_along /full; elim: c => [//|[[] x] c IH] /=.
  by rewrite add1n => [[]] h; rewrite [in LHS]IH.
by rewrite add0n => h; have := count_size fst c; rewrite h ltnn.
Qed.

Lemma all2_nseq bnd L d c : size c = d -> all2 (valid_entry bnd) (nseq d L) c = all (valid_entry bnd L) c.
Proof. by move<-; elim: c => //= p c ->. Qed.

Lemma valid_ref bnd L d c : valid (Tpcc bnd d (nseq d L)) c <->
  exists r, [/\ c = full r, size r = d & all (fun x => x < L) r].
Proof.
split.
  move=> /and3P [/= /eqP]; rewrite size_nseq => hs /eqP ha; rewrite all2_nseq // => h.
  exists (along c); split; first by apply: all_along_full; rewrite ha hs.
    by rewrite size_along.
  rewrite all_map; apply/allP => p; rewrite mem_filter => /andP [hp /(allP h)].
  by rewrite /valid_entry hp.
move=> [r [-> hr h]]; apply/and3P; split; rewrite /= ?size_full ?size_nseq ?n_along_full ?hr //.
by rewrite all2_nseq ?size_full // all_map; apply/allP => x /(allP h).
Qed.

Lemma size_ref L d : size (enum (Tpcc true d (nseq d L))) = L ^ d.
Proof.
have [h1 h2 h3] := hslice L d.
have hu : uniq [seq slice L (along c) | c <- enum (Tpcc true d (nseq d L))].
  rewrite map_inj_in_uniq ?enum_uniq // => c c'; rewrite !mem_enum.
  move=> /valid_ref [r [-> hr hl]] /valid_ref [r' [-> hr' hl']]; rewrite !along_full => e.
  by congr full; apply: h2.
have := uniq_size_uniq hu; rewrite -(size_map (fun c => slice L (along c))) => _.
rewrite -[RHS](size_iota 0); apply/perm_size/uniq_perm => //; first exact: iota_uniq.
move=> k; rewrite mem_iota /= add0n; apply/mapP/idP.
  move=> [c]; rewrite mem_enum => /valid_ref [r [-> hr hl]] ->; rewrite along_full.
  exact: h1.
move=> /h3 [r [hr hl <-]]; exists (full r); last by rewrite along_full.
by rewrite mem_enum; apply/valid_ref; exists r.
Qed.

Section Cubic.
Variables (d L : nat) (dims : seq nat).
Hypothesis hd : 0 < d.
Hypothesis hL : 0 < L.

Let elements := Tpcc true d dims.
Let faces := Tpcc true d.-1 dims.
Let refs := Tpcc true d (nseq d L).
Let rfaces := Tpcc false d.-1 (nseq d L).

(** The pair (cell of the coarse grid, cell of its local grid) a face belongs to. *)
Definition at_boundary r j s := (nth 0 r j + s == 0) || (nth 0 r j + s == L).
Definition fpair E r j s : cell * cell :=
  if at_boundary r j s then (facet_at E j s, full (along (facet_at (full r) j s)))
  else (E, facet_at (full r) j s).
Definition num_pair (e : nat) (p : cell * cell) : nat :=
  if n_along p.1 == d
  then size (enum faces) * L ^ d.-1 + size (enum rfaces) * e + index p.2 (enum rfaces)
  else L ^ d.-1 * index p.1 (enum faces) + slice L (along p.2).
Definition pair_ok (p : cell * cell) : Prop :=
  (valid elements p.1 /\ valid rfaces p.2) \/
  (valid faces p.1 /\ valid (Tpcc true d.-1 (nseq d.-1 L)) p.2).

Lemma boundaryE r j s : all (fun x => x < L) r -> j < size r -> s < 2 ->
  at_boundary r j s = (nth 0 r j + s == L * s).
Proof.
move=> /all_nthP h hj hs; have := h 0 j hj; rewrite /at_boundary.
by case: s hs => [|[|]] // _ hx; rewrite ?muln0 ?muln1; apply/orP/eqP; lia.
Qed.

Lemma valid_rface r j s : size r = d -> all (fun x => x < L) r -> j < d -> s < 2 ->
  ~~ at_boundary r j s -> valid rfaces (facet_at (full r) j s).
Proof.
move=> hr hl hj hs hb; apply/and3P; split; rewrite /= ?size_facet ?size_full ?size_nseq ?hr //.
  by rewrite n_along_facet ?n_along_full hr.
rewrite all2_nseq ?size_facet ?size_full // facet_full ?hr // all_cat /=.
have hlj : nth 0 r j < L by apply: (allP hl); rewrite mem_nth ?hr.
apply/and3P; split.
+ by apply/allP => p /mem_take /mapP [x hx ->]; rewrite /valid_entry /=; exact: (allP hl).
+ move: hb; rewrite /at_boundary /valid_entry /= => /norP [h1 h2].
  by apply/andP; split; first rewrite lt0n //; move: hs hlj h2; lia.
+ by apply/allP => p /mem_drop /mapP [x hx ->]; rewrite /valid_entry /=; exact: (allP hl).
Qed.

Lemma fpair_ok E r j s : valid elements E -> size r = d -> all (fun x => x < L) r -> j < d -> s < 2 ->
  pair_ok (fpair E r j s) /\
  refine L (fpair E r j s).1 (fpair E r j s).2 = facet_at (refine L E (full r)) j s.
Proof.
move=> hE hr hl hj hs; have hEa : n_along E = d by case/and3P: hE => _ /eqP.
rewrite /fpair; case: ifP => hb; split=> /=.
- right; split; first exact: valid_facet.
  apply/valid_ref; exists (along (facet_at (full r) j s)); split=> //.
    by rewrite size_along n_along_facet ?n_along_full hr.
  rewrite along_facet_full ?hr // all_cat; apply/andP; split; apply/allP => x hx; apply: (allP hl).
    exact: mem_take hx.
  exact: mem_drop hx.
- rewrite facet_refine ?hr // refine_boundary ?hr //.
  by apply/eqP; rewrite -boundaryE // hr.
- by left; split=> //; apply: valid_rface; rewrite ?hb.
- by rewrite facet_refine ?hr.
Qed.

Lemma pair_fine p : pair_ok p -> size p.2 = n_along p.1 /\ fine_entries L p.2.
Proof.
case=> [[/and3P [_ /eqP h _] /and3P [/= /eqP h1 _]]|[/and3P [_ /eqP h _] /valid_ref [r [-> h1 h2]]]].
  move: h1; rewrite size_nseq => h1; rewrite (all2_nseq _ _ h1) => h2; split; first by rewrite h1 h.
  by apply/allP => q /(allP h2); rewrite /valid_entry /fine_entry; case: q.1.
by rewrite size_full h1 h; split=> //; apply/allP => q /mapP [x /(allP h2) hx ->].
Qed.

Lemma pair_kind p : pair_ok p ->
  (n_along p.1 == d) = (valid elements p.1 && valid rfaces p.2).
Proof.
case=> [[h1 h2]|[h1 h2]]; first by rewrite h1 h2; case/and3P: h1.
have e : n_along p.1 = d.-1 by case/and3P: h1 => _ /eqP.
rewrite e; have -> : (d.-1 == d) = false by lia.
by apply/esym/negP => /andP [/and3P [_ /eqP /= h3 _] _]; move: h3; rewrite e; lia.
Qed.

Lemma pair_face p : pair_ok p -> n_along p.1 <> d ->
  [/\ valid faces p.1, size (along p.2) = d.-1, all (fun x => x < L) (along p.2)
    & p.2 = full (along p.2)].
Proof.
case=> [[/and3P [_ /eqP h _] _] //|[h1 /valid_ref [r [-> hr hl]]] _].
by rewrite along_full.
Qed.

(** Two faces have the same number exactly if they are the same pair. *)
Lemma num_pair_inj e e' p p' : pair_ok p -> pair_ok p' ->
  (n_along p.1 = d -> e = index p.1 (enum elements)) ->
  (n_along p'.1 = d -> e' = index p'.1 (enum elements)) ->
  num_pair e p = num_pair e' p' -> p = p'.
Proof.
have half q k : pair_ok q -> n_along q.1 <> d -> num_pair k q < size (enum faces) * L ^ d.-1.
  move=> hq hn; rewrite /num_pair ifN; last exact/eqP.
  have [h1 h2 h3 _] := pair_face hq hn; have [hs _ _] := hslice L d.-1.
  by have := hs _ h2 h3; have := index_lt h1; rewrite -/faces; nia.
move=> hp hp' he he' h.
case: (n_along p.1 =P d) => hk; case: (n_along p'.1 =P d) => hk'.
- move: h; rewrite /num_pair hk hk' eqxx.
  move: (pair_kind hp) (pair_kind hp'); rewrite hk hk' eqxx => /esym /andP [v1 v2] /esym /andP [v1' v2'].
  rewrite -!addnA => /addnI.
  have hi := index_lt v2; have hi' := index_lt v2'.
  move=> /(mul_add_inj hi hi') []; rewrite he // he' // => /(index_inj v1 v1') e1 /(index_inj v2 v2') e2.
  by rewrite [p]surjective_pairing [p']surjective_pairing e1 e2.
- by have := half _ e' hp' hk'; rewrite -h /num_pair hk eqxx; lia.
- by have := half _ e hp hk; rewrite h /num_pair hk' eqxx; lia.
- move: h; rewrite /num_pair !ifN; try exact/eqP.
  have [h1 h2 h3 h4] := pair_face hp hk; have [h1' h2' h3' h4'] := pair_face hp' hk'.
  have [hs hi _] := hslice L d.-1.
  move=> /(mul_add_inj (hs _ h2 h3) (hs _ h2' h3')) [/(index_inj h1 h1') e1 /(hi _ _ h2 h2' h3 h3') e2].
  have e3 : p.2 = p'.2 by rewrite h4 h4' e2.
  by rewrite [p]surjective_pairing [p']surjective_pairing e1 e3.
Qed.

Lemma num_pair_lt e p : pair_ok p -> (n_along p.1 = d -> e < size (enum elements)) ->
  num_pair e p < size (enum faces) * L ^ d.-1 + size (enum elements) * size (enum rfaces).
Proof.
move=> hp he; rewrite /num_pair; case: (n_along p.1 =P d) => hk.
  move: (pair_kind hp); rewrite hk eqxx => /esym /andP [v1 v2].
  by have := index_lt v2; have := he hk; nia.
have [h1 h2 h3 _] := pair_face hp hk; have [hs _ _] := hslice L d.-1.
by have := hs _ h2 h3; have := index_lt h1; nia.
Qed.

(** The pair of a face decides the face of the refined grid and conversely. *)
Lemma pair_refine_inj p p' : pair_ok p -> pair_ok p' ->
  refine L p.1 p.2 = refine L p'.1 p'.2 -> p = p'.
Proof.
move=> /pair_fine [h1 h2] /pair_fine [h1' h2'] /(refine_inj h1 h1' h2 h2' hL) [].
by case: p p' {h1 h2 h1' h2'} => a b [a' b'] /= -> ->.
Qed.

(** *** What the constructors compute *)
Let T := cubic_refine enum L (cubic_new enum d dims).

Lemma epeE : cu_epe T = L ^ d. Proof. exact: size_ref. Qed.
Lemma fpfE : cu_fpf T = L ^ d.-1. Proof. by rewrite /= hc_powE. Qed.
Lemma n_edgesE : cu_n_edges T = size (enum elements) * L ^ d.
Proof. by rewrite -size_ref. Qed.
Lemma n_nodesE : cu_n_nodes T =
  size (enum faces) * L ^ d.-1 + size (enum elements) * size (enum rfaces).
Proof. by rewrite -(hc_powE d.-1). Qed.

Lemma get_faceE c i : n_along c = d -> i < 2 * d -> get_face c i = Ok (facet_at c (i %/ 2) (i %% 2)).
Proof. by move=> h hi; rewrite /get_face h hi. Qed.
Lemma half_lt i : i < 2 * d -> i %/ 2 < d. Proof. by rewrite ltn_divLR // mulnC. Qed.

Lemma refine_nodesE fpf fpe cf r e v : size r = d -> all (fun x => x < L) r -> size v = 2 * d ->
  refine_nodes enum slice d L fpf fpe cf rfaces (full r) e v =
  Ok (mkseq (fun i => let j := i %/ 2 in let s := i %% 2 in
    let F := facet_at (full r) j s in
    if at_boundary r j s then fpf * nth 0 v i + slice L (along F)
    else cf * fpf + fpe * e + index F (enum rfaces)) (2 * d)).
Proof.
move=> hr hl hv.
apply: (@foro_upd _ _ (fun i vi => let j := i %/ 2 in let s := i %% 2 in
    let F := facet_at (full r) j s in
    if at_boundary r j s then fpf * vi + slice L (along F)
    else cf * fpf + fpe * e + index F (enum rfaces))) => // i w hi hw.
have hj := half_lt hi; have hs : i %% 2 < 2 by rewrite ltn_mod.
rewrite get_faceE ?n_along_full // /=.
rewrite /exterior_coordinate size_facet size_full n_along_facet ?n_along_full ?hr //.
have -> : 0 < d - d.-1 by lia.
rewrite /= across_facet_full ?hr //= -/(at_boundary r (i %/ 2) (i %% 2)).
case: ifP => hb //.
have hx : valid rfaces (facet_at (full r) (i %/ 2) (i %% 2)).
  by apply: valid_rface; rewrite ?hb.
by rewrite /get_index mem_enum hx.
Qed.

Let elem_of idx := nth [::] (enum elements) (idx %/ L ^ d).
Let part_of idx := along (nth [::] (enum refs) (idx %% L ^ d)).

Lemma idx_parts idx : idx < cu_n_edges T ->
  [/\ valid elements (elem_of idx), idx %/ L ^ d < size (enum elements), idx %% L ^ d < size (enum refs),
      size (part_of idx) = d & all (fun x => x < L) (part_of idx)
      /\ nth [::] (enum refs) (idx %% L ^ d) = full (part_of idx)].
Proof.
rewrite n_edgesE => h.
have h0 : 0 < L ^ d by rewrite expn_gt0 hL.
have h1 : idx %/ L ^ d < size (enum elements) by rewrite ltn_divLR.
have h2 : idx %% L ^ d < size (enum refs) by rewrite size_ref ltn_mod.
have h3 := nth_enum_valid h1.
have [r [e hr hl]] := (valid_ref _ _ _ _).1 (nth_enum_valid h2).
by split=> //; rewrite /part_of e along_full.
Qed.

Lemma index_elem idx : idx < cu_n_edges T -> index (elem_of idx) (enum elements) = idx %/ L ^ d.
Proof. by case/idx_parts => _ h _ _ _; rewrite /elem_of index_uniq ?enum_uniq. Qed.

Lemma grid_cellE idx : idx < cu_n_edges T ->
  grid_cell enum d dims L idx = refine L (elem_of idx) (full (part_of idx)).
Proof. by case/idx_parts => _ _ _ _ [_ e]; rewrite /grid_cell -/elements -/refs e. Qed.

Definition node_of idx i :=
  num_pair (idx %/ L ^ d) (fpair (elem_of idx) (part_of idx) (i %/ 2) (i %% 2)).

Lemma cubic_atE idx : idx < cu_n_edges T ->
  cubic_at enum slice T idx = Ok (mkseq (node_of idx) (2 * d)).
Proof.
move=> hi; have [hE h1 h2 hr [hl er]] := idx_parts hi.
have hEa : n_along (elem_of idx) = d by case/and3P: hE => _ /eqP.
rewrite /cubic_at hi /cubic_edge epeE /get_element /n_elements h1 /=.
rewrite -/elements -/(elem_of idx).
rewrite (@foro_upd _ _ (fun i _ => index (facet_at (elem_of idx) (i %/ 2) (i %% 2)) (enum faces)));
  last first.
- move=> i w hi' hw; rewrite get_faceE //= /get_index mem_enum (@valid_facet _ d) //.
    by rewrite ltn_mod.
  exact: half_lt.
- by rewrite size_nseq.
rewrite /= -/refs h2 /= er refine_nodesE ?size_mkseq // hc_powE.
congr Ok; apply/eq_in_map => i; rewrite mem_iota add0n /= => hi'.
rewrite /node_of /num_pair /fpair; have hj := half_lt hi'.
case: ifP => hb /=; last by rewrite hEa eqxx.
rewrite n_along_facet hEa //; have -> : (d.-1 == d) = false by lia.
by rewrite nth_mkseq // along_full.
Qed.

Lemma node_pair_ok idx i : idx < cu_n_edges T -> i < 2 * d ->
  let p := fpair (elem_of idx) (part_of idx) (i %/ 2) (i %% 2) in
  [/\ pair_ok p, (n_along p.1 = d -> idx %/ L ^ d = index p.1 (enum elements))
    & refine L p.1 p.2 = facet_at (grid_cell enum d dims L idx) (i %/ 2) (i %% 2)].
Proof.
move=> hi hi' /=; have [hE h1 h2 hr [hl er]] := idx_parts hi.
have hs : i %% 2 < 2 by rewrite ltn_mod.
have [hp hf] := fpair_ok hE hr hl (half_lt hi') hs.
split=> //; last by rewrite grid_cellE.
rewrite /fpair; case: ifP => _ /=; last by rewrite index_elem.
have hEa : n_along (elem_of idx) = d by case/and3P: hE => _ /eqP.
by rewrite n_along_facet hEa ?half_lt //; lia.
Qed.

Lemma cubic_share idx idx' i i' : idx < cu_n_edges T -> idx' < cu_n_edges T ->
  i < 2 * d -> i' < 2 * d ->
  (node_of idx i = node_of idx' i' <->
   facet_at (grid_cell enum d dims L idx) (i %/ 2) (i %% 2) =
   facet_at (grid_cell enum d dims L idx') (i' %/ 2) (i' %% 2)).
Proof.
move=> h h' hi hi'; have [p1 p2 <-] := node_pair_ok h hi; have [p1' p2' <-] := node_pair_ok h' hi'.
split; first by move/(num_pair_inj p1 p1' p2 p2') ->.
move/(pair_refine_inj p1 p1') => e; rewrite /node_of /num_pair e.
by case: eqP => hk //; rewrite p2' // p2 e.
Qed.

Lemma n_along_refine_full E r : size r = n_along E -> n_along (refine L E (full r)) = n_along E.
Proof.
rewrite /n_along; elim: E r => [//|[[] x] E IH] r /=; rewrite ?add0n ?add1n; last exact: IH.
by case: r => [//|y r] [h] /=; rewrite IH.
Qed.

Lemma grid_cell_along idx : idx < cu_n_edges T -> n_along (grid_cell enum d dims L idx) = d.
Proof.
move=> h; rewrite grid_cellE //; have [hE _ _ hr _] := idx_parts h.
have hEa : n_along (elem_of idx) = d by case/and3P: hE => _ /eqP.
by rewrite n_along_refine_full hEa.
Qed.

Lemma cubic_dense idx : idx < cu_n_edges T ->
  exists v, [/\ cubic_at enum slice T idx = Ok v, size v = 2 * d, uniq v
    & all (fun k => k < cu_n_nodes T) v].
Proof.
move=> h; exists (mkseq (node_of idx) (2 * d)); rewrite cubic_atE // size_mkseq; split=> //.
  apply/mkseq_uniqP => i i'; rewrite !inE => hi hi' /(cubic_share h h hi hi').
  case/facet_inj; rewrite ?grid_cell_along ?half_lt //.
  by move=> e1 e2; rewrite (divn_eq i 2) (divn_eq i' 2) e1 e2.
apply/(all_nthP 0) => i; rewrite size_mkseq => hi; rewrite nth_mkseq // n_nodesE.
have [p1 p2 _] := node_pair_ok h hi; apply: num_pair_lt => //.
by have [_ h1 _ _ _] := idx_parts h.
Qed.

Lemma cubic_onto : all (fun n => 0 < n) dims -> d <= size dims ->
  forall k, k < cu_n_nodes T -> exists idx v i,
    [/\ idx < cu_n_edges T, cubic_at enum slice T idx = Ok v, i < 2 * d & nth 0 v i = k].
Proof.
move=> hpos hdim k; rewrite n_nodesE => hk.
suff H : exists E r j s, [/\ valid elements E, size r = d /\ all (fun x => x < L) r, j < d, s < 2
    & k = num_pair (index E (enum elements)) (fpair E r j s)].
  case: H => E [r [j [s [hE [hr hl] hj hs ->]]]].
  have hv : valid refs (full r) by apply/valid_ref; exists r.
  have h0 : 0 < L ^ d by rewrite expn_gt0 hL.
  have hi1 := index_lt hE; have hi2 := index_lt hv; rewrite size_ref in hi2.
  set idx := index E (enum elements) * L ^ d + index (full r) (enum refs).
  have q1 : idx %/ L ^ d = index E (enum elements) by rewrite divnMDl // divn_small ?addn0.
  have q2 : idx %% L ^ d = index (full r) (enum refs) by rewrite modnMDl modn_small.
  have hidx : idx < cu_n_edges T by rewrite n_edgesE -ltn_divLR // q1.
  exists idx, (mkseq (node_of idx) (2 * d)), (2 * j + s); split=> //.
  - exact: cubic_atE.
  - by lia.
  rewrite nth_mkseq; last by lia.
  have e1 : (2 * j + s) %/ 2 = j by rewrite mulnC divnMDl // divn_small ?addn0.
  have e2 : (2 * j + s) %% 2 = s by rewrite mulnC modnMDl modn_small.
  rewrite /node_of e1 e2 /elem_of /part_of q1 q2 !nth_index ?mem_enum //.
  by rewrite along_full.
have [_ _ hsur] := hslice L d.-1.
have hLp : 0 < L ^ d.-1 by rewrite expn_gt0 hL.
case: (ltnP k (size (enum faces) * L ^ d.-1)) => hk1.
  have hA : k %/ L ^ d.-1 < size (enum faces) by rewrite ltn_divLR.
  set A := nth [::] (enum faces) (k %/ L ^ d.-1).
  have hAv : valid faces A := nth_enum_valid hA.
  have [|E [j [s [hE hj hs eA]]]] := @facet_surj dims d.-1 A hpos _ hAv; first by lia.
  rewrite prednK // in hE hj.
  have [|r' [hr' hl' er']] := hsur (k %% L ^ d.-1); first by rewrite ltn_mod.
  set x := (L * s) - s; have hx : x + s = L * s by rewrite /x; nia.
  have hxL : x < L by rewrite /x; case: s hs {eA hx x} => [|[|]] // _; lia.
  set r := take j r' ++ x :: drop j r'.
  have hj' : j <= size r' by rewrite hr'; lia.
  have hr : size r = d by rewrite /r size_cat /= size_takel // size_drop hr'; lia.
  have hnx : nth 0 r j = x by rewrite /r nth_cat size_takel // ltnn subnn.
  have hl : all (fun x => x < L) r.
    rewrite /r all_cat /= hxL /=; apply/andP; split; apply/allP => y hy; apply: (allP hl').
      exact: mem_take hy.
    exact: mem_drop hy.
  exists E, r, j, s; split=> //.
  have hEa : n_along E = d by case/and3P: hE => _ /eqP.
  rewrite /fpair (boundaryE hl) ?hr // hnx hx eqxx /num_pair /= n_along_facet hEa //.
  have -> : (d.-1 == d) = false by lia.
  rewrite along_full along_facet_full ?hr //.
  have -> : take j r ++ drop j.+1 r = r'.
    rewrite /r take_size_cat ?size_takel // drop_cat size_takel //.
    have -> : j.+1 < j = false by lia.
    have -> : j.+1 - j = 1 by lia.
    by rewrite /= drop0 cat_take_drop.
  rewrite er' -eA /A index_uniq ?enum_uniq //.
  by rewrite mulnC -divn_eq.
set k' := k - size (enum faces) * L ^ d.-1.
have hk' : k' < size (enum elements) * size (enum rfaces) by rewrite /k'; lia.
have hn : 0 < size (enum rfaces) by case: (size (enum rfaces)) hk' => //; rewrite muln0.
have hq : k' %/ size (enum rfaces) < size (enum elements) by rewrite ltn_divLR.
have hm : k' %% size (enum rfaces) < size (enum rfaces) by rewrite ltn_mod.
set E := nth [::] (enum elements) (k' %/ size (enum rfaces)).
set F := nth [::] (enum rfaces) (k' %% size (enum rfaces)).
have hE : valid elements E := nth_enum_valid hq.
have hF : valid rfaces F := nth_enum_valid hm.
have [r [j [hr hl hj eF hb]]] : exists r j,
    [/\ size r = d, all (fun x => x < L) r, j < d, F = facet_at (full r) j 0 & ~~ at_boundary r j 0].
  case/and3P: hF => /= /eqP hs /eqP ha; rewrite size_nseq in hs; rewrite all2_nseq // => hv.
  exists [seq p.2 | p <- F], (find (fun p => ~~ p.1) F).
  have hl : all (fun x => x < L) [seq p.2 | p <- F].
    rewrite all_map; apply/allP => p /(allP hv); rewrite /valid_entry /=.
    by case: p.1 => // /andP [].
  have ha' : n_along F = (size F).-1 by rewrite ha hs.
  have hs0 : 0 < size F by rewrite hs.
  have hh : has (fun p => ~~ p.1) F.
    rewrite has_predC; apply/negP; rewrite all_count => /eqP; rewrite -/(n_along F) ha'.
    by move: hs0; lia.
  have hj : find (fun p => ~~ p.1) F < d by rewrite -hs -has_find.
  rewrite size_map; split=> //.
  - have : n_along F = (size F).-1 := ha'; move: hs0 hh; rewrite /n_along.
    clear; elim: F => [//|[[] x] F IH] _ /=; last first.
      rewrite add0n addn0 => _ h; congr cons; have ha : n_along F = size F by [].
      have e := all_along_full ha; have {1}-> := e; congr full.
      by rewrite {2}e /full -map_comp map_id_in.
    rewrite add1n /= => hh h; have hF : 0 < size F by case: F h hh {IH}.
    by rewrite -IH // -h; lia.
  - have hp := nth_find (false, 0) hh.
    rewrite /at_boundary addn0 (nth_map (false, 0)) ?hs //.
    have : valid_entry false L (nth (false, 0) F (find (fun p => ~~ p.1) F)).
      by apply: (allP hv); rewrite mem_nth // hs.
    by rewrite /valid_entry (negbTE hp); lia.
exists E, r, j, 0; split=> //.
have hEa : n_along E = d by case/and3P: hE => _ /eqP.
rewrite /fpair (negbTE hb) /num_pair /= hEa eqxx -eF /E /F !index_uniq ?enum_uniq //.
by rewrite -addnA [size _ * (_ %/ _)]mulnC -divn_eq /k'; lia.
Qed.
End Cubic.
End Numbering.
