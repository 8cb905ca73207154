(** Proofs about the unit cube geometry. *)
From mathcomp Require Import all_ssreflect all_algebra zify ring.
From Verif Require Import M_Base L_Base M_DenseLA S_DenseLA L_DenseLA M_Lapack S_Lapack L_Lapack M_Index S_Index L_Index M_Topology
  S_Topology L_Topology L_Topology2 M_Geometry S_Geometry.
Set Implicit Arguments. Unset Strict Implicit. Unset Printing Implicit Defensive.
Import Order.TTheory GRing.Theory Num.Theory.
Local Open Scope ring_scope.

Local Notation cn c i := (nth (false, 0%N) c i).

(** *** Directions of cells *)
Lemma along_dirs_cons b x (c : cell) :
  along_dirs ((b, x) :: c) = (if b then [:: 0%N] else [::]) ++ [seq i.+1 | i <- along_dirs c].
Proof.
rewrite /along_dirs /=; rewrite -[1%N]addn0 iotaDl filter_map /=.
have -> : [seq i <- iota 0 (size c) | preim (addn 1) (fun i => (cn ((b, x) :: c) i).1) i]
   = [seq i <- iota 0 (size c) | (cn c i).1] by apply: eq_filter.
by case: b.
Qed.
Lemma size_along_dirs c : size (along_dirs c) = n_along c.
Proof.
elim: c => [//|[b x] c IH]; rewrite along_dirs_cons size_cat size_map IH /n_along /=.
by case: b.
Qed.
Lemma along_dirs_uniq c : uniq (along_dirs c).
Proof. by rewrite filter_uniq ?iota_uniq. Qed.
Lemma mem_along_dirs c i : (i \in along_dirs c) = (i < size c)%N && (cn c i).1.
Proof. by rewrite mem_filter mem_iota /= add0n andbC. Qed.
Lemma along_dirs_lt c j : (j < n_along c)%N -> (nth 0%N (along_dirs c) j < size c)%N.
Proof.
rewrite -size_along_dirs => /(mem_nth 0%N); rewrite mem_along_dirs => /andP [] //.
Qed.
Lemma along_dirs_at c j : (j < n_along c)%N -> (cn c (nth 0%N (along_dirs c) j)).1.
Proof.
rewrite -size_along_dirs => /(mem_nth 0%N); rewrite mem_along_dirs => /andP [] //.
Qed.

(** The lower corner of a cell. *)
Definition low (c : cell) : seq nat := [seq p.2 | p <- c].

Lemma low_facet c j s : (j < n_along c)%N ->
  low (facet_at c j s) = upd (low c) (nth 0%N (along_dirs c) j) (nth 0%N (low c) (nth 0%N (along_dirs c) j) + s)%N.
Proof.
rewrite /n_along /low; elim: c j => [//|[b x] c IH] j; rewrite along_dirs_cons /=.
case: b => /=.
  case: j => [|j] /=; first by rewrite /upd.
  rewrite add1n ltnS => h; rewrite IH // (nth_map 0%N) ?size_along_dirs // /upd /=.
  rewrite ltnS; case: ifP => //.
rewrite add0n => h; rewrite IH // (nth_map 0%N) ?size_along_dirs // /upd /= ltnS.
by case: ifP.
Qed.

Lemma along_dirs_facet c j s : (j < n_along c)%N ->
  along_dirs (facet_at c j s) = take j (along_dirs c) ++ drop j.+1 (along_dirs c).
Proof.
rewrite /n_along; elim: c j => [//|[b x] c IH] j; rewrite along_dirs_cons /=.
case: b => /=.
  case: j => [|j] /=; first by rewrite along_dirs_cons drop0.
  rewrite add1n ltnS => h; rewrite along_dirs_cons IH //= map_cat map_take map_drop.
  by [].
by rewrite add0n => h; rewrite along_dirs_cons /= IH // map_cat map_take map_drop.
Qed.

(** Vertices: every direction is across. *)
Lemma across_vertex c : n_along c = 0%N -> across c = low c.
Proof.
rewrite /n_along /across /low; elim: c => [//|[[] x] c IH] //=.
by rewrite add0n => h; rewrite IH.
Qed.
Lemma across_dirs_vertex c : n_along c = 0%N -> across_dirs c = iota 0 (size c).
Proof.
move=> h; apply/all_filterP/allP => i; rewrite mem_iota /= add0n => hi.
have := count_size fst c; rewrite -/(n_along c) h => _; apply/negP => hb.
move: h; rewrite -size_along_dirs => /eqP; rewrite size_eq0 => /eqP e.
by have := mem_along_dirs c i; rewrite e hi hb.
Qed.
Lemma exterior_vertex c k : n_along c = 0%N -> (k < size c)%N ->
  exterior_direction c k = Ok k /\ exterior_coordinate c k = Ok (nth 0%N (low c) k).
Proof.
move=> h hk; rewrite /exterior_direction /exterior_coordinate h subn0 hk across_vertex //.
by rewrite across_dirs_vertex // nth_iota.
Qed.
Lemma size_low c : size (low c) = size c. Proof. exact: size_map. Qed.

(** *** Filling in the data of a hyperedge *)
Section Fill.
Variable F : realFieldType.
Variable dims : seq nat.
Hypothesis hpos : all (fun n => (0 < n)%N) dims.
Implicit Types (g : hgeo F) (v : cell).

Let n := size dims.
Definition coord (i x : nat) : F := x%:R / (nth 0%N dims i)%:R.

Lemma dims_pos i : (i < n)%N -> (0 < nth 0%N dims i)%N.
Proof. by move=> h; apply: (allP hpos); rewrite mem_nth. Qed.

Lemma unit_coordE i x : (i < n)%N -> (x <= nth 0%N dims i)%N ->
  unit_coord F dims i x = Ok (coord i x).
Proof.
move=> hi hx; have h := dims_pos hi; rewrite /unit_coord -/(coord i x) eqn0Ngt h /=.
rewrite divr_ge0 ?ler0n //= ler_pdivr_mulr ?ltr0n // mul1r ler_nat.
by rewrite hx.
Qed.

Lemma coord_inj i x x' : (i < n)%N -> (coord i x == coord i x') = (x == x').
Proof.
move=> hi; have h := dims_pos hi; rewrite /coord.
have hx : (nth 0%N dims i)%:R != 0 :> F by rewrite pnatr_eq0 -lt0n.
apply/eqP/eqP => [|-> //]; move/(mulIf (invr_neq0 hx)) => /eqP.
by rewrite eqr_nat => /eqP.
Qed.

(** Corner coordinates lie in the grid. *)
Definition in_grid (l : seq nat) : Prop := size l = n /\ forall i, (i < n)%N -> (nth 0%N l i <= nth 0%N dims i)%N.
Definition trans_of (l : seq nat) : seq F := mkseq (fun i => coord i (nth 0%N l i)) n.

Lemma set_transE v g : n_along v = 0%N -> in_grid (low v) -> size (g_trans g) = n ->
  set_trans dims v g = Ok (HGeo (trans_of (low v)) (g_dirs g) (g_char g)).
Proof.
move=> hv [hs hl] hg; rewrite /set_trans.
have H m : (m <= n)%N -> exists t, [/\ foro m (fun k g =>
    obind (exterior_direction v k) (fun dir =>
    obind (exterior_coordinate v k) (fun x =>
    obind (unit_coord F dims dir x) (fun t =>
      Ok (HGeo (upd (g_trans g) dir t) (g_dirs g) (g_char g)))))) g = Ok (HGeo t (g_dirs g) (g_char g)),
    size t = n & forall i, (i < m)%N -> t`_i = coord i (nth 0%N (low v) i)].
  elim: m => [|m IH] hm; first by exists (g_trans g); split=> //; case: (g).
  have [t [e ht htn]] := IH (ltnW hm).
  exists (upd t m (coord m (nth 0%N (low v) m))); split.
  - have [e1 e2] : exterior_direction v m = Ok m /\ exterior_coordinate v m = Ok (nth 0%N (low v) m).
      by apply: exterior_vertex => //; move: hs; rewrite size_low => ->.
    by rewrite foroS e /= e1 /= e2 /= unit_coordE //; exact: hl.
  - by rewrite size_upd.
  - move=> i; rewrite ltnS nth_upd ht hm andbT => hi.
    have [->//|hne] := eqVneq i m; apply: htn.
    by rewrite ltn_neqAle hne.
have [t [-> ht htn]] := H n (leqnn _).
congr (Ok (HGeo _ _ _)); apply: (@eq_from_nth _ 0); rewrite ?size_mkseq // => i; rewrite ht => hi.
by rewrite nth_mkseq // htn.
Qed.

Lemma set_charE v g l a dim : n_along v = 0%N -> in_grid (low v) -> g_trans g = trans_of l ->
  (a < n)%N -> low v = upd l a (nth 0%N l a).+1 -> size l = n ->
  set_char dims v dim g (iota 0 n) =
  Ok (HGeo (g_trans g) (upd (g_dirs g) dim a) (upd (g_char g) dim (nth 0%N dims a)%:R^-1)).
Proof.
move=> hv [hs hl] hg ha hlow hln.
suff H b m : (b + m = n)%N -> (b <= a)%N -> set_char dims v dim g (iota b m) =
  Ok (HGeo (g_trans g) (upd (g_dirs g) dim a) (upd (g_char g) dim (nth 0%N dims a)%:R^-1)).
  exact: H.
elim: m b => [|m IH] b hbm hba /=; first by move: ha hba; rewrite -hbm addn0 ltnNge => /negbTE ->.
have hb : (b < n)%N by rewrite -hbm; lia.
have [e1 e2] : exterior_direction v b = Ok b /\ exterior_coordinate v b = Ok (nth 0%N (low v) b).
  by apply: exterior_vertex => //; move: hs; rewrite size_low => ->.
rewrite e1 /= e2 /= unit_coordE //=; last exact: hl.
rewrite hg nth_mkseq // coord_inj // hlow nth_upd hln ha andbT.
have [e|hne] := eqVneq b a; last first.
  by rewrite eqxx /= -hg; apply: IH; lia.
rewrite e /= gtn_eqF ?ltnSn //=; congr (Ok (HGeo _ _ (upd _ _ _))).
by rewrite /coord -mulrBl -natrB // subSnn mul1r.
Qed.

Variable E : cell.
Let d := n_along E.
Hypothesis hE : valid (Tpcc true d dims) E.
Let ads := along_dirs E.

Lemma E_size : size E = n. Proof. by case/and3P: hE => /eqP. Qed.
Lemma E_entry i : (i < n)%N -> ((cn E i).2 + (cn E i).1 <= nth 0%N dims i)%N.
Proof.
case/and3P: hE => /eqP /= hs _; rewrite all2E hs eqxx /= => /allP h hi.
have /h : (nth 0%N dims i, cn E i) \in zip dims E.
  by rewrite -nth_zip // mem_nth // size_zip hs minnn.
rewrite /valid_entry /=; case: (cn E i) => [[] x] /=; rewrite ?addn1 //.
by rewrite addn0.
Qed.
Lemma low_nth i : (i < n)%N -> nth 0%N (low E) i = (cn E i).2.
Proof. by move=> hi; rewrite (nth_map (false, 0%N)) // E_size. Qed.
Lemma low_grid : in_grid (low E).
Proof.
split; first by rewrite size_low E_size.
by move=> i hi; rewrite low_nth //; apply: leq_trans (E_entry hi); rewrite leq_addr.
Qed.

(** The state after the first [m] lengths have been found. *)
Definition geo (m : nat) : hgeo F :=
  HGeo (trans_of (low E)) (mkseq (fun j => if (j < m)%N then nth 0%N ads j else 0%N) d)
       (mkseq (fun j => if (j < m)%N then (nth 0%N dims (nth 0%N ads j))%:R^-1 else 0) d).

Lemma ads_lt j : (j < d)%N -> (nth 0%N ads j < n)%N.
Proof. by move=> h; rewrite -E_size along_dirs_lt. Qed.

Lemma geo_find m : (m <= d)%N -> find (fun c => ~~ (c != 0)) (g_char (geo m)) = m.
Proof.
move=> hm; have hz j : (j < m)%N -> ((nth 0%N dims (nth 0%N ads j))%:R^-1 : F) != 0.
  by move=> hj; rewrite invr_eq0 pnatr_eq0 -lt0n dims_pos // ads_lt // (leq_trans hj).
apply/eqP; rewrite eqn_leq; apply/andP; split; rewrite leqNgt; apply/negP => h.
  have hmd : (m < d)%N by apply: leq_trans h _; rewrite (leq_trans (find_size _ _)) // size_mkseq.
  by have := before_find 0 h; rewrite /= nth_mkseq // ltnn eqxx.
have hs : has (fun c => ~~ (c != 0)) (g_char (geo m)).
  by rewrite has_find size_mkseq (leq_trans h).
have := nth_find 0 hs; move: h; move: (find _ _) => k h; rewrite /= nth_mkseq ?(leq_trans h) //.
by rewrite hz.
Qed.

Lemma skip_block k m e t0 : (k < d)%N -> n_along e = m -> (2 ^ k < t0)%N -> (t0 + 2 ^ m <= 2 ^ k.+1)%N ->
  fill_data dims m t0 e (geo k.+1) = Ok ((t0 + 2 ^ m)%N, geo k.+1).
Proof.
move=> hk; elim: m e t0 => [|m IH] e t0 he h1 h2.
  rewrite /= /fill_vertex; have -> : (t0 == 0%N) = false by lia.
  rewrite [obind _ _]/= geo_find //; have -> : (t0 == 2 ^ k.+1)%N = false by lia.
  by rewrite /= addn1.
have hexp : (2 ^ m.+1 = 2 ^ m + 2 ^ m)%N by rewrite expnS; lia.
rewrite /= /get_face he; have -> : (2 * m < 2 * m.+1)%N by lia.
rewrite /= IH /=; first last.
- by move: h2 hexp; lia.
- by [].
- by rewrite n_along_facet he //; lia.
have -> : ((2 * m).+1 < 2 * m.+1)%N by lia.
rewrite /= IH /=; first by rewrite -addnA -hexp.
- by rewrite n_along_facet he //; lia.
- by move: h1; lia.
- by rewrite -addnA -hexp.
Qed.

Lemma upd_mkseq (T : Type) (f : nat -> T) m k x : (k < m)%N ->
  upd (mkseq f m) k x = mkseq (fun i => if i == k then x else f i) m.
Proof.
move=> hk; apply: (@eq_from_nth _ x); rewrite size_upd !size_mkseq // => i hi.
by rewrite nth_upd size_mkseq hk andbT !nth_mkseq //; case: eqP.
Qed.

Lemma new_block k m e : (k < d)%N -> n_along e = m ->
  low e = upd (low E) (nth 0%N ads k) (nth 0%N (low E) (nth 0%N ads k)).+1 -> (m <= k)%N ->
  fill_data dims m (2 ^ k) e (geo k) = Ok ((2 ^ k + 2 ^ m)%N, geo k.+1).
Proof.
move=> hk; elim: m e => [|m IH] e he hlow hmk.
  rewrite /= /fill_vertex; have -> : (2 ^ k == 0)%N = false.
    by apply/negbTE; rewrite -lt0n expn_gt0.
  rewrite [obind (Ok _) _]/= geo_find ?(ltnW hk) // eqxx (loadE 0) /= size_mkseq hk /=.
  rewrite nth_mkseq // ltnn eqxx (@set_charE _ _ (low E) (nth 0%N ads k)) //.
  - rewrite /= addn1 !upd_mkseq //; congr (Ok (_, HGeo _ _ _)); apply/eq_mkseq => j.
      by rewrite [in RHS]ltnS [in RHS]leq_eqVlt; have [->|_] := j =P k.
    by rewrite [in RHS]ltnS [in RHS]leq_eqVlt; have [->|_] := j =P k.
  - split; first by rewrite hlow size_upd size_low E_size.
    move=> i hi; rewrite hlow nth_upd size_low E_size ads_lt // andbT.
    case: eqP => [->|_]; last exact: (low_grid).2.
    by have := E_entry (ads_lt hk); rewrite along_dirs_at // addn1 low_nth // ads_lt.
  - exact: ads_lt.
  - by rewrite size_low E_size.
have hexp : (2 ^ m.+1 = 2 ^ m + 2 ^ m)%N by rewrite expnS; lia.
have h2 : (2 ^ m.+1 <= 2 ^ k)%N by rewrite leq_exp2l.
have h3 : (0 < 2 ^ m)%N by rewrite expn_gt0.
rewrite /= /get_face he; have -> : (2 * m < 2 * m.+1)%N by lia.
rewrite /= IH /=; first last.
- by apply: ltnW.
- rewrite low_facet ?he; last by lia.
  have -> : (2 * m %% 2 = 0)%N by lia.
  by rewrite addn0 upd_id.
- by rewrite n_along_facet he //; lia.
have -> : ((2 * m).+1 < 2 * m.+1)%N by lia.
rewrite /= skip_block //; first by rewrite -addnA -hexp.
- by rewrite n_along_facet he //; lia.
- by move: h3; lia.
- by rewrite -addnA -hexp [(2 ^ k.+1)%N]expnS mul2n -addnn leq_add2l.
Qed.

Lemma low_block k e : (k <= d)%N -> low e = low E -> along_dirs e = take k ads ->
  fill_data dims k 0 e (hgeo0 F n d) = Ok ((2 ^ k)%N, geo k).
Proof.
elim: k e => [|k IH] e hk hlow he.
  have hn : n_along e = 0%N by rewrite -size_along_dirs he take0.
  rewrite /= /fill_vertex eqxx set_transE ?size_nseq ?muln1 //; last by rewrite hlow; exact: low_grid.
  have -> : HGeo (trans_of (low e)) (g_dirs (hgeo0 F n d)) (g_char (hgeo0 F n d)) = geo 0.
    rewrite hlow /geo; congr HGeo; apply: (@eq_from_nth _ 0%N) || apply: (@eq_from_nth _ 0);
      rewrite ?size_nseq ?size_mkseq ?muln1 // => i hi; by rewrite nth_nseq nth_mkseq ?muln1 // hi.
  by rewrite {1}/obind geo_find.
have hn : n_along e = k.+1 by rewrite -size_along_dirs he size_take size_along_dirs; case: ltnP => //; lia.
have ha : nth 0%N (along_dirs e) k = nth 0%N ads k by rewrite he nth_take.
rewrite /= /get_face hn; have -> : (2 * k < 2 * k.+1)%N by lia.
have e1 : (2 * k %/ 2 = k)%N by rewrite mulKn.
have e2 : ((2 * k).+1 %/ 2 = k)%N by rewrite -addn1 mulnC divnMDl // addn0.
rewrite /= IH /=; first last.
- rewrite along_dirs_facet ?hn e1 // drop_oversize ?size_along_dirs ?hn // cats0 he take_take //.
- rewrite low_facet ?hn e1 // ha hlow; have -> : (2 * k %% 2 = 0)%N by lia.
  by rewrite addn0 upd_id.
- exact: ltnW.
have -> : ((2 * k).+1 < 2 * k.+1)%N by lia.
rewrite /= new_block //; first by rewrite expnS; congr (Ok (_, _)); lia.
- by rewrite n_along_facet hn ?e2.
- rewrite low_facet ?hn e2 // ha hlow; have -> : ((2 * k).+1 %% 2 = 1)%N by lia.
  by rewrite addn1.
Qed.

Lemma fill_dataE : fill_data dims d 0 E (hgeo0 F n d) = Ok ((2 ^ d)%N, geo d).
Proof. by apply: low_block => //; rewrite take_oversize // size_along_dirs. Qed.
End Fill.

Lemma foro_ind (S : Type) n (body : nat -> S -> outcome S) (st : nat -> S) :
  (forall i, (i < n)%N -> body i (st i) = Ok (st i.+1)) -> foro n body (st 0%N) = Ok (st n).
Proof.
elim: n => [//|n IH] h; rewrite foroS IH /= ?h // => i hi; apply: h; exact: leqW.
Qed.

Lemma sum_dirs (V : zmodType) (s : seq nat) (v : nat -> V) i : uniq s ->
  \sum_(j < size s | nth 0%N s j == i) v j = if i \in s then v (index i s) else 0.
Proof.
move=> hu; case: ifP => hi; last first.
  by rewrite big1 // => j /eqP e; move: hi; rewrite -e mem_nth.
have hlt : (index i s < size s)%N by rewrite index_mem.
rewrite (bigD1 (Ordinal hlt)) /=; last by rewrite nth_index.
rewrite big1 ?addr0 // => j /andP [/eqP e]; rewrite -val_eqE /= => /eqP [].
by rewrite -e index_uniq.
Qed.

Lemma acc_dirs (F : realFieldType) (s : seq nat) (v : nat -> F) t i : uniq s -> (i < size t)%N ->
  (accumulate t [seq (nth 0%N s j, v j) | j <- iota 0 (size s)])`_i
  = t`_i + (if i \in s then v (index i s) else 0).
Proof.
move=> hu hi; rewrite nth_accumulate_in // big_map; congr (_ + _).
by rewrite -sum_dirs // -(big_mkord (fun j => nth 0%N s j == i)) /index_iota subn0.
Qed.

(** *** The data of a cell of any grid *)
Section Data.
Variable F : realFieldType.
Definition hgeo_of (dims : seq nat) (c : cell) : hgeo F :=
  HGeo (mkseq (fun i => coord F dims i (cn c i).2) (size dims)) (along_dirs c)
       [seq (nth 0%N dims a)%:R^-1 | a <- along_dirs c].

Lemma refine_nth L (E : cell) r i : size r = n_along E -> (i < size E)%N ->
  cn (refine L E (full r)) i =
  if i \in along_dirs E then (true, L * (cn E i).2 + nth 0%N r (index i (along_dirs E)))%N
  else (false, L * (cn E i).2)%N.
Proof.
rewrite /n_along; elim: E r i => [//|[b x] E IH] r i; rewrite along_dirs_cons /=.
case: b => /=; rewrite ?add1n ?add0n.
  case: r => [//|y r] [hr]; case: i => [//|i] /=; rewrite ltnS => hi.
  by rewrite IH // in_cons /= mem_map ?index_map //; exact: succn_inj.
move=> hr; case: i => [|i] /=.
  by case: ifP => // /mapP [].
by rewrite ltnS => hi; rewrite IH // mem_map ?index_map //; exact: succn_inj.
Qed.

Lemma along_dirs_refine L E r : size r = n_along E -> along_dirs (refine L E (full r)) = along_dirs E.
Proof.
rewrite /n_along; elim: E r => [//|[b x] E IH] r /=; case: b => /=; rewrite ?add1n ?add0n.
  by case: r => [//|y r] [hr] /=; rewrite !along_dirs_cons IH.
by move=> hr; rewrite !along_dirs_cons IH.
Qed.

Lemma adapt_dataE dims L E r : valid (Tpcc true (n_along E) dims) E -> (0 < L)%N ->
  all (fun n => (0 < n)%N) dims -> size r = n_along E ->
  adapt_data (n_along E) L (full r) (geo F dims E (n_along E)) =
  Ok (hgeo_of (fine_dims L dims) (refine L E (full r))).
Proof.
move=> hE hL hpos hr; set d := n_along E; set ads := along_dirs E.
have hs : size E = size dims by case/and3P: hE => /eqP.
have hL0 : L%:R != 0 :> F by rewrite pnatr_eq0 -lt0n.
pose c j : F := (nth 0%N dims (nth 0%N ads j))%:R^-1.
pose st m := HGeo (accumulate (trans_of F dims (low E))
    [seq (nth 0%N ads j, (nth 0%N r j)%:R * (c j / L%:R)) | j <- iota 0 m]) ads
    (mkseq (fun j => if (j < m)%N then c j / L%:R else c j) d).
have hads : size ads = d by rewrite size_along_dirs.
have -> : geo F dims E d = st 0%N.
  rewrite /geo /st; congr HGeo.
    apply: (@eq_from_nth _ 0%N); rewrite size_mkseq ?hads // => j hj.
    by rewrite nth_mkseq // hj.
  apply: (@eq_from_nth _ 0); rewrite !size_mkseq // => j hj.
  by rewrite !nth_mkseq // hj.
have -> : hgeo_of (fine_dims L dims) (refine L E (full r)) = st d.
  rewrite /hgeo_of /st along_dirs_refine //; congr HGeo.
  - apply: (@eq_from_nth _ 0); rewrite ?size_accumulate !size_mkseq ?size_map // => i hi.
    rewrite -hads acc_dirs ?along_dirs_uniq ?size_mkseq //.
    rewrite !nth_mkseq ?size_map //.
    have hd0 : (nth 0%N dims i)%:R != 0 :> F.
      by rewrite pnatr_eq0 -lt0n; apply: (allP hpos); rewrite mem_nth.
    rewrite /coord (nth_map 0%N) // refine_nth ?hs //.
    rewrite (low_nth hE) //; case: ifP => hi' /=; last first.
      by rewrite addr0 !natrM; field; rewrite hd0 hL0.
    rewrite /c nth_index // natrD !natrM -/ads; field; by rewrite hd0 hL0.
  - apply: (@eq_from_nth _ 0); rewrite size_map ?size_mkseq // => j; rewrite size_along_dirs => hj.
    rewrite nth_mkseq // hj (nth_map 0%N) ?size_along_dirs // /c (nth_map 0%N).
      by rewrite natrM invfM mulrC.
    by rewrite -hs along_dirs_lt.
apply: foro_ind => m hm; rewrite /interior_coordinate n_along_full hr hm /= along_full.
rewrite nth_mkseq // ltnn upd_mkseq // /st nth_mkseq // eqxx.
rewrite -(addn1 m) iotaD map_cat accumulate_cat /= add0n; congr (Ok (HGeo _ _ _)).
apply: eq_mkseq => j; rewrite addn1 [in RHS]ltnS [in RHS]leq_eqVlt.
by have [->|_] := j =P m.
Qed.
End Data.

Section UCube.
Variable F : realFieldType.
Variable enum : tpcc -> seq cell.
Variable slice : nat -> seq nat -> nat.
Hypothesis henum : tpcc_spec enum.
Hypothesis hslice : slice_spec slice.
Variables (d L : nat) (dims : seq nat).
Hypothesis hL : (0 < L)%N.
Hypothesis hpos : all (fun n => (0 < n)%N) dims.
Let T := cubic_refine enum L (cubic_new enum d dims).
Let G := ucube_refine L (ucube_new d dims).

Lemma n_edges_fine : cu_n_edges T = (size (enum (Tpcc true d dims)) * L ^ d)%N.
Proof. exact: (n_edgesE henum hslice). Qed.

Lemma ucube_atE idx : (idx < cu_n_edges T)%N ->
  ucube_at F enum G idx = Ok (hgeo_of F (fine_dims L dims) (grid_cell enum d dims L idx)).
Proof.
move=> hi; have [hE h1 h2 hr [hl er]] := idx_parts henum hslice hL hi.
rewrite /ucube_at /= hc_powE expn_eq0; have -> : (L == 0%N) = false by case: (L) hL.
rewrite /= /get_element /n_elements h1 h2 /=.
have hd : n_along (nth [::] (enum (Tpcc true d dims)) (idx %/ L ^ d)) = d by case/and3P: hE => _ /eqP.
have hE' := hE; rewrite -{1}hd in hE'.
have hf := fill_dataE F hpos hE'; rewrite hd in hf; rewrite hf /= er.
have ha := adapt_dataE F hE' hL hpos (etrans hr (esym hd)); rewrite hd in ha; rewrite ha.
by rewrite (grid_cellE henum hslice hL hi).
Qed.
End UCube.
