(** Proofs about the unit cube geometry: the map to physical coordinates. *)
From mathcomp Require Import all_ssreflect all_algebra zify ring.
From Verif Require Import M_Base L_Base M_DenseLA S_DenseLA L_DenseLA M_Lapack S_Lapack L_Lapack M_Index
  S_Index L_Index M_Topology S_Topology L_Topology L_Topology2 M_Geometry S_Geometry L_Geometry.
Set Implicit Arguments. Unset Strict Implicit. Unset Printing Implicit Defensive.
Import Order.TTheory GRing.Theory Num.Theory.
Local Open Scope ring_scope.

Local Notation cn c i := (nth (false, 0%N) c i).

Section Map.
Variable F : realFieldType.
Implicit Types (p q y : seq F) (c : cell).

Lemma size_place c p : size (place c p) = size c.
Proof. by elim: c p => [//|[[] x] c IH] p /=; rewrite IH. Qed.

Lemma place_nth c p i : (i < size c)%N ->
  (place c p)`_i = (cn c i).2%:R + (if i \in along_dirs c then p`_(index i (along_dirs c)) else 0).
Proof.
elim: c p i => [//|[b x] c IH] p i; rewrite along_dirs_cons.
case: b => /=.
  case: i => [|i] /=; first by rewrite nth0.
  rewrite ltnS => hi; rewrite IH // in_cons /= mem_map ?index_map; [|exact: succn_inj..].
  by congr (_ + _); case: ifP => // _; rewrite nth_behead.
case: i => [|i] /=; first by case: ifP => [/mapP []//|_]; rewrite addr0.
by rewrite ltnS => hi; rewrite IH // mem_map ?index_map //; exact: succn_inj.
Qed.

Section Dims.
Variable dims : seq nat.
Hypothesis hpos : all (fun n => (0 < n)%N) dims.
Let n := size dims.

Lemma fdims_neq0 i : (i < n)%N -> (nth 0%N dims i)%:R != 0 :> F.
Proof. by move=> h; rewrite pnatr_eq0 -lt0n; apply: (allP hpos); rewrite mem_nth. Qed.
Lemma fdims_gt0 i : (i < n)%N -> 0 < (nth 0%N dims i)%:R :> F.
Proof. by move=> h; rewrite ltr0n; apply: (allP hpos); rewrite mem_nth. Qed.

Lemma size_phys c p : size c = n -> size (phys dims c p) = n.
Proof. by move=> h; rewrite size_map size_zip size_place h minnn. Qed.
Lemma phys_nth c p i : size c = n -> (i < n)%N ->
  (phys dims c p)`_i = (place c p)`_i / (nth 0%N dims i)%:R.
Proof.
move=> h hi; rewrite /phys (nth_map (0, 0%N)) ?size_zip ?size_place ?h ?minnn //.
by rewrite nth_zip // size_place.
Qed.
Lemma phys_inj c c' p p' : size c = n -> size c' = n -> phys dims c p = phys dims c' p' ->
  place c p = place c' p'.
Proof.
move=> h h' e; apply: (@eq_from_nth _ 0); rewrite !size_place h ?h' // => i hi.
have := congr1 (fun s => s`_i) e; rewrite !phys_nth //.
by move/(mulIf (invr_neq0 (fdims_neq0 hi))).
Qed.

Lemma in_refP m p : reflect (forall i, (i < m)%N -> 0 <= p`_i <= 1) (in_ref m p).
Proof.
apply: (iffP allP) => [h i hi|h i]; first by apply: h; rewrite mem_iota.
by rewrite mem_iota; exact: h.
Qed.
Lemma in_cubeP m p : in_cube m p <-> size p = m /\ in_ref m p.
Proof.
split=> [[h1 /all_nthP h2]|[h1 /in_refP h2]]; split=> //.
  by apply/in_refP => i hi; apply: h2; rewrite h1.
by apply/(all_nthP 0) => i; rewrite h1; exact: h2.
Qed.

(** Column [j] of a matrix of points. *)
Definition pt_col d points j : seq F := mkseq (fun k => mget d points k j) d.

Variable c : cell.
Hypothesis hc : size c = n.
Let d := n_along c.
Let g := hgeo_of F dims c.

Lemma g_nE : g_n g = n. Proof. by rewrite /g_n size_mkseq. Qed.
Lemma g_dE : g_d g = d. Proof. by rewrite /g_d size_map size_along_dirs. Qed.
Lemma dirE j : nth 0%N (g_dirs g) j = nth 0%N (along_dirs c) j. Proof. by []. Qed.
Lemma charE j : (j < d)%N -> (g_char g)`_j = (nth 0%N dims (nth 0%N (along_dirs c) j))%:R^-1.
Proof. by move=> h; rewrite (nth_map 0%N) // size_along_dirs. Qed.
Lemma dir_lt j : (j < d)%N -> (nth 0%N (along_dirs c) j < n)%N.
Proof. by move=> h; rewrite -hc along_dirs_lt. Qed.

Lemma uc_mapE n_vec points : in_ref (d * n_vec) points ->
  exists y, [/\ uc_map g n_vec points = Ok y, size y = (n * n_vec)%N &
    forall i j, (i < n)%N -> (j < n_vec)%N -> mget n y i j = (phys dims c (pt_col d points j))`_i].
Proof.
move=> hin; rewrite /uc_map g_dE g_nE hin.
set y := for_ _ _ _.
have hy : y = accumulate (rep_mat n n_vec (g_trans g)) (flatten [seq
    [seq (loc n (nth 0%N (along_dirs c) k) j, mget d points k j * (g_char g)`_k) | k <- iota 0 d]
    | j <- iota 0 n_vec]).
  rewrite -for_accumulate /y; apply: eq_for => j s _.
  have -> : [seq (loc n (nth 0%N (along_dirs c) k) j, mget d points k j * (g_char g)`_k) | k <- iota 0 d]
    = flatten [seq [:: (loc n (nth 0%N (along_dirs c) k) j, mget d points k j * (g_char g)`_k)] | k <- iota 0 d].
    by elim: (iota 0 d) => //= a l ->.
  by rewrite -for_accumulate; apply: eq_for.
have hrep : size (rep_mat n n_vec (g_trans g)) = (n * n_vec)%N.
  by rewrite (@size_for2_assign _ 0 n (fun i j => loc n i j) (fun i j _ => (g_trans g)`_i)) size_nseq.
exists y; split=> //; first by rewrite hy size_accumulate.
move=> i j hi hj; rewrite /mget hy nth_accumulate_in; last by rewrite hrep loc_lt.
rewrite -/(mget n _ i j) mget_rep_mat // sum_flatten_iota (bigD1 (Ordinal hj)) // [X in _ + (_ + X)]big1; last first.
  move=> j' hj'; rewrite big_map /= big_seq_cond big1 // => k /andP [].
  rewrite mem_iota /= add0n => hk /eqP /(loc_inj (dir_lt hk) hi) [_ e].
  by move: hj'; rewrite -val_eqE /= e eqxx.
rewrite addr0 big_map phys_nth // place_nth ?hc // mulrDl; congr (_ + _).
  by rewrite nth_mkseq.
rewrite (eq_bigl (fun k => nth 0%N (along_dirs c) k == i)) /=; last first.
  by move=> k; rewrite /loc eqn_add2l.
transitivity (\sum_(k < size (along_dirs c) | nth 0%N (along_dirs c) k == i)
   (mget d points k j * (g_char g)`_k)).
  by rewrite -(big_mkord (fun k => nth 0%N (along_dirs c) k == i)
     (fun k => mget d points k j * (g_char g)`_k)) /index_iota subn0 size_along_dirs.
rewrite (sum_dirs (fun k => mget d points k j * (g_char g)`_k)) ?along_dirs_uniq //.
case: ifP => hi'; last by rewrite mul0r.
have hk : (index i (along_dirs c) < d)%N by rewrite -[d]size_along_dirs index_mem.
by rewrite charE // nth_index // nth_mkseq.
Qed.

Lemma pt_col1 p : size p = d -> pt_col d p 0 = p.
Proof.
move=> h; apply: (@eq_from_nth _ 0); rewrite size_mkseq ?h // => i hi.
by rewrite nth_mkseq // mget_col.
Qed.

Lemma uc_map1 p : in_cube d p -> uc_map g 1 p = Ok (phys dims c p).
Proof.
move=> /in_cubeP [hs hin].
have [|y [-> hy hn]] := @uc_mapE 1 p; first by rewrite muln1.
congr Ok; apply: (@eq_from_nth _ 0); rewrite hy muln1 ?size_phys // => i hi.
by have := hn i 0%N hi isT; rewrite mget_col pt_col1.
Qed.
Lemma uc_map_out n_vec points : ~~ in_ref (d * n_vec) points -> uc_map g n_vec points = Abort.
Proof. by move=> h; rewrite /uc_map g_dE (negbTE h). Qed.

Lemma along_full_dirs : d = n -> along_dirs c = iota 0 n.
Proof.
move=> h; rewrite /along_dirs hc; apply/all_filterP/allP => i; rewrite mem_iota /= add0n => hi.
have hc' := @all_along_full c (etrans h (esym hc)).
have hs : size (along c) = n by rewrite size_along.
by rewrite hc' /full (nth_map 0%N) // hs.
Qed.

Lemma uc_map_volumeE n_vec points : d = n -> size points = (n * n_vec)%N ->
  uc_map_volume g n_vec points = uc_map g n_vec points.
Proof.
move=> hdn hs; rewrite /uc_map_volume g_dE g_nE hdn eqxx /=.
case: ifP => hin; last by rewrite uc_map_out ?hdn ?hin.
have [|y [-> hy hn]] := @uc_mapE n_vec points; first by rewrite hdn.
congr Ok; set z := for_ _ _ _.
pose h i (j : nat) x := x * (g_char g)`_i + (g_trans g)`_i.
have hz : z = for_ n_vec (fun j y => for_ n (fun i y =>
    upd y (loc n i j) (h i j (nth 0 y (loc n i j)))) y) points.
  rewrite /z.
  have H j s m : size s = (n * n_vec)%N -> (j < n_vec)%N -> (m <= n)%N ->
    for_ m (fun i y => mset n (mset n y i j (mget n y i j * (g_char g)`_i)) i j
         (mget n (mset n y i j (mget n y i j * (g_char g)`_i)) i j + (g_trans g)`_i)) s =
    for_ m (fun i y => upd y (loc n i j) (h i j (nth 0 y (loc n i j)))) s.
    move=> hs' hj; elim: m => [//|m IH] hm; rewrite !for_S IH; last exact: ltnW.
    set w := for_ _ _ s; have hw : size w = (n * n_vec)%N by rewrite size_for_assign.
    rewrite /mset /mget nth_upd eqxx hw loc_lt //= /h.
    apply: (@eq_from_nth _ 0); rewrite !size_upd // => k hk.
    rewrite !nth_upd !size_upd; by case: (_ && _).
  have H2 m : (m <= n_vec)%N -> for_ m (fun j y => for_ n (fun i y =>
    mset n (mset n y i j (mget n y i j * (g_char g)`_i)) i j
         (mget n (mset n y i j (mget n y i j * (g_char g)`_i)) i j + (g_trans g)`_i)) y) points =
    for_ m (fun j y => for_ n (fun i y => upd y (loc n i j) (h i j (nth 0 y (loc n i j)))) y) points.
    elim: m => [//|m IH] hm; rewrite !for_S IH; last exact: ltnW.
    by apply: H => //; rewrite size_for2_assign.
  exact: H2.
apply: (@eq_from_nth _ 0); first by rewrite hz size_for2_assign hy.
rewrite hz size_for2_assign hs => k hk; have [i [j [hi hj ->]]] := loc_surj hk.
rewrite nth_for2_assign_in ?hs ?loc_lt //; last first.
  by move=> i1 j1 i2 j2 h1 _ h2 _ /(loc_inj h1 h2).
have := hn i j hi hj; rewrite /mget => ->.
rewrite phys_nth // place_nth ?hc // along_full_dirs // mem_iota /= add0n hi.
have hidx : index i (iota 0 n) = i by rewrite -{1}[i](nth_iota 0 0 hi) ?add0n index_uniq ?iota_uniq ?size_iota.
rewrite hidx /h charE ?hdn // along_full_dirs // nth_iota // nth_mkseq // nth_mkseq ?hdn //.
by rewrite /coord /mget add0n mulrDl addrC.
Qed.
End Dims.
End Map.
