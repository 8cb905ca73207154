(** Proofs about the epsilon-neighbourhood graph of a file of points. *)
From Coq Require Import Ascii String.
From mathcomp Require Import all_ssreflect all_algebra zify.
From Verif Require Import M_Base L_Base M_DenseLA S_DenseLA L_DenseLA M_Text M_ReadDomain S_ReadDomain L_Text
  L_ReadDomain M_EpsGraph S_EpsGraph L_EpsGraph L_GeoText
  M_Global S_Global.
Set Implicit Arguments. Unset Strict Implicit. Unset Printing Implicit Defensive.
Import Order.TTheory GRing.Theory Num.Theory.
Local Open Scope ring_scope.

(** ** Reachability *)
Section Reach.
Variable step : nat -> nat -> bool.
Lemma reach_trans i j k : reachable step i j -> reachable step j k -> reachable step i k.
Proof. by move=> h; elim=> // a b _ hr hs; exact: reach_step hs. Qed.
Lemma reach_last i k : reachable step i k -> i = k \/ exists j, reachable step i j /\ step j k.
Proof. by case=> [|j k' hj hs]; [left | right; exists j]. Qed.
Lemma reach_sym i j : (forall a b, step a b = step b a) -> reachable step i j -> reachable step j i.
Proof.
move=> hs; elim=> [|a b _ h hab]; first exact: reach_refl.
by apply: reach_trans h; apply: reach_step (reach_refl _ _) _; rewrite hs.
Qed.
End Reach.

Section Points.
Variable F : rcfType.
Variables (asserts : bool) (dim : nat).
Hypothesis dim0 : (0 < dim)%N.
Implicit Types (points : seq (seq F)) (eps : F).
Local Notation leT := (fun a b : seq F => ~~ mat_lt dim b a).
Local Notation lex := (fun p q : seq F => ~~ mat_eq dim p q).

Lemma sort_perm points : perm_eq (sort_points dim points) points.
Proof. by rewrite /sort_points perm_sort. Qed.
Lemma sort_size points : size (sort_points dim points) = size points.
Proof. exact: perm_size (sort_perm points). Qed.
Lemma sort_dim points i : all (fun p => size p == dim) points -> (i < size points)%N ->
  size (nth [::] (sort_points dim points) i) = dim.
Proof.
move=> h hi; apply/eqP; move/allP: h => h; apply: h.
by rewrite -(perm_mem (sort_perm points)) mem_nth // sort_size.
Qed.
Lemma sort_mono points i j : (i <= j)%N -> (j < size points)%N ->
  nth 0 (nth [::] (sort_points dim points) i) 0 <= nth 0 (nth [::] (sort_points dim points) j) 0.
Proof.
move=> hij hj; pose r := fun p q : seq F => nth 0 p 0 <= nth 0 q 0.
have hs : sorted r (sort_points dim points).
  apply: (@sub_sorted _ leT); last exact: (sort_sorted_lt (@mat_lt_asym F dim)).
  move=> p q h; rewrite /r leNgt; apply: contra h => h; apply/mat_ltP.
  by exists 0%N; split.
have rt : transitive r by move=> y x z; exact: le_trans.
have rr : reflexive r by move=> x; exact: lexx.
by apply: (sorted_leq_nth rt rr [::] hs); rewrite ?inE ?sort_size //; lia.
Qed.
Lemma points_unique points : all (fun p => size p == dim) points ->
  ~~ has_adjacent (mat_eq dim) (sort_points dim points) = uniq points.
Proof.
move=> h; rewrite -/(is_unique (mat_lt dim) (mat_eq dim) points) is_unique_points uniq_pairwise.
apply: (eq_in_pairwise _ h) => p q /eqP sp /eqP sq /=; congr negb; apply/mat_eqP/eqP => [e|-> //].
by apply: (@eq_from_nth _ 0) => [|k]; rewrite sp ?sq //; exact: e.
Qed.
Lemma sort_before points i j : all (fun p => size p == dim) points -> uniq points ->
  (i < j)%N -> (j < size points)%N ->
  before dim (nth [::] (sort_points dim points) i) (nth [::] (sort_points dim points) j).
Proof.
move=> h hu hij hj; have hs : sorted (mat_lt dim) (sort_points dim points).
  apply: (@adjacent_lt _ _ (mat_eq dim)); last by rewrite points_unique.
  - move=> x y; apply/idP/andP => [hxy|[h1 h2]].
      split; apply: contraTN hxy => /mat_lt_neq //.
      by apply: contra => /mat_eqP e; apply/mat_eqP => k /e.
    by have := mat_lt_total dim x y; rewrite (negbTE h1) (negbTE h2) orbF.
  - exact: (sort_sorted_lt (@mat_lt_asym F dim)).
apply/mat_ltP; apply: (sorted_ltn_nth _ [::] hs) => //; rewrite ?inE ?sort_size //; last by lia.
by move=> y x z; exact: mat_lt_trans.
Qed.

Lemma graph_ok eps points : all (fun p => size p == dim) points -> (0 < size points)%N ->
  (asserts -> uniq points) ->
  exists st, [/\ epsilon_graph asserts dim eps points = Ok (sort_points dim points, st),
    size (b_seen st) = size points,
    forall i, (i < size points)%N ->
      nth false (b_seen st) i <-> reachable (linked dim (sort_points dim points) eps) 0 i
  & close_pairs dim (sort_points dim points) eps (b_conn st)].
Proof.
move=> h h0 hu; set ps := sort_points dim points.
have sz : size ps = size points by exact: sort_size.
have hm i j : (i <= j)%N -> (j < size ps)%N -> nth 0 (nth [::] ps i) 0 <= nth 0 (nth [::] ps j) 0.
  by move=> hij; rewrite sz => hj; exact: sort_mono.
have hd i : (i < size ps)%N -> size (nth [::] ps i) = dim by rewrite sz => hi; exact: sort_dim.
have h0' : (0 < size ps)%N by rewrite sz.
have [st [h1 h2 h3 h4]] := search_result eps dim0 hm hd h0' (leqnn _).
exists st; split.
- rewrite /epsilon_graph -/ps h1 /= /hassert points_unique //.
  by case: asserts hu => [/(_ isT) ->|_] //; rewrite orbT.
- by rewrite h2.
- by move=> i hi; apply: h3; rewrite sz.
move=> i j; have [r -> hr] := h4 i j; split=> [hl hrc|hn].
  by rewrite hl; have -> : r by apply/hr.
case: (boolP (linked _ _ _ _ _)) => hl //; case: r hr => // hr; case: hn; split=> //; exact/hr.
Qed.
Lemma graph_dup eps points : all (fun p => size p == dim) points -> ~~ uniq points ->
  epsilon_graph true dim eps points = Abort.
Proof. by move=> h /negbTE hu; rewrite /epsilon_graph /hassert points_unique // hu. Qed.
Lemma graph_empty eps : epsilon_graph asserts dim eps [::] = UB.
Proof. by rewrite /epsilon_graph /hassert /=. Qed.

Lemma close_pairs_mem eps points l : close_pairs dim points eps l -> all (fun e => linked dim points eps e.1 e.2) l.
Proof.
move=> h; apply/allP => -[i j] hij /=; have [_ h2] := h i j.
case: (boolP (linked _ _ _ _ _)) => // hl; have : (0 < count (joins i j) l)%N.
  by rewrite -has_count; apply/hasP; exists (i, j) => //; rewrite /joins eqxx.
by rewrite h2 // => -[]; rewrite (negbTE hl).
Qed.
Lemma count_le1_uniq (T : eqType) (l : seq T) : (forall x, (count_mem x l <= 1)%N) -> uniq l.
Proof.
elim: l => [//|x l IH] h /=; apply/andP; split.
  by have := h x; rewrite /= eqxx add1n ltnS leqn0 => /eqP e; apply/count_memPn.
by apply: IH => y; apply: leq_trans (h y); rewrite /= leq_addl.
Qed.
Lemma close_pairs_le1 eps points l i j : close_pairs dim points eps l -> (count (joins i j) l <= 1)%N.
Proof.
move=> h; have [h1 h2] := h i j; rewrite leqNgt; apply/negP => hc.
have : ~ (linked dim points eps i j /\ reachable (linked dim points eps) 0 i).
  by move=> [hl hr]; move: hc; rewrite h1.
by move=> /h2 e; move: hc; rewrite e.
Qed.
Lemma close_pairs_uniq eps points l : close_pairs dim points eps l -> uniq l.
Proof.
move=> h; apply: count_le1_uniq => -[i j]; apply: leq_trans (close_pairs_le1 i j h).
by apply: sub_count => e /= /eqP ->; rewrite /joins eqxx.
Qed.

(** The final check. *)
Lemma connected_seen eps points : connected dim points eps <->
  (forall i, (i < size points)%N -> reachable (linked dim points eps) 0 i).
Proof.
split=> h => [i hi|i j hi hj]; first by apply: h => //; exact: leq_ltn_trans hi.
by apply: reach_trans (h j hj); apply: reach_sym (h i hi) => a b; exact: link_sym.
Qed.
End Points.

(** ** Files *)
Section Files.
Variables (F : rcfType) (parse : text -> option (F * text)) (show : F -> text) (rnd : F -> F).
Variables (umax : nat) (asserts : bool) (dim : nat).
Hypothesis H : float_text parse show rnd.
Hypothesis dim0 : (0 < dim)%N.
Implicit Types (points : seq (seq F)).

Lemma make_ok name file eps points : read_pts parse umax asserts dim file = Ok (eps, points) ->
  all (fun p => size p == dim) points -> (0 < size points)%N -> (asserts -> uniq points) ->
  (asserts -> (4 <= size name)%N /\ drop (size name - 4) name = t_ ".pts") ->
  exists2 conn, close_pairs dim (sort_points dim points) eps conn &
    (asserts -> connected dim (sort_points dim points) eps) ->
    make_epsilon_neighborhood_graph parse show umax asserts dim name file =
      Ok (name ++ t_ ".geo", geo_text show dim (sort_points dim points) conn).
Proof.
move=> hr hd h0 hu hn; have [st [h1 h2 h3 h4]] := graph_ok dim0 eps hd h0 hu.
exists (b_conn st) => // hc; rewrite /make_epsilon_neighborhood_graph /make_epsilon_text.
have -> : (if asserts then has_suffix ".pts" name (fun b => hassert asserts b (Ok tt)) else Ok tt) = Ok tt.
  case: asserts hn => // /(_ isT)[n1 n2]; rewrite /has_suffix ltnNge n1 /= n2.
  by rewrite /hassert eqxx.
rewrite hr /= h1 /= /hassert; case: asserts hc => [/(_ isT) hc|_]; last by rewrite orbT.
have -> : all id (b_seen st) => //; apply/(all_nthP false) => i; rewrite h2 => hi.
by apply/h3 => //; apply: hc; rewrite sort_size.
Qed.
Lemma make_disconnected name file eps points : read_pts parse umax true dim file = Ok (eps, points) ->
  all (fun p => size p == dim) points -> (0 < size points)%N ->
  (4 <= size name)%N -> drop (size name - 4) name = t_ ".pts" ->
  make_epsilon_neighborhood_graph parse show umax true dim name file <> Abort ->
  uniq points /\ connected dim (sort_points dim points) eps.
Proof.
move=> hr hd h0 n1 n2; case: (boolP (uniq points)) => hu; last first.
  rewrite /make_epsilon_neighborhood_graph /make_epsilon_text /has_suffix ltnNge n1 /= n2 /hassert eqxx /= hr /=.
  by rewrite graph_dup.
have [st [h1 h2 h3 h4]] := graph_ok dim0 eps hd h0 (fun _ : true => hu).
rewrite /make_epsilon_neighborhood_graph /make_epsilon_text /has_suffix ltnNge n1 /= n2 /hassert eqxx /= hr /= h1 /=.
rewrite orbF; case: ifP => // /(all_nthP false) ha _; split=> //; apply/connected_seen => i.
rewrite sort_size => hi; apply/h3 => //; apply: ha; by rewrite h2.
Qed.
End Files.

(** The domain read back. *)
Section Files2.
Variables (F : rcfType) (parse : text -> option (F * text)) (show : F -> text) (rnd : F -> F).
Variables (umax : nat) (asserts : bool) (dim : nat).
Hypothesis H : float_text parse show rnd.
Hypothesis dim0 : (0 < dim)%N.
Implicit Types (points : seq (seq F)).

Lemma suffix_geo (name : text) : (4 <= size (name ++ t_ ".geo"))%N /\
  drop (size (name ++ t_ ".geo") - 4) (name ++ t_ ".geo") = t_ ".geo".
Proof. by rewrite size_cat addnK drop_size_cat; split=> //; rewrite leq_addl. Qed.
Lemma pairs_two eps points l : close_pairs dim points eps l -> connected dim points eps ->
  (0 < size l)%N = (1 < size points)%N.
Proof.
move=> h hc; apply/idP/idP => [hl|h1].
  case: l h hl => [//|e l] h _; have := close_pairs_mem h; rewrite /= => /andP[+ _].
  rewrite /linked => /and4P[h1 h2 /eqP h3 _]; lia.
have hr : reachable (linked dim points eps) 0 1 by apply: hc => //; lia.
have [j [h2 h3]] : exists j, reachable (linked dim points eps) 0 j /\ linked dim points eps j 1.
  by have [//|] := reach_last hr.
have [hq _] := h j 1%N; have := hq h3 h2; case: (l) => //.
Qed.
Lemma sort_map_uniq points : uniq (map (map rnd) (sort_points dim points)) = uniq (map (map rnd) points).
Proof. by apply: perm_uniq; apply: perm_map; exact: sort_perm. Qed.
Lemma uniq_points (pts : seq (seq F)) : all (fun p => size p == dim) pts ->
  pairwise (fun p q => ~~ mat_eq dim p q) pts = uniq pts.
Proof. by move=> h; rewrite -is_unique_points -(points_unique h). Qed.
Lemma all_sort points : all (fun p => size p == dim) points -> all (fun p => size p == dim) (sort_points dim points).
Proof. by move=> h; apply/allP => p; rewrite (perm_mem (sort_perm dim points)) => /(allP h). Qed.
Lemma read_back_valid eps points conn : all (fun p => size p == dim) points ->
  close_pairs dim (sort_points dim points) eps conn ->
  validb dim (read_back rnd (sort_points dim points) conn) = uniq (map (map rnd) points).
Proof.
move=> hd hc; have hm := close_pairs_mem hc; have hu := close_pairs_uniq hc.
have hrow : all (fun e => uniq e && all (fun x => x < size (sort_points dim points))%N e) (map pair_row conn).
  apply/allP => r /mapP[e he ->]; have := allP hm e he; rewrite /linked => /and4P[h1 h2 h3 _].
  by rewrite /= inE h3 h1 h2.
have hur : uniq (map pair_row conn) by rewrite map_inj_uniq // => -[a b] [c d] [-> ->].
rewrite /validb /= hrow hur /= andbT uniq_points ?sort_map_uniq //.
apply/allP => q /mapP[p hp ->]; rewrite size_map; exact: (allP (all_sort hd)).
Qed.
Lemma read_domain_pts name file eps points : read_pts parse umax true dim file = Ok (eps, points) ->
  all (fun p => size p == dim) points -> (0 < size points)%N -> uniq points ->
  connected dim (sort_points dim points) eps ->
  (4 <= size name)%N -> drop (size name - 4) name = t_ ".pts" ->
  (dim <= umax)%N -> (0 < umax)%N -> (size points <= umax)%N ->
  exists2 conn, close_pairs dim (sort_points dim points) eps conn & (size conn <= umax)%N ->
    read_domain parse show umax true dim 1 name (Some file) =
    if (1 < size points)%N && uniq (map (map rnd) points)
    then Ok (read_back rnd (sort_points dim points) conn) else Abort.
Proof.
move=> hr hd h0 hu hc n1 n2 u1 u2 u3.
have [conn h1 h2] := make_ok show dim0 (name := name) hr hd h0 (fun _ => hu) (fun _ => conj n1 n2).
exists conn => // u4; have hm := close_pairs_mem h1; rewrite /read_domain /has_suffix ltnNge n1 /= n2 eqxx /=.
rewrite (h2 (fun _ => hc)) /=; have [g1 g2] := suffix_geo name.
rewrite ltnNge g1 /= g2 eqxx /=; have he : all (fun e => (e.1 <= umax) && (e.2 <= umax))%N conn.
  apply/allP => e he; have := allP hm e he; rewrite /linked sort_size => /and4P[e1 e2 _ _]; lia.
have := round_trip H (asserts := true) (all_sort hd) he u1 u2 _ u4 (fun _ => suffix_geo name).
rewrite sort_size => /(_ u3) ->; rewrite h0 /= orbF (pairs_two h1 hc) sort_size.
case: (1 < size points)%N => //=; rewrite check_debug (read_back_valid hd h1).
by case: (uniq _).
Qed.

(** Reading a .pts file. *)
Lemma pts_lines_rows points pt : all (fun p => size p == dim) points -> size pt = dim ->
  pts_lines parse pt (map (float_row show) points) = map (map rnd) points.
Proof.
elim: points pt => [//|p points IH] pt /andP[/eqP h1 h2] h3.
have [b e] := extract_floats H (isT : spaces [::]) (etrans h3 (esym h1)).
rewrite cat0s -/(istr _) in e.
have hr : size [seq rnd x | x <- p] = dim by rewrite size_map.
by rewrite /= e (IH _ h2 hr).
Qed.
Lemma read_pts_text eps points : all (fun p => size p == dim) points -> (dim <= umax)%N ->
  read_pts parse umax asserts dim (pts_text show dim eps points) =
  if (0 < rnd eps) || ~~ asserts then Ok (rnd eps, map (map rnd) points) else Abort.
Proof.
move=> hd u1; pose ls := [:: key_line "Space_Dim" (t_ " ") (t_ " ") (decimal dim),
   key_line "Epsilon" (t_ " ") (t_ " ") (show eps), t_ "POINTS:" & map (float_row show) points].
have -> : pts_text show dim eps points = unlines ls.
  rewrite /pts_text /ls !unlines_cons /key_line -!catA.
  by rewrite /unlines -map_comp.
have hl : all no_newline ls.
  have hc (l : text) l' : all no_newline (l :: l') = no_newline l && all no_newline l' by [].
  rewrite /ls !hc /key_line !no_newline_cat decimal_no_newline (solid_no_newline (ft_word H eps)) /=.
  by apply/allP => l /mapP[p _ ->]; exact: (float_row_no_newline H).
rewrite /read_pts lines_unlines // /ls.
rewrite (@dim_line' _ _ "Space_Dim" (t_ " ") (t_ " ") dim) //.
rewrite [goto_key "Epsilon" _](_ : _ = RState (t_ "Epsilon") (t_ "=") (IStream (t_ " " ++ t_ "=" ++ t_ " " ++ show eps ++ t_ ";") true)
   (t_ "POINTS:" :: map (float_row show) points)); last first.
  by apply: goto_line; [ | reflexivity | exact: key_line_word].
rewrite (@read_eq_line _ _ _ _ (t_ " ") (t_ " ") (show eps) (Some (rnd eps))) //; first last.
- by rewrite /conv_some /conv_float (ft_parse H).
- by rewrite solid_head ?(ft_nonempty H) ?(ft_word H).
- exact: (ft_nonempty H).
rewrite [r_key _]/= [r_file _]/=.
rewrite [goto_key "POINTS:" _](_ : _ = RState (t_ "POINTS:") (t_ "=") (IStream [::] true) (map (float_row show) points)); last first.
  by apply: (@goto_line "POINTS:" _ (t_ "POINTS:") (map (float_row show) points)) => //; exact: plain_line_word.
by rewrite /hassert /key_ok /eq_ok /= pts_lines_rows ?size_nseq.
Qed.
End Files2.

(** ** In the form of the properties *)
Section Final.
Variables (F : rcfType) (asserts : bool) (dim : nat) (eps : F) (points : seq (seq F)).
Hypotheses (dim0 : (0 < dim)%N) (hdim : all (fun p => size p == dim) points).
Lemma graph_pairs : (0 < size points)%N -> (asserts -> uniq points) ->
  exists ps st, [/\ epsilon_graph asserts dim eps points = Ok (ps, st), perm_eq ps points,
    forall i j, (i < j)%N -> (j < size ps)%N -> uniq points -> before dim (nth [::] ps i) (nth [::] ps j)
  & close_pairs dim ps eps (b_conn st)].
Proof.
move=> h0 hu; have [st [h1 h2 h3 h4]] := graph_ok dim0 eps hdim h0 hu.
exists (sort_points dim points), st; split=> //; first exact: sort_perm.
by move=> i j hij; rewrite sort_size => hj h; exact: sort_before.
Qed.
Lemma pairs_listed l : close_pairs dim points eps l ->
  uniq l /\ forall e, e \in l -> linked dim points eps e.1 e.2.
Proof. by move=> h; split; [exact: close_pairs_uniq h | move=> e he; exact: (allP (close_pairs_mem h))]. Qed.
Lemma pairs_all l i j : close_pairs dim points eps l -> connected dim points eps ->
  count (joins i j) l = (linked dim points eps i j : nat).
Proof.
move=> h hc; have [h1 h2] := h i j; case: (boolP (linked _ _ _ _ _)) => hl; last by rewrite h2 // => -[]; rewrite (negbTE hl).
rewrite h1 //; move: hl; rewrite /linked => /and4P[hi _ _ _].
by apply: hc => //; exact: leq_ltn_trans hi.
Qed.
Lemma graph_runs : (0 < size points)%N -> exists l st,
  [/\ forall fuel, (size points <= fuel)%N ->
        epsilon_search dim (sort_points dim points) eps fuel = Ok (Some st),
      search_run dim (sort_points dim points) eps (search_start (sort_points dim points)) l st, uniq l
    & forall i, i \in l <-> reachable (linked dim (sort_points dim points) eps) 0 i].
Proof.
move=> h0; set ps := sort_points dim points; have sz : size ps = size points by exact: sort_size.
have hm i j : (i <= j)%N -> (j < size ps)%N -> nth 0 (nth [::] ps i) 0 <= nth 0 (nth [::] ps j) 0.
  by move=> hij; rewrite sz => hj; exact: sort_mono.
have hd i : (i < size ps)%N -> size (nth [::] ps i) = dim by rewrite sz => hi; exact: sort_dim.
have h0' : (0 < size ps)%N by rewrite sz.
have [l [st [h1 h2 h3 h4]]] := search_runs eps dim0 hm hd h0'.
by exists l, st; split=> // fuel hf; apply: h1; rewrite sz.
Qed.
Lemma connected_perm ps : perm_eq ps points -> connected dim ps eps -> connected dim points eps.
Proof.
move=> hp hc; have [Is hI hs] := perm_iotaP [::] hp.
have sI : size Is = size points by rewrite (perm_size hI) size_iota.
have sp : size ps = size points by exact: perm_size hp.
have uI : uniq Is by rewrite (perm_uniq hI) iota_uniq.
have hlt k : (k < size points)%N -> (nth 0%N Is k < size points)%N.
  move=> hk; have : nth 0%N Is k \in Is by rewrite mem_nth // sI.
  by rewrite (perm_mem hI) mem_iota.
have hnth k : (k < size points)%N -> nth [::] ps k = nth [::] points (nth 0%N Is k).
  by move=> hk; rewrite hs (nth_map 0%N) // sI.
have hlink a b : linked dim ps eps a b -> linked dim points eps (nth 0%N Is a) (nth 0%N Is b).
  rewrite /linked sp => /and4P[ha hb hab hd]; rewrite !hlt // -!hnth // hd andbT /=.
  by rewrite nth_uniq // sI.
have hreach a b : reachable (linked dim ps eps) a b -> reachable (linked dim points eps) (nth 0%N Is a) (nth 0%N Is b).
  by elim=> [|j k _ h1 h2]; [exact: reach_refl | exact: reach_step h1 (hlink _ _ h2)].
have hidx i : (i < size points)%N -> exists2 k, (k < size points)%N & nth 0%N Is k = i.
  move=> hi; have hin : i \in Is by rewrite (perm_mem hI) mem_iota.
  by exists (index i Is); rewrite ?nth_index // -sI index_mem.
move=> i j /hidx[a ha <-] /hidx[b hb <-]; apply: hreach; apply: hc; by rewrite sp.
Qed.
End Final.
Lemma make_only (F : rcfType) (parse : text -> option (F * text)) (show : F -> text) umax dim name file eps
    (points : seq (seq F)) : (0 < dim)%N -> all (fun p => size p == dim) points -> (0 < size points)%N ->
  (4 <= size name)%N /\ drop (size name - 4) name = t_ ".pts" ->
  read_pts parse umax true dim file = Ok (eps, points) ->
  (exists r, make_epsilon_neighborhood_graph parse show umax true dim name file = Ok r) ->
  uniq points /\ connected dim (sort_points dim points) eps.
Proof.
move=> d0 hd h0 [n1 n2] hr [r e]; apply: (make_disconnected d0 (show := show) hr hd h0 n1 n2).
by rewrite e.
Qed.

Section Final2.
Variables (F : rcfType) (parse : text -> option (F * text)) (show : F -> text) (rnd : F -> F).
Lemma domain_pts umax dim name file eps (points : seq (seq F)) : float_text parse show rnd -> (dim <= umax)%N -> (0 < umax)%N ->
  (0 < dim)%N ->
  read_pts parse umax true dim file = Ok (eps, points) ->
  all (fun p => size p == dim) points -> (0 < size points)%N -> uniq points ->
  connected dim (sort_points dim points) eps ->
  (4 <= size name)%N -> drop (size name - 4) name = t_ ".pts" -> (size points <= umax)%N ->
  exists2 conn, close_pairs dim (sort_points dim points) eps conn & (size conn <= umax)%N ->
    read_domain parse show umax true dim 1 name (Some file) =
    if (1 < size points)%N && uniq [seq [seq rnd x | x <- p] | p <- points]
    then Ok (DomainInfo (size conn) (size points) (size points) 0
               [seq [seq rnd x | x <- p] | p <- sort_points dim points]
               [seq [:: e.1; e.2] | e <- conn] [seq [:: e.1; e.2] | e <- conn] [seq [:: e.1; e.2] | e <- conn] [::])
    else Abort.
Proof.
move=> hf u1 u2 h1 h2 h3 h4 h5 h6 h7 h8 h9.
have [conn c1 c2] := read_domain_pts hf h1 h2 h3 h4 h5 h6 h7 h8 u1 u2 h9.
by exists conn => // /c2 ->; rewrite /read_back sort_size.
Qed.
Lemma written_types umax dim name (points : seq (seq F)) conn D :
  float_text parse show rnd -> (dim <= umax)%N -> (0 < umax)%N -> all (fun p => size p == dim) points ->
  all (fun e => (e.1 <= umax)%N && (e.2 <= umax)%N) conn -> (size points <= umax)%N -> (size conn <= umax)%N ->
  read_domain_geo parse umax false 1 dim name (geo_text show dim points conn) = Ok D -> di_types D = di_nodes D.
Proof.
move=> hf u1 u2 h1 h2 h3 h4; rewrite (round_trip hf) //= orbT => -[<-].
by [].
Qed.
Variables (umax dim edge_dim : nat).
Lemma read_domain_inv asserts name file D : read_domain parse show umax asserts dim edge_dim name file = Ok D ->
  (exists n f, read_domain_geo parse umax asserts edge_dim dim n f = Ok D) /\ (asserts -> validb dim D).
Proof.
rewrite /read_domain => h; have {h}[h _] := hassert_ok h; move: h; rewrite /has_suffix; case: ifP => // _.
case: (if _ then _ else _) => // -[n f] /=; case: (if asserts then _ else _) => // -[] /=.
case e : (read_domain_geo _ _ _ _ _ n f) => [D'| | |] //=; case: asserts e => [|] e; last by case=> <-; split=> //; exists n, f.
rewrite check_debug; case: (boolP (validb dim D')) => //= hv h.
by have [[<-] _] := hassert_ok h; split=> //; exists n, f.
Qed.
Lemma read_domain_sized asserts name file D : read_domain parse show umax asserts dim edge_dim name file = Ok D ->
  sized_domain edge_dim dim D.
Proof. by move=> h; have [[n [f e]] _] := read_domain_inv h; have [] := read_geo_sized e. Qed.
Lemma read_domain_valid name file D : read_domain parse show umax true dim edge_dim name file = Ok D ->
  [/\ valid_domain dim D, sized_domain edge_dim dim D
    & (0 < di_n_points D)%N /\ (0 < di_n_nodes D)%N /\ (0 < di_n_edges D)%N].
Proof.
move=> h; have [[n [f e]] hv] := read_domain_inv h; have [h1 h2] := read_geo_sized e.
by have [p1 p2 p3] := h2 isT; split=> //; apply/validP; exact: hv.
Qed.
Lemma read_domain_graph (E : Type) (data : seq nat -> E) name file D :
  read_domain parse show umax true dim edge_dim name file = Ok D ->
  valid_graph edge_dim (di_n_nodes D) [seq (e, data e) | e <- di_nodes D].
Proof.
move=> h; have [h1 h2 _] := read_domain_valid h; rewrite /valid_graph all_map; apply/allP => e he /=.
have [_ hx] := vd_nodes h1 he; have [_ hs] := sd_nodes h2; rewrite (allP hs e he); exact/allP.
Qed.
End Final2.

Section Check.
Variables (F : realDomainType) (dim : nat).
Implicit Types D : domain_info F.
Lemma check_valid D : valid_domain dim D -> check_consistency true dim D = Ok true.
Proof. by move=> /validP h; rewrite check_debug h. Qed.
Lemma check_only D b : check_consistency true dim D = Ok b -> b = true /\ valid_domain dim D.
Proof. by rewrite check_debug; case: validP => // h [<-]. Qed.
Lemma check_abort D : ~ valid_domain dim D -> check_consistency true dim D = Abort.
Proof. by rewrite check_debug; case: validP. Qed.
Lemma points_pairwise (s : seq (seq F)) : pairwise (fun p q => ~~ mat_eq dim p q) s <->
  (forall i j, (i < j)%N -> (j < size s)%N -> exists2 k, (k < dim)%N
                & nth 0 (nth [::] s i) k <> nth 0 (nth [::] s j) k).
Proof.
have e : validb dim (DomainInfo 0 0 0 0 s [::] [::] [::] [::]) = pairwise (fun p q => ~~ mat_eq dim p q) s.
  by rewrite /validb /= andbT.
rewrite -e; split=> [/validP[_ _ h _ _] //|h]; apply/validP; split=> //.
Qed.
Lemma check_release D : exists2 b, check_consistency false dim D = Ok b
  & b <-> [/\ forall i j, (i < j)%N -> (j < size (di_points D))%N -> exists2 k, (k < dim)%N
                & nth 0 (nth [::] (di_points D) i) k <> nth 0 (nth [::] (di_points D) j) k,
             uniq (di_nodes D) & uniq (di_points_of D)].
Proof.
rewrite check_ndebug; eexists; first reflexivity.
by split=> [/and3P[/points_pairwise h1 h2 h3]|[/points_pairwise h1 h2 h3]]; [split | rewrite h1 h2 h3].
Qed.
Lemma check_refuted : exists D, check_consistency false dim D = Ok true /\ ~ valid_domain dim D.
Proof.
exists (DomainInfo 1 0 0 0 [::] [:: [:: 5%N; 5%N]] [::] [::] [::]); split; first by rewrite check_ndebug.
by move=> [h _ _ _ _]; have := h [:: 5%N; 5%N]; rewrite mem_head => /(_ isT) [].
Qed.
End Check.
