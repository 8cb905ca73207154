(** Proofs about the search for close pairs of points. *)
From mathcomp Require Import all_ssreflect all_algebra zify.
From Verif Require Import M_Base L_Base M_DenseLA S_DenseLA L_DenseLA M_Text M_ReadDomain M_EpsGraph S_EpsGraph.
Set Implicit Arguments. Unset Strict Implicit. Unset Printing Implicit Defensive.
Import Order.TTheory GRing.Theory Num.Theory.
Local Open Scope ring_scope.

Section Search.
Variable F : rcfType.
Variables (dim : nat) (points : seq (seq F)) (eps : F).
Local Notation n := (size points).
Local Notation x0 i := (nth 0 (nth [::] points i) 0).
Local Notation near := (near dim points eps).
Local Notation in_window := (in_window points eps).
Local Notation visit := (visit dim points eps).
Local Notation scan := (scan dim points eps).
Local Notation expand := (expand dim points eps).
Local Notation link := (linked dim points eps).
Hypothesis dim0 : (0 < dim)%N.
Hypothesis hmono : forall i j, (i <= j)%N -> (j < n)%N -> x0 i <= x0 j.
Hypothesis hsz : forall i, (i < n)%N -> size (nth [::] points i) = dim.

Lemma nearE i j : (i < n)%N -> (j < n)%N ->
  near i j = (dist dim (nth [::] points i) (nth [::] points j) < eps).
Proof.
move=> hi hj; rewrite /M_EpsGraph.near /dist /norm_2; congr (Num.sqrt _ < _).
rewrite scalar_productE; apply: eq_bigr => k _.
have -> : nth 0 (mat_sub dim 1 1 (nth [::] points i) (nth [::] points j)) k =
    mget dim (mat_sub dim 1 1 (nth [::] points i) (nth [::] points j)) k 0 by rewrite /mget /loc mul0n.
by rewrite /mat_sub eqxx /= mget_sub_eq_same //= ?/is_mat ?muln1 ?hsz // /mget /loc mul0n add0n expr2.
Qed.
Lemma dist_sym p q : dist dim p q = dist dim q p :> F.
Proof. by rewrite /dist; congr Num.sqrt; apply: eq_bigr => k _; rewrite -sqrrN opprB. Qed.
Lemma link_sym i j : link i j = link j i.
Proof. by rewrite /linked dist_sym eq_sym; case: (_ < n)%N; case: (_ < n)%N. Qed.
Lemma near_window i j : (i < n)%N -> (j < n)%N -> near i j -> in_window i j.
Proof.
move=> hi hj; rewrite nearE // /M_EpsGraph.in_window; apply: le_lt_trans.
rewrite -sqrtr_sqr /dist; apply: ler_wsqrtr.
by rewrite (bigD1 (Ordinal dim0)) //= ler_addl sumr_ge0 // => k _; rewrite sqr_ge0.
Qed.

(** The scan stops where the window ends. *)
Lemma scanE index l st : (forall a b s, l = a ++ b :: s -> ~~ in_window index b ->
     all (fun j => ~~ near index j) s) -> all (fun j => (j < n)%N) l -> (index < n)%N ->
  scan index l st = foldl (fun st ind => visit index ind st) st l.
Proof.
move=> h hl hi; elim: l h hl st => [//|ind l IH] h /= /andP[hind hl] st.
have IH' := IH (fun a b s e => h (ind :: a) b s (congr1 (cons ind) e)) hl.
case: ifP => [_|/negbT hw]; first exact: IH'.
have hn := h [::] ind l erefl hw.
have -> : visit index ind st = st.
  by rewrite /M_EpsGraph.visit; case: (boolP (near index ind)) => // /(near_window hi hind); rewrite (negbTE hw).
elim: l hn {IH IH' h hl} => [//|j l IH] /= /andP[hj hl].
have -> : visit index j st = st by rewrite /M_EpsGraph.visit (negbTE hj).
exact: IH.
Qed.

Lemma window_down index a b s : (index < n)%N -> rev (iota 0 index.+1) = a ++ b :: s ->
  ~~ in_window index b -> all (fun j => ~~ near index j) s.
Proof.
move=> hi e hw; have hb : (b <= index)%N.
  have : b \in rev (iota 0 index.+1) by rewrite e mem_cat inE eqxx orbT.
  by rewrite mem_rev mem_iota add0n ltnS => /andP[].
have hs : sorted gtn (rev (iota 0 index.+1)).
  by rewrite rev_sorted; apply: iota_ltn_sorted.
have hlt j : j \in s -> (j < b)%N.
  move: hs; rewrite e => /cat_sorted2[_] /=.
  rewrite path_sortedE; last by move=> x y z /=; lia.
  by move=> /andP[/allP h _] /h.
apply/allP => j hj; have jb := hlt j hj; have jn : (j < n)%N by lia.
apply: contra hw => /(near_window hi jn); rewrite /M_EpsGraph.in_window; apply: le_lt_trans.
have h1 : x0 j <= x0 b by apply: hmono => //; lia.
have h2 : x0 b <= x0 index by apply: hmono.
rewrite !ger0_norm ?subr_ge0 //; first by rewrite ler_add2l ler_opp2.
exact: le_trans h1 h2.
Qed.
Lemma window_up index a b s : (index < n)%N -> iota index (n - index) = a ++ b :: s ->
  ~~ in_window index b -> all (fun j => ~~ near index j) s.
Proof.
move=> hi e hw; have := iota_ltn_sorted index (n - index).
have hin j : j \in iota index (n - index) -> (index <= j < n)%N by rewrite mem_iota; lia.
have hb : (index <= b < n)%N by apply: hin; rewrite e mem_cat inE eqxx orbT.
rewrite e => /cat_sorted2[_] /=.
rewrite path_sortedE; last by move=> x y z /=; lia.
move=> /andP[/allP hlt _]; apply/allP => j hj; have jb := hlt j hj.
have /andP[h1 jn] : (index <= j < n)%N by apply: hin; rewrite e mem_cat inE hj !orbT.
apply: contra hw => /(near_window hi jn); rewrite /M_EpsGraph.in_window distrC [in X in _ -> X]distrC; apply: le_lt_trans.
have h2 : x0 b <= x0 j by apply: hmono => //; lia.
have h3 : x0 index <= x0 b by apply: hmono; lia.
rewrite !ger0_norm ?subr_ge0 //; first by rewrite ler_add2r.
exact: le_trans h3 h2.
Qed.

(** *** One round *)
Definition cand (P : seq nat) (index : nat) (l : seq nat) : seq nat :=
  [seq j <- l | link index j && (j \notin P)].

(** What holds when the points in P have been expanded and Q is queued. *)
Record inv (P : seq nat) (st : bstate) : Prop := Inv {
  inv_size : size (b_seen st) = n;
  inv_uniq : uniq (P ++ b_search st);
  inv_lt : all (fun i => i < n)%N (P ++ b_search st);
  inv_seen : forall i, (i < n)%N -> nth false (b_seen st) i = (i \in P ++ b_search st);
  inv_reach : forall i, i \in P ++ b_search st -> reachable link 0 i;
  inv_zero : 0%N \in P ++ b_search st;
  inv_conn : forall i j, count (joins i j) (b_conn st) = (link i j && ((i \in P) || (j \in P)) : nat);
  inv_closed : forall i j, i \in P -> link i j -> j \in P ++ b_search st }.

(** While index is expanded and the candidates in [l] have been seen. *)
Definition mid (P : seq nat) (index : nat) (st0 : bstate) (l : seq nat) (st : bstate) : Prop :=
  [/\ size (b_seen st) = n,
      b_search st = b_search st0 ++ [seq j <- cand P index l | j \notin b_search st0],
      b_conn st = b_conn st0 ++ [seq (index, j) | j <- cand P index l]
    & forall i, (i < n)%N -> nth false (b_seen st) i =
        (i \in P) || (i == index) || (i \in b_search st)].

Lemma visit_mid P index st0 l st ind : (index < n)%N -> (ind < n)%N -> (ind == index) || (ind \notin l) ->
  index \notin P -> index \notin b_search st0 -> all (fun i => i \notin P) (b_search st0) ->
  mid P index st0 l st -> mid P index st0 (rcons l ind) (visit index ind st).
Proof.
move=> hi hind hl iP iQ hQ [h1 h2 h3 h4].
have hc : cand P index (rcons l ind) = cand P index l ++ (if link index ind && (ind \notin P) then [:: ind] else [::]).
  by rewrite /cand filter_rcons; case: ifP; rewrite -?cats1 ?cats0.
have le : link index ind = near index ind && (ind != index).
  by rewrite /linked hi hind /= -nearE // eq_sym andbC.
have [e|ne] := eqVneq ind index.
  have lf : link index ind = false by rewrite le e eqxx andbF.
  have -> : visit index ind st = st by rewrite /M_EpsGraph.visit e eqxx /= andbF.
  by split=> //; rewrite hc lf /= cats0.
have nl : ind \notin l by move: hl; rewrite (negbTE ne).
have nc : ind \notin cand P index l by rewrite mem_filter (negbTE nl) andbF.
have sE : nth false (b_seen st) ind = (ind \in P) || (ind \in b_search st0).
  by rewrite h4 // (negbTE ne) orbF h2 mem_cat mem_filter (negbTE nc) andbF orbF.
have qE : (ind \in b_search st) = (ind \in b_search st0).
  by rewrite h2 mem_cat mem_filter (negbTE nc) andbF orbF.
have cE : (~~ nth false (b_seen st) ind || (ind \in b_search st)) = (ind \notin P).
  rewrite sE qE; case: (boolP (ind \in b_search st0)) => hq; last by rewrite !orbF.
  by rewrite orbT; move/allP: hQ => /(_ _ hq) ->.
have -> : visit index ind st = if link index ind && (ind \notin P) then
    BState (if ~~ nth false (b_seen st) ind then rcons (b_search st) ind else b_search st)
           (upd (b_seen st) ind true) (rcons (b_conn st) (index, ind)) else st.
  by rewrite /M_EpsGraph.visit cE le ne andbT.
case: ifP => hv; last by split=> //; rewrite hc hv cats0.
have hcE : cand P index (rcons l ind) = rcons (cand P index l) ind by rewrite hc hv cats1.
have nP : ind \notin P by case/andP: hv.
split=> /=.
- by rewrite size_upd.
- rewrite hcE filter_rcons sE (negbTE nP) /=.
  by case: (boolP (ind \in b_search st0)) => hq /=; rewrite h2 ?rcons_cat.
- by rewrite hcE map_rcons h3 rcons_cat.
move=> i hin; rewrite nth_upd h1 hind andbT; case: (eqVneq i ind) => [->|ni].
  rewrite sE (negbTE nP) /=; case: (boolP (ind \in b_search st0)) => hq /=; last by rewrite mem_rcons inE eqxx !orbT.
  by rewrite qE hq !orbT.
rewrite h4 //; case: ifP => // _; by rewrite mem_rcons inE (negbTE ni).
Qed.

Lemma fold_mid P index st0 l' l st : (index < n)%N -> all (fun i => i < n)%N l' ->
  all (fun i => (i == index) || (i \notin l)) l' -> uniq l' ->
  index \notin P -> index \notin b_search st0 -> all (fun i => i \notin P) (b_search st0) ->
  mid P index st0 l st -> mid P index st0 (l ++ l') (foldl (fun st ind => visit index ind st) st l').
Proof.
move=> hi; elim: l' l st => [|j l' IH] l st /=; first by rewrite cats0.
move=> /andP[hj hl'] /andP[hjl hll] /andP[nj ul] iP iQ hQ hm.
rewrite -cat_rcons; apply: IH => //; last exact: visit_mid.
apply/allP => i hil; move/allP: hll => /(_ i hil); rewrite mem_rcons inE.
case: (i =P index) => //= _ hnl; rewrite negb_or hnl andbT.
by apply: contraNneq nj => <-.
Qed.

Lemma expand_mid P index st : (index < n)%N -> index \notin P -> index \notin b_search st ->
  all (fun i => i \notin P) (b_search st) -> size (b_seen st) = n ->
  (forall i, (i < n)%N -> nth false (b_seen st) i = (i \in P) || (i == index) || (i \in b_search st)) ->
  mid P index st (rev (iota 0 index.+1) ++ iota index (n - index)) (expand index st).
Proof.
move=> hi iP iQ hQ hs hv.
have a1 : all (fun i => i < n)%N (rev (iota 0 index.+1)).
  by apply/allP => i; rewrite mem_rev mem_iota; lia.
have a2 : all (fun i => i < n)%N (iota index (n - index)).
  by apply/allP => i; rewrite mem_iota; lia.
rewrite /M_EpsGraph.expand !scanE //; first last.
- by move=> a b s; exact: window_up.
- by move=> a b s; exact: window_down.
apply: fold_mid => //.
- apply/allP => i; rewrite mem_iota mem_rev mem_iota; lia.
- exact: iota_uniq.
rewrite -[rev (iota 0 index.+1)]cat0s; apply: fold_mid => //.
- by apply/allP => i _; rewrite orbT.
- by rewrite rev_uniq iota_uniq.
by split=> //=; rewrite ?cats0.
Qed.

Lemma window_mem index j : (index < n)%N ->
  (j \in rev (iota 0 index.+1) ++ iota index (n - index)) = (j < n)%N.
Proof. by move=> hi; rewrite mem_cat mem_rev !mem_iota; lia. Qed.
Lemma cand_mem P index j : (index < n)%N ->
  (j \in cand P index (rev (iota 0 index.+1) ++ iota index (n - index))) = link index j && (j \notin P).
Proof.
move=> hi; rewrite mem_filter window_mem //; rewrite /linked.
by case: (j < n)%N; rewrite ?andbT ?andbF.
Qed.
Lemma cand_uniq P index : (index < n)%N ->
  uniq (cand P index (rev (iota 0 index.+1) ++ iota index (n - index))).
Proof.
move=> hi; rewrite /cand filter_cat cat_uniq !filter_uniq ?rev_uniq ?iota_uniq //= andbT.
apply/hasPn => j; rewrite mem_filter mem_iota => /andP[/andP[hl _] hj].
apply/negP => h; have : j \in [seq k <- rev (iota 0 index.+1) | link index k && (k \notin P)] by [].
rewrite mem_filter mem_rev mem_iota => /andP[_]; move: hl; rewrite /linked => /and4P[_ _ /eqP ne _]; lia.
Qed.

Lemma count_pairs (index i j : nat) (l : seq nat) : uniq l -> i != j -> index \notin l ->
  count (joins i j) [seq (index, k) | k <- l] =
  (((i == index) && (j \in l)) || ((j == index) && (i \in l)) : nat).
Proof.
move=> hu ne hn; rewrite count_map.
have [ei|nei] := eqVneq i index.
  rewrite (eq_count (a2 := pred1 j)); last first.
    by move=> k; rewrite /= /joins !xpair_eqE -ei eqxx /= (negbTE ne) orbF.
  rewrite count_uniq_mem // /=; have -> : (j == index) = false by rewrite -ei eq_sym (negbTE ne).
  by rewrite orbF.
have [ej|nej] := eqVneq j index.
  rewrite (eq_count (a2 := pred1 i)); last first.
    by move=> k; rewrite /= /joins !xpair_eqE -ej eqxx /= [j == i]eq_sym (negbTE ne).
  by rewrite count_uniq_mem.
apply/eqP; rewrite -leqn0 leqNgt -has_count; apply/hasPn => k _ /=.
by rewrite /joins !xpair_eqE ![index == _]eq_sym (negbTE nei) (negbTE nej).
Qed.

Lemma round P st index rest : inv P st -> b_search st = index :: rest ->
  inv (rcons P index) (expand index (BState rest (b_seen st) (b_conn st))).
Proof.
case=> [h1 h2 h3 h4 h5 h6 h7 h8] hq; rewrite hq in h2 h3 h4 h5 h6 h8.
have hmem i : (i \in P ++ index :: rest) = [|| i \in P, i == index | i \in rest] by rewrite mem_cat inE.
have hi : (index < n)%N by move/allP: h3 => /(_ index); apply; rewrite hmem eqxx orbT.
move: (h2); rewrite cat_uniq /= negb_or => /and3P[uP /andP[iP hPr] /andP[ir ur]].
have hPr' : all (fun i => i \notin P) rest.
  by apply/allP => i hir; apply/negP => hiP; move/hasPn: hPr => /(_ i hir) /=; rewrite hiP.
pose st1 := BState rest (b_seen st) (b_conn st).
have [m1 m2 m3 m4] : mid P index st1 (rev (iota 0 index.+1) ++ iota index (n - index)) (expand index st1).
  by apply: expand_mid => //= i hin; rewrite h4 // hmem orbA.
set st2 := expand index st1 in m1 m2 m3 m4 *.
pose C := cand P index (rev (iota 0 index.+1) ++ iota index (n - index)).
rewrite -/C in m2 m3.
have cE j : j \in C = link index j && (j \notin P) by exact: cand_mem.
have nC : index \notin C by rewrite cE /linked eqxx !andbF.
have mem2 i : (i \in b_search st2) = (i \in rest) || (i \in C).
  by rewrite m2 mem_cat mem_filter /=; case: (i \in rest).
have memE i : (i \in rcons P index ++ b_search st2) = [|| i \in P, i == index, i \in rest | i \in C].
  by rewrite mem_cat mem_rcons inE mem2 !orbA [(i == index) || _]orbC.
have Clt i : i \in C -> (i < n)%N by rewrite cE /linked => /andP[/and4P[]].
split=> //.
- rewrite cat_uniq rcons_uniq iP uP /=; apply/andP; split.
    apply/hasPn => i; rewrite mem2 => /orP[hir|hiC]; rewrite /= mem_rcons inE negb_or.
      by rewrite (allP hPr' i hir) andbT; apply: contraNneq ir => <-.
    move: (hiC); rewrite cE => /andP[_ ->]; rewrite andbT.
    by apply: contraNneq nC => <-.
  rewrite m2 cat_uniq ur /= filter_uniq ?cand_uniq // andbT.
  by apply/hasPn => i; rewrite mem_filter => /andP[].
- apply/allP => i; rewrite memE => /or4P[hiP|/eqP->//|hir|/Clt//];
    by move/allP: h3; apply; rewrite hmem ?hiP ?hir ?orbT.
- by move=> i hin; rewrite m4 // memE mem2 -orbA.
- move=> i; rewrite memE => /or4P[hiP|/eqP->|hir|hiC].
  + by apply: h5; rewrite hmem hiP.
  + by apply: h5; rewrite hmem eqxx orbT.
  + by apply: h5; rewrite hmem hir !orbT.
  apply: (reach_step (j := index)); first by apply: h5; rewrite hmem eqxx orbT.
  by move: hiC; rewrite cE => /andP[].
- by move: h6; rewrite hmem memE; case/or3P => [->|->|->]; rewrite ?orbT.
- move=> i j; rewrite m3 count_cat h7 /=.
  case: (boolP (link i j)) => hl /=; last first.
    apply/eqP; rewrite -leqn0 leqNgt -has_count; apply/hasPn => e /mapP[k hk ->].
    move: hk; rewrite cE => /andP[hk _]; rewrite /joins !xpair_eqE; apply/negP => /orP[]/andP[/eqP e1 /eqP e2].
      by move: hl; rewrite -e1 -e2 hk.
    by move: hl; rewrite link_sym -e1 -e2 hk.
  have ne : i != j by move: hl; rewrite /linked => /and4P[].
  rewrite count_pairs ?cand_uniq // !cE !mem_rcons !inE.
  have [ei|nei] := eqVneq i index.
    rewrite -ei hl /=; have -> : (i \in P) = false by rewrite ei (negbTE iP).
    have -> : (j == i) = false by rewrite eq_sym (negbTE ne).
    by rewrite /=; case: (j \in P).
  have [ej|nej] := eqVneq j index.
    rewrite -ej link_sym hl /=; have -> : (j \in P) = false by rewrite ej (negbTE iP).
    by rewrite orbF; case: (i \in P).
  by rewrite /= addn0.
move=> i j; rewrite mem_rcons inE => /orP[/eqP-> hl|hiP hl]; rewrite memE.
  by rewrite cE hl /=; case: (j \in P); rewrite ?orbT.
have := h8 i j hiP hl; rewrite hmem => /or3P[] ->; by rewrite ?orbT.
Qed.

Lemma inv_start : (0 < n)%N -> inv [::] (search_start points).
Proof.
move=> n0; split=> //=.
- by rewrite size_upd size_nseq.
- by rewrite n0.
- move=> i hi; rewrite nth_upd size_nseq n0 andbT nth_nseq hi inE.
  by case: (i == 0%N).
- by move=> i; rewrite inE => /eqP->; exact: reach_refl.
by move=> i j; rewrite andbF.
Qed.
Lemma inv_bound P st : inv P st -> (size P + size (b_search st) <= n)%N.
Proof.
case=> _ hu hl _ _ _ _ _; rewrite -size_cat -[n](size_iota 0); apply: uniq_leq_size => // i hi.
by rewrite mem_iota; move/allP: hl => /(_ i hi).
Qed.
Lemma loop_runs fuel P st : inv P st -> (n <= fuel + size P)%N ->
  exists l st', [/\ search_loop dim points eps fuel st = Some st', search_run dim points eps st l st',
    inv (P ++ l) st' & b_search st' = [::]].
Proof.
elim: fuel P st => [|fuel IH] P st hI hf.
  have := inv_bound hI; rewrite add0n in hf; case e : (b_search st) => [|i r] //=.
    by move=> _; exists [::], st; rewrite e cats0; split=> //; exact: run_done.
  by rewrite /=; lia.
rewrite /=; case e : (b_search st) => [|index rest].
  by exists [::], st; rewrite cats0; split=> //; exact: run_done.
have [|l [st' [h1 h2 h3 h4]]] := IH (rcons P index) _ (round hI e); first by rewrite size_rcons; lia.
by exists (index :: l), st'; split=> //; [exact: run_step e h2 | rewrite -cat_rcons].
Qed.
Lemma search_runs : (0 < n)%N -> exists l st, [/\ forall fuel, (n <= fuel)%N -> epsilon_search dim points eps fuel = Ok (Some st),
  search_run dim points eps (search_start points) l st, uniq l
  & forall i, i \in l <-> reachable link 0 i].
Proof.
move=> n0; have hf' : (n <= n + size (Nil nat))%N by rewrite addn0.
have [l [st [h1 h2 h3 h4]]] := loop_runs (inv_start n0) hf'; rewrite cat0s in h3.
exists l, st; split=> //.
- move=> fuel hf; rewrite /epsilon_search eqn0Ngt n0 /=.
  have mono f f' s s' : (f <= f')%N -> search_loop dim points eps f s = Some s' -> search_loop dim points eps f' s = Some s'.
    elim: f f' s => [|f IH] [|f'] s //=; case: (b_search s) => // i r; exact: IH.
  by rewrite (mono _ _ _ _ hf h1).
- by have := inv_uniq h3; rewrite h4 cats0.
move=> i; split=> [hi|]; first by apply: (inv_reach h3); rewrite h4 cats0.
elim=> [|j k _ hj hl]; first by have := inv_zero h3; rewrite h4 cats0.
by have := inv_closed h3 hj hl; rewrite h4 cats0.
Qed.

Lemma search_result fuel : (0 < n)%N -> (n <= fuel)%N ->
  exists st, [/\ epsilon_search dim points eps fuel = Ok (Some st), size (b_seen st) = n,
    forall i, (i < n)%N -> nth false (b_seen st) i <-> reachable link 0 i
  & forall i j, exists2 r : bool, count (joins i j) (b_conn st) = (link i j && r : nat) & r <-> reachable link 0 i].
Proof.
move=> n0 hf; have hf' : (n <= fuel + size (Nil nat))%N by rewrite addn0.
have [P [st [h1 _ h2 h3]]] := loop_runs (inv_start n0) hf'; rewrite cat0s in h2.
have hin : forall i, reachable link 0 i -> i \in P.
  move=> i; elim=> [|j k _ hj hl]; first by have := inv_zero h2; rewrite h3 cats0.
  by have := inv_closed h2 hj hl; rewrite h3 cats0.
have hP i : i \in P <-> reachable link 0 i.
  by split=> [hi|/hin//]; apply: (inv_reach h2); rewrite h3 cats0.
exists st; split.
- by rewrite /epsilon_search eqn0Ngt n0 /= h1.
- exact: inv_size h2.
- by move=> i hi; rewrite (inv_seen h2) // h3 cats0; exact: hP.
move=> i j; exists (i \in P); last exact: hP.
rewrite (inv_conn h2); case: (boolP (link i j)) => // hl; congr nat_of_bool.
case: (boolP (i \in P)) => //= niP; apply/negP => hj; case/negP: niP.
by have := inv_closed h2 hj (_ : link j i); rewrite h3 cats0 link_sym; apply.
Qed.
End Search.
