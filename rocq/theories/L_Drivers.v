(** Index lists of the eigenvalue drivers. *)
From mathcomp Require Import all_ssreflect all_algebra.
From mathcomp Require Import zify.
From Verif Require Import M_Base L_Base M_Drivers S_Drivers.
Set Implicit Arguments. Unset Strict Implicit. Unset Printing Implicit Defensive.

Section Rank.
Variable dir : seq nat.
Hypothesis hs : sorted ltn dir.
Let gone j := count (mem dir) (iota 0 j).
Let rank j := count (fun d => d \notin dir) (iota 0 j).
Lemma goneS j : gone j.+1 = gone j + (j \in dir).
Proof. by rewrite /gone -addn1 iotaD count_cat /= add0n addn0. Qed.
Lemma rankS j : rank j.+1 = rank j + (j \notin dir).
Proof. by rewrite /rank -addn1 iotaD count_cat /= add0n addn0. Qed.
Lemma gone_rank j : gone j + rank j = j.
Proof. by rewrite /gone /rank -[X in X + _]addn0 addn0 count_predC size_iota. Qed.
Lemma gone_sorted j : gone j = count (fun d => d < j) dir.
Proof.
elim: j => [|j IH]; first by rewrite /gone /= (eq_count (a2 := pred0)) ?count_pred0.
rewrite goneS IH -(count_uniq_mem j (sorted_uniq ltn_trans ltnn hs)) -count_predUI.
have -> : count (predI (fun d => d < j) (pred1 j)) dir = 0.
  by rewrite (eq_count (a2 := pred0)) ?count_pred0 // => d /=; case: ltngtP.
by rewrite addn0; apply: eq_count => d /=; rewrite [RHS]ltnS [RHS]leq_eqVlt orbC.
Qed.
Lemma gone_le j : gone j <= size dir. Proof. by rewrite gone_sorted count_size. Qed.
(** The entry number gone j is the first one that is not below j. *)
Lemma nth_gone j : (gone j < size dir) && (j == nth 0 dir (gone j)) = (j \in dir).
Proof.
apply/idP/idP => [/andP [h /eqP e]|hj]; first by rewrite {1}e mem_nth.
suff -> : gone j = index j dir by rewrite index_mem hj nth_index // eqxx.
rewrite gone_sorted -[X in count _ X](cat_take_drop (index j dir)) count_cat.
have hx : index j dir < size dir by rewrite index_mem.
have h1 : all (fun d => d < j) (take (index j dir) dir).
  apply/(all_nthP 0) => i; rewrite size_take index_mem hj => hi; rewrite nth_take //.
  by rewrite -[X in _ < X](nth_index 0 hj) (sorted_ltn_nth ltn_trans) // ?inE; lia.
have h2 : all (fun d => ~~ (d < j)) (drop (index j dir) dir).
  apply/(all_nthP 0) => i; rewrite size_drop => hi; rewrite nth_drop -leqNgt -{1}(nth_index 0 hj).
  by case: i hi => [|i] hi; rewrite ?addn0 // ltnW // (sorted_ltn_nth ltn_trans) // ?inE; lia.
have -> : count (fun d => d < j) (take (index j dir) dir) = index j dir.
  by move: h1; rewrite all_count => /eqP ->; rewrite size_take hx.
have -> : count (fun d => d < j) (drop (index j dir) dir) = 0; last by rewrite addn0.
by apply/eqP; rewrite -leqn0 leqNgt -has_count -all_predC.
Qed.
Lemma skipP fuel i k : gone (i + k) = k -> size dir <= k + fuel ->
  let k' := skip_indices dir fuel i k in gone (i + k') = k' /\ i + k' \notin dir.
Proof.
elim: fuel k => [|f IH] k hk hf /=; move: (nth_gone (i + k)); rewrite hk => e.
  by split=> //; rewrite -e; apply/negP => /andP [h _]; lia.
case: ifP => h; first by rewrite h in e; apply: IH; [rewrite addnS goneS hk -e addn1|lia].
by split=> //; rewrite -e h.
Qed.
Lemma rank_mono d d' : d < d' -> d \notin dir -> rank d < rank d'.
Proof.
move=> h hd; have : rank d.+1 <= rank d'.
  by rewrite /rank -(subnKC h) iotaD count_cat leq_addr.
by rewrite rankS hd; lia.
Qed.
Lemma rank_inj d d' : d \notin dir -> d' \notin dir -> rank d = rank d' -> d = d'.
Proof. by move=> h h' e; case: (ltngtP d d') => // l; [have := rank_mono l h|have := rank_mono l h']; rewrite e ltnn. Qed.

Variable N : nat.
Hypothesis hN : all (fun d => d < N) dir.
Lemma goneN : gone N = size dir.
Proof. by rewrite gone_sorted; apply/eqP; rewrite -all_count. Qed.
Lemma rankN : rank N = N - size dir.
Proof. by have := gone_rank N; rewrite goneN; lia. Qed.
Lemma rank_lt d : d < N -> d \notin dir -> rank d < N - size dir.
Proof. by move=> h hd; rewrite -rankN rank_mono. Qed.
Local Notation free_dofs := (free_dofs N dir).
Lemma size_free : size free_dofs = N - size dir.
Proof. by rewrite size_filter -rankN. Qed.
Lemma nth_free d : d < N -> d \notin dir -> nth 0 free_dofs (rank d) = d.
Proof.
move=> h hd; rewrite /S_Drivers.free_dofs -(subnKC h) iotaD filter_cat nth_cat size_filter.
rewrite -[count _ _]/(rank d.+1) rankS hd addn1 leqnn -addn1 iotaD filter_cat nth_cat size_filter.
by rewrite -/(rank d) ltnn subnn /= add0n hd.
Qed.
Lemma free_rank i : i < N - size dir -> let d := nth 0 free_dofs i in [/\ d < N, d \notin dir & rank d = i].
Proof.
move=> hi d; have : d \in free_dofs by rewrite mem_nth // size_free.
rewrite mem_filter mem_iota add0n => /andP [h1 /andP [_ h2]]; split=> //.
have hu : uniq free_dofs by rewrite filter_uniq ?iota_uniq.
apply: (uniqP 0 hu); rewrite ?inE ?size_free //; first exact: rank_lt.
by rewrite nth_free.
Qed.
Lemma make_indexE : make_index N dir = Ok
  ([seq Some d | d <- free_dofs], [seq if d \in dir then None else Some (rank d) | d <- iota 0 N]).
Proof.
have hle : size dir <= N by rewrite -goneN /gone -[X in _ <= X](size_iota 0 N) count_size.
rewrite /make_index /short_vector_size; set body := (fun i st => _).
have H n : n <= N - size dir -> exists iv vi k, [/\ foro n body (nseq (N - size dir) None, nseq N None, 0) = Ok (iv, vi, k),
    size iv = N - size dir, size vi = N, gone (n + k) = k &
    (forall i, i < n -> nth None iv i = Some (nth 0 free_dofs i)) /\
    forall d, nth None vi d = if [&& d < N, d \notin dir & rank d < n] then Some (rank d) else None].
  elim: n => [|n IH] hn.
    exists (nseq (N - size dir) None), (nseq N None), 0; split; rewrite ?size_nseq //; split=> // d.
    by rewrite nth_nseq ltn0 !andbF; case: ifP.
  have [|iv [vi [k [e s1 s2 hk [h1 h2]]]]] := IH; first lia.
  rewrite foroS e /= /body; set k' := skip_indices dir (size dir) n k.
  have [hk' hf] := skipP hk (leq_addl k (size dir)).
  rewrite -/k' in hk' hf; have kle : k' <= size dir by rewrite -hk' gone_le.
  have r : rank (n + k') = n by have := gone_rank (n + k'); rewrite hk'; lia.
  have jN : n + k' < N by lia.
  rewrite /py_set s1 hn /= s2 jN /=; exists (upd iv n (Some (n + k'))), (upd vi (n + k') (Some n)), k'.
  split; rewrite ?size_upd //; first by rewrite addSn goneS hk' (negbTE hf) addn0.
  split=> [i hi|d].
    rewrite nth_upd s1; case: eqP => [->|ne]; first by rewrite hn -[in RHS]r nth_free.
    by rewrite h1 //; lia.
  rewrite nth_upd s2; case: eqP => [->|ne]; first by rewrite jN hf r ltnSn.
  rewrite h2; case hd: (d < N) => //=; case hd2: (d \in dir) => //=.
  suff -> : (rank d < n.+1) = (rank d < n) by [].
  by rewrite ltnS leq_eqVlt; case: eqP => //= er; case: ne; apply: rank_inj; rewrite ?hd2 // er r.
have [iv [vi [k [-> s1 s2 _ [h1 h2]]]]] := H _ (leqnn _).
rewrite [obind _ _]/=.
have -> : iv = [seq Some d | d <- free_dofs].
  apply: (eq_from_nth (x0 := None)) => [|i]; rewrite ?size_map ?size_free // s1 => hi.
  by rewrite (nth_map 0) ?size_free // h1.
have -> : vi = [seq if d \in dir then None else Some (rank d) | d <- iota 0 N].
  apply: (eq_from_nth (x0 := None)) => [|d]; rewrite ?size_map ?size_iota // s2 => hd.
  rewrite (nth_map 0) ?size_iota // nth_iota // add0n h2 hd /=; case hd2: (d \in dir) => //=.
  by rewrite rank_lt ?hd2.
by case: ifP => // /mapP [].
Qed.
Lemma index_free d : d < N -> d \notin dir -> index d free_dofs = rank d.
Proof.
move=> h hd; rewrite -{1}(nth_free h hd) index_uniq ?filter_uniq ?iota_uniq //.
by rewrite size_free rank_lt.
Qed.

Import GRing.Theory Num.Theory.
Local Open Scope ring_scope.
Variable F : realFieldType.
Implicit Types (v x y : seq F).
Lemma py_getE x i : (i < size x)%N -> py_get x i = Ok (nth 0 x i).
Proof. by move=> h; rewrite /py_get (drop_nth 0). Qed.
Lemma py_listE (S T : eqType) (f : S -> outcome T) (g : S -> T) s :
  (forall a, a \in s -> f a = Ok (g a)) -> py_list f s = Ok (map g s).
Proof.
elim: s => //= a s IH h; rewrite h ?mem_head //= IH // => b hb.
by apply: h; rewrite inE hb orbT.
Qed.
Local Notation n' := (N - size dir)%N.
Lemma size_restrict x : size (restrict N dir x) = n'. Proof. by rewrite size_map size_free. Qed.
Lemma size_extend v : size (extend N dir v) = N. Proof. by rewrite size_map size_iota. Qed.
Lemma nth_extend v d : nth 0 (extend N dir v) d =
  if (d < N)%N then if d \in dir then 0 else nth 0 v (rank d) else 0.
Proof.
case: ifP => h; last by rewrite nth_default // size_extend leqNgt h.
rewrite (nth_map 0%N) ?size_iota // nth_iota // add0n; case: ifP => // hd.
by rewrite index_free ?hd.
Qed.
Lemma nth_restrict x i : nth 0 (restrict N dir x) i = if (i < n')%N then nth 0 x (nth 0%N free_dofs i) else 0.
Proof.
case: ifP => h; last by rewrite nth_default // size_restrict leqNgt h.
by rewrite (nth_map 0%N) ?size_free.
Qed.
Lemma long_vectorE ix v : make_index N dir = Ok ix -> size v = n' -> long_vector ix v = Ok (extend N dir v).
Proof.
rewrite make_indexE => -[<-] hv; rewrite /long_vector /=.
rewrite (py_listE (g := fun i => if i is Some i then nth 0 v i else 0)).
  congr Ok; rewrite -map_comp; apply/eq_in_map => d; rewrite mem_iota add0n => /andP [_ hd] /=.
  by case: ifP => // hd2; rewrite index_free ?hd2.
move=> a /mapP [d]; rewrite mem_iota add0n => /andP [_ hd] ->; case: ifP => // hd2.
by rewrite py_getE // hv rank_lt ?hd2.
Qed.
Lemma short_vectorE ix x : make_index N dir = Ok ix -> size x = N -> short_vector ix x = Ok (restrict N dir x).
Proof.
rewrite make_indexE => -[<-] hx; rewrite /short_vector /=.
rewrite (py_listE (g := fun i => if i is Some i then nth 0 x i else 0)).
  by congr Ok; rewrite -map_comp; apply/eq_in_map.
move=> a /mapP [d]; rewrite mem_filter mem_iota add0n => /andP [_ /andP [_ hd]] ->.
by rewrite py_getE // hx.
Qed.
Lemma restrict_extend v : size v = n' -> restrict N dir (extend N dir v) = v.
Proof.
move=> hv; apply: (eq_from_nth (x0 := 0)) => [|i]; rewrite size_restrict // => hi.
have [h1 h2 h3] := free_rank hi.
by rewrite nth_restrict hi nth_extend h1 (negbTE h2) h3.
Qed.
Lemma extend_restrict x : size x = N -> extend N dir (restrict N dir x) = [seq if d \in dir then 0 else nth 0 x d | d <- iota 0 N].
Proof.
move=> hx; apply/eq_in_map => d; rewrite mem_iota add0n => /andP [_ hd].
case: ifP => // /negbT hd2; rewrite index_free // nth_restrict rank_lt //; by rewrite nth_free.
Qed.
Lemma extend_vanishes v : vanishes dir (extend N dir v).
Proof. by move=> d hd; rewrite nth_extend hd; case: ifP. Qed.
Lemma extend_restrict0 x : size x = N -> vanishes dir x -> extend N dir (restrict N dir x) = x.
Proof.
move=> hx h0; rewrite extend_restrict //; apply: (eq_from_nth (x0 := 0)) => [|d]; rewrite size_map size_iota ?hx // => hd.
by rewrite (nth_map 0%N) ?size_iota // nth_iota // add0n; case: ifP => // /h0 ->.
Qed.
Lemma dot_free (f : nat -> F) : \sum_(i < n') f (nth 0%N free_dofs i) = \sum_(d < N | (d : nat) \notin dir) f d.
Proof.
rewrite -(big_mkord (fun d => d \notin dir) f) /index_iota subn0 -big_filter -/(S_Drivers.free_dofs N dir).
by rewrite (big_nth 0%N) big_mkord size_free.
Qed.
Lemma adjoint x v : dot n' (restrict N dir x) v = dot N x (extend N dir v).
Proof.
rewrite /dot [RHS](bigID (fun d : 'I_N => (d : nat) \in dir)) /= [X in _ = X + _]big1 ?add0r => [|d hd]; last first.
  by rewrite nth_extend ltn_ord hd mulr0.
rewrite -(dot_free (fun d => nth 0 x d * nth 0 (extend N dir v) d)); apply: eq_bigr => i _.
have [h1 h2 h3] := free_rank (ltn_ord i).
by rewrite nth_restrict ltn_ord nth_extend h1 (negbTE h2) h3.
Qed.
End Rank.
