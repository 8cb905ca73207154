(** Proofs about reading domain files. *)
From Coq Require Import Ascii String.
From mathcomp Require Import all_ssreflect all_algebra zify.
From Verif Require Import M_Base L_Base M_DenseLA S_DenseLA L_DenseLA M_Text M_ReadDomain S_ReadDomain L_Text.
Set Implicit Arguments. Unset Strict Implicit. Unset Printing Implicit Defensive.

(** ** is_unique *)
Section Unique.
Variables (A : eqType) (lt eq : A -> A -> bool).
Hypothesis lt_trans : transitive lt.
Hypothesis lt_asym : forall x y, lt x y -> ~~ lt y x.
Hypothesis eq_total : forall x y, eq x y = ~~ lt x y && ~~ lt y x.
Let leT a b := ~~ lt b a.
Let ne a b := ~~ eq a b.
Lemma perm_pairwise (r : rel A) s t : symmetric r -> perm_eq s t -> pairwise r s = pairwise r t.
Proof.
move=> rs; apply: catCA_perm_subst => s1 s2 s3; rewrite !pairwise_cat !allrel_catr.
have -> : allrel r s2 s1 = allrel r s1 s2 by rewrite allrelC; apply: eq_allrel => x y; rewrite rs.
case: (allrel r s1 s2); case: (allrel r s1 s3); case: (allrel r s2 s3); case: (pairwise r s1);
  by case: (pairwise r s2); case: (pairwise r s3).
Qed.
Lemma sort_sorted_lt s : sorted leT (sort leT s).
Proof.
by apply: sort_sorted => x y; rewrite /leT; case: (boolP (lt y x)) => // /lt_asym ->; rewrite ?orbT.
Qed.
Lemma adjacent_lt s : sorted leT s -> ~~ has_adjacent eq s -> sorted lt s.
Proof.
case: s => [//|x s]; elim: s x => [//|y s IH] x /= /andP[h1 h2]; rewrite negb_or => /andP[h3 h4].
apply/andP; split; last exact: IH.
by move: h3; rewrite eq_total negb_and !negbK => /orP[//|h]; move: h1; rewrite /leT h.
Qed.
Lemma lt_ne x y : lt x y -> ne x y. Proof. by rewrite /ne eq_total => ->. Qed.
Lemma ne_adjacent s : pairwise ne s -> ~~ has_adjacent eq s.
Proof.
elim: s => [//|x s IH] /= /andP[h1 h2]; case: s h1 h2 IH => [//|y s] /andP[h1 _] h2 IH.
by rewrite negb_or IH // andbT.
Qed.
Lemma is_uniqueE s : is_unique lt eq s = pairwise ne s.
Proof.
rewrite /is_unique; have hp : perm_eq (sort leT s) s by rewrite perm_sort.
have sn : symmetric ne by move=> x y; rewrite /ne !eq_total andbC.
rewrite -(perm_pairwise sn hp); apply/idP/idP => h; last exact: ne_adjacent.
have := adjacent_lt (sort_sorted_lt s) h; rewrite sorted_pairwise //.
by apply: sub_pairwise => x y; exact: lt_ne.
Qed.
End Unique.

Lemma is_unique_nat s : is_unique ltn eqn s = uniq s.
Proof.
rewrite is_uniqueE ?uniq_pairwise //.
- by move=> y x z /=; lia.
- by move=> x y /=; lia.
- by move=> x y /=; rewrite eqnE; lia.
Qed.
Lemma arr_lt_trans : transitive arr_lt.
Proof.
elim=> [|y b IH] [|x a] [|z c] //=.
case: (boolP (x < y)) => h1; case: (boolP (y < z)) => h2 //=.
- by move=> _ _; rewrite ifT //; lia.
- by case: (boolP (z < y)) => h3 // _ _; rewrite ifT //; lia.
- by case: (boolP (y < x)) => h3 // _ _; rewrite ifT //; lia.
case: (boolP (y < x)) => h3 //; case: (boolP (z < y)) => h4 //; have -> : x = z by lia.
by rewrite ltnn; exact: IH.
Qed.
Lemma arr_lt_asym a b : arr_lt a b -> ~~ arr_lt b a.
Proof. by elim: a b => [|x a IH] [|y b] //=; case: ltngtP => // _; exact: IH. Qed.
Lemma arr_lt_total a b : (a == b) = ~~ arr_lt a b && ~~ arr_lt b a.
Proof.
elim: a b => [|x a IH] [|y b] //=; rewrite eqseq_cons IH.
by case: ltngtP => //=; rewrite ?andbF.
Qed.
Lemma is_unique_arr s : is_unique arr_lt eq_op s = uniq s.
Proof.
rewrite is_uniqueE ?uniq_pairwise //; [exact: arr_lt_trans | exact: arr_lt_asym | exact: arr_lt_total].
Qed.
Lemma is_unique_points (F : realDomainType) dim (s : seq (seq F)) :
  is_unique (mat_lt dim) (mat_eq dim) s = pairwise (fun p q => ~~ mat_eq dim p q) s.
Proof.
apply: is_uniqueE; [move=> y x z; exact: mat_lt_trans | exact: mat_lt_asym | ].
move=> x y; apply/idP/andP => [h|[h1 h2]].
  split; apply: contraTN h => /mat_lt_neq //.
  by apply: contra => /mat_eqP e; apply/mat_eqP => k /e.
by have := mat_lt_total dim x y; rewrite (negbTE h1) (negbTE h2) orbF.
Qed.

(** ** check_consistency *)
Lemma check_indices_debug bound l :
  check_indices true bound l true =
  if all (fun e => uniq e && all (fun x => x < bound) e) l then Ok true else Abort.
Proof.
rewrite /check_indices; elim: l => [//|e l IH] /=; rewrite /hassert /= !orbF is_unique_nat.
case: (uniq e) => //=; have -> : foldo (fun x (_ : bool) => if (x < bound) || false then Ok (x < bound) else Abort) true e
    = if all (fun x => x < bound) e then Ok true else Abort.
  elim: e => [//|x e IHe] /=; rewrite orbF; case: (x < bound) => //=; exact: IHe.
by case: (all _ e) => //=.
Qed.
Lemma check_indices_ndebug bound l c : exists b, check_indices false bound l c = Ok b.
Proof.
rewrite /check_indices; elim: l c => [|e l IH] c /=; first by exists c.
rewrite /hassert /= orbT; have [b ->] : exists b, foldo (fun x (_ : bool) =>
    if (x < bound) || true then Ok (x < bound) else Abort) c e = Ok b.
  by elim: e c => [|x e IHe] c /=; [exists c | rewrite orbT /=; exact: IHe].
exact: IH.
Qed.
Section Check.
Variables (F : realDomainType) (dim : nat).
Implicit Types D : domain_info F.
Definition validb D : bool :=
  [&& all (fun e => uniq e && all (fun x => x < di_n_nodes D) e) (di_nodes D),
      all (fun e => uniq e && all (fun x => x < di_n_points D) e) (di_points_of D),
      pairwise (fun p q => ~~ mat_eq dim p q) (di_points D),
      uniq (di_nodes D) & uniq (di_points_of D)].
Lemma rowsP n (l : seq (seq nat)) : reflect (forall e, e \in l -> uniq e /\ forall x, x \in e -> x < n)
  (all (fun e => uniq e && all (fun x => x < n) e) l).
Proof.
apply: (iffP allP) => h e he; first by case/andP: (h e he) => h1 /allP h2; split.
by have [h1 h2] := h e he; rewrite h1; apply/allP.
Qed.
Lemma validP D : reflect (valid_domain dim D) (validb D).
Proof.
apply: (iffP and5P) => [[/rowsP h1 /rowsP h2 /(pairwiseP [::]) h3 h4 h5]|[h1 h2 h3 h4 h5]]; split=> //.
- move=> i j hij hj; have := h3 i j; rewrite !inE (ltn_trans hij hj) hj hij => /(_ isT isT isT).
  move=> h; have : [exists k : 'I_dim, nth 0%R (nth [::] (di_points D) i) k != nth 0%R (nth [::] (di_points D) j) k].
    apply: contraR h; rewrite negb_exists => /forallP h; apply/mat_eqP => k hk.
    by have := h (Ordinal hk); rewrite negbK => /eqP.
  by move=> /existsP[k /eqP hk]; exists k.
- exact/rowsP.
- exact/rowsP.
apply/(pairwiseP [::]) => i j; rewrite !inE => hi hj hij.
by have [k hk hn] := h3 i j hij hj; apply/mat_eqP => /(_ k hk).
Qed.
Lemma check_debug D : check_consistency true dim D = if validb D then Ok true else Abort.
Proof.
rewrite /check_consistency check_indices_debug /validb.
case: (all _ (di_nodes D)) => //=; rewrite check_indices_debug; case: (all _ (di_points_of D)) => //=.
rewrite /hassert !orbF is_unique_points !is_unique_arr.
by case: (pairwise _ _) => //=; case: (uniq (di_nodes D)) => //=; case: (uniq _).
Qed.
Lemma check_ndebug D : check_consistency false dim D =
  Ok [&& pairwise (fun p q => ~~ mat_eq dim p q) (di_points D), uniq (di_nodes D) & uniq (di_points_of D)].
Proof.
rewrite /check_consistency; have [b ->] := check_indices_ndebug (di_n_nodes D) (di_nodes D) true.
rewrite /=; have [c ->] := check_indices_ndebug (di_n_points D) (di_points_of D) b.
rewrite /= /hassert !orbT is_unique_points !is_unique_arr.
by case: (pairwise _ _) => //=; case: (uniq (di_nodes D)) => //=; case: (uniq _).
Qed.
End Check.

(** ** What the reader returns *)
Lemma hassert_ok a b A (k : outcome A) x : hassert a b k = Ok x -> k = Ok x /\ (a -> b).
Proof. by rewrite /hassert; case: b => //=; case: a. Qed.
Lemma size_extract_row A (conv : text -> A * istream) old s : size (extract_row conv old s).1 = size old.
Proof.
elim: old s => [//|x old IH] s /=; case: (extract conv x s) => y s'.
by have := IH s'; case: (extract_row conv old s') => l s'' /= ->.
Qed.
Lemma read_rows_sized A (conv : text -> A * istream) row n ls :
  size (read_rows conv row n ls).1 <= n /\ all (fun e => size e == size row) (read_rows conv row n ls).1.
Proof.
elim: n ls => [//|n IH] [//|l ls] /=.
have := size_extract_row conv row (istr l); case: (extract_row conv row (istr l)) => r s /= hr.
by have := IH ls; case: (read_rows conv row n ls) => rs ls' /= [h1 h2]; rewrite hr eqxx ltnS.
Qed.
Lemma size_fill A (row : A) n rs : size rs <= n -> size (fill row n rs) = n.
Proof. by move=> h; rewrite size_cat size_nseq subnKC. Qed.
Lemma all_fill A (p : pred A) row n rs : p row -> all p rs -> all p (fill row n rs).
Proof. by move=> h1 h2; rewrite all_cat h2 /= all_nseq h1 orbT. Qed.

Section Reader.
Variables (F : realDomainType) (parse : text -> option (F * text)) (umax : nat) (asserts : bool).
Variables (edge_dim dim : nat).
Lemma read_points_sized n (pt : seq F) ls :
  size (read_points parse n pt ls).1 <= n /\ all (fun e => size e == size pt) (read_points parse n pt ls).1.
Proof.
elim: n pt ls => [//|n IH] pt [//|l ls] /=.
have := size_extract_row (conv_float parse) pt (istr l).
case: (extract_row (conv_float parse) pt (istr l)) => r s /= hr.
by have := IH r ls; case: (read_points parse n r ls) => rs ls' /= [h1 h2]; rewrite hr eqxx ltnS -hr.
Qed.
Lemma read_dim_ok K e A st (k : rstate -> outcome A) x :
  read_dim umax asserts K e st k = Ok x -> exists st', k st' = Ok x.
Proof.
rewrite /read_dim; case: (read_eq (conv_some (conv_unsigned umax)) None (goto_key K st)) => v st' h.
have {h}[h _] := hassert_ok h; have {h}[h _] := hassert_ok h.
case: asserts h => [|h]; last by exists st'.
by case: v => [v|//] h; have {h}[h _] := hassert_ok h; exists st'.
Qed.
Lemma read_count_ok K A st (k : nat -> rstate -> outcome A) x :
  read_count umax asserts K st k = Ok x -> exists v st', k v st' = Ok x /\ (asserts -> v != 0).
Proof.
rewrite /read_count; case: (read_eq (conv_unsigned umax) 0 (goto_key K st)) => v st' h.
have {h}[h _] := hassert_ok h; have {h}[h _] := hassert_ok h; have {h}[h1 h2] := hassert_ok h.
by exists v, st'.
Qed.
Lemma read_section_ok K w n A st (k : seq (seq nat) -> rstate -> outcome A) x :
  read_section umax asserts K w n st k = Ok x ->
  exists rs st', [/\ k rs st' = Ok x, size rs = n & all (fun e => size e == w) rs].
Proof.
rewrite /read_section => h; have {h}[h _] := hassert_ok h; move: h.
have := read_rows_sized (conv_unsigned umax) (nseq w 0) n (r_file (goto_key K st)).
case: (read_rows (conv_unsigned umax) (nseq w 0) n (r_file (goto_key K st))) => rs ls /= [h1 h2] h.
have {h}[h _] := hassert_ok h.
exists (fill (nseq w 0) n rs), (set_file (goto_key K st) ls); split=> //; first exact: size_fill.
by apply: all_fill; [rewrite size_nseq | rewrite size_nseq in h2].
Qed.
Lemma read_geo_sized name file D : read_domain_geo parse umax asserts edge_dim dim name file = Ok D ->
  sized_domain edge_dim dim D /\ (asserts -> [/\ 0 < di_n_points D, 0 < di_n_nodes D & 0 < di_n_edges D]).
Proof.
rewrite /read_domain_geo; case: (if asserts then _ else _) => // -[] /=.
move=> h; have {h}[st1 h] := read_dim_ok h; have {h}[st2 h] := read_dim_ok h.
have {h}[np [st3 [h hnp]]] := read_count_ok h; have {h}[nn [st4 [h hnn]]] := read_count_ok h.
have {h}[ne [st5 [h hne]]] := read_count_ok h; have {h}[h _] := hassert_ok h; move: h.
have := read_points_sized np (nseq dim 0%R) (r_file (goto_key "POINTS:" st5)).
case: (read_points parse np (nseq dim 0%R) (r_file (goto_key "POINTS:" st5))) => pts ls [h1 h2] /= h.
have {h}[h _] := hassert_ok h.
have {h}[nodes [st6 [h hn1 hn2]]] := read_section_ok h; have {h}[types [st7 [h ht1 ht2]]] := read_section_ok h.
have {h}[pof [st8 [h hp1 hp2]]] := read_section_ok h; move: h.
have hp : size (fill (nseq dim 0%R) np pts) = np /\ all (fun p : seq F => size p == dim) (fill (nseq dim 0%R) np pts).
  split; first exact: size_fill.
  by apply: all_fill; [rewrite size_nseq | rewrite size_nseq in h2].
case: (~~ _); first by case=> <-; split; [split | move=> ha; rewrite /= !lt0n; split; auto].
case: (extract (conv_unsigned umax) 0 _) => nprops s.
case: (read_rows (conv_float parse) (nseq nprops 0%R) ne _) => rs ls' h.
have {h}[[<-] _] := hassert_ok h.
by split; [split | move=> ha; rewrite /= !lt0n; split; auto].
Qed.
End Reader.
