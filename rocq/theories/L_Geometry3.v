(** Proofs about the unit cube geometry: faces, tiling, normals, areas. *)
From mathcomp Require Import all_ssreflect all_algebra zify ring.
From Verif Require Import M_Base L_Base M_DenseLA S_DenseLA L_DenseLA M_Lapack S_Lapack L_Lapack M_Index
  S_Index L_Index M_Topology S_Topology L_Topology L_Topology2 M_Geometry S_Geometry L_Geometry L_Geometry2.
Set Implicit Arguments. Unset Strict Implicit. Unset Printing Implicit Defensive.
Import Order.TTheory GRing.Theory Num.Theory.
Local Open Scope ring_scope.

Local Notation cn c i := (nth (false, 0%N) c i).

Section Points.
Variable F : realFieldType.
Implicit Types (p q y : seq F) (c : cell).

(** *** Faces *)
Lemma place_facet c j s p : (j < n_along c)%N -> p`_j = s%:R ->
  place c p = place (facet_at c j s) (take j p ++ drop j.+1 p).
Proof.
rewrite /n_along; elim: c j p => [//|[b x] c IH] j p /=; case: b => /=.
  rewrite add1n; case: j => [|j] /=.
    by move=> _ hp; rewrite take0 drop1 /= natrD -nth0 hp.
  rewrite ltnS; case: p => [|a p] /= hj hp; last by rewrite (IH j).
  by rewrite [in LHS](IH j) ?nth_nil.
by rewrite add0n => hj hp; rewrite (IH j).
Qed.

Lemma in_cube_nth d p i : in_cube d p -> 0 <= p`_i <= 1.
Proof.
case=> hs /all_nthP h; case: (ltnP i (size p)) => hi; first exact: h.
by rewrite nth_default // lexx ler01.
Qed.

Lemma face_points dims c j s y : size c = size dims -> (j < n_along c)%N -> (s < 2)%N ->
  (exists p, [/\ in_cube (n_along c) p, p`_j = s%:R & y = phys dims c p]) <->
  cell_points dims (facet_at c j s) y.
Proof.
move=> hc hj hs; split.
  move=> [p [[hp hin] hpj ->]]; exists (take j p ++ drop j.+1 p); last first.
    by rewrite /phys (place_facet hj hpj).
  split.
    rewrite n_along_facet // size_cat size_take size_drop hp hj; lia.
  rewrite all_cat; apply/andP; split; apply/allP => x hx; apply: (allP hin).
    exact: mem_take hx.
  exact: mem_drop hx.
move=> [q [hq hin] ->]; rewrite n_along_facet // in hq.
have hjq : (j <= size q)%N by rewrite hq; lia.
exists (take j q ++ s%:R :: drop j q); split.
- split; first by rewrite size_cat /= size_take size_drop hq; case: ifP; lia.
  rewrite all_cat /= ler0n lern1 (_ : (s <= 1)%N) //=.
  by apply/andP; split; apply/allP => x hx; apply: (allP hin); [exact: mem_take hx|exact: mem_drop hx].
- by rewrite nth_cat size_take_min (minn_idPl hjq) ltnn subnn.
rewrite /phys; congr map; congr zip; apply/esym.
set p := _ ++ _.
have hpj : p`_j = s%:R by rewrite nth_cat size_take_min (minn_idPl hjq) ltnn subnn.
rewrite (place_facet hj hpj); congr place.
have htj : size (take j q) = j by rewrite size_take_min (minn_idPl hjq).
rewrite /p take_cat htj ltnn subnn take0 cats0 drop_cat htj.
by rewrite ltnNge leqnSn /= subSnn /= drop0 cat_take_drop.
Qed.

(** Points between two corners. *)
Lemma place_bounds c p i : in_cube (n_along c) p -> (i < size c)%N ->
  (cn c i).2%:R <= (place c p)`_i <= ((cn c i).2 + (cn c i).1)%:R.
Proof.
move=> hp hi; rewrite place_nth // mem_along_dirs hi /= natrD.
case: (cn c i).1; last by rewrite addr0 lexx.
by have /andP [h1 h2] := in_cube_nth (index i (along_dirs c)) hp; rewrite ler_addl h1 ler_add2l.
Qed.

Lemma corner_low c i : (i < size c)%N -> (place c (nseq (n_along c) (0 : F)))`_i = (cn c i).2%:R.
Proof. by move=> hi; rewrite place_nth // nth_nseq !if_same addr0. Qed.
Lemma corner_high c i : (i < size c)%N ->
  (place c (nseq (n_along c) (1 : F)))`_i = ((cn c i).2 + (cn c i).1)%:R.
Proof.
move=> hi; rewrite place_nth // nth_nseq natrD; congr (_ + _).
case: ifP => h; last by move: h; rewrite mem_along_dirs hi /= => ->.
by rewrite -size_along_dirs index_mem h; move: h; rewrite mem_along_dirs => /andP [_ ->].
Qed.
Lemma corner_in m (x : F) : 0 <= x <= 1 -> in_cube m (nseq m x).
Proof. by move=> h; split; rewrite ?size_nseq // all_nseq h orbT. Qed.

Section Dims.
Variable dims : seq nat.
Hypothesis hpos : all (fun n => (0 < n)%N) dims.
Let n := size dims.

Lemma points_le c c' : size c = n -> size c' = n ->
  (forall y, cell_points dims c y -> cell_points dims c' y) ->
  forall i, (i < n)%N -> ((cn c' i).2 <= (cn c i).2)%N /\
                        ((cn c i).2 + (cn c i).1 <= (cn c' i).2 + (cn c' i).1)%N.
Proof.
move=> hc hc' h i hi.
have get (x : F) : 0 <= x <= 1 -> exists2 q, in_cube (n_along c') q &
    place c (nseq (n_along c) x) = place c' q.
  move=> hx; have [|q hq e] := h (phys dims c (nseq (n_along c) x)).
    by exists (nseq (n_along c) x) => //; exact: corner_in.
  by exists q => //; apply: phys_inj e.
have [q hq e] := get 0 (introT andP (conj (lexx _) ler01)).
have [q' hq' e'] := get 1 (introT andP (conj ler01 (lexx _))).
split.
  by have := place_bounds hq (etrans (congr1 (leq i.+1) hc') hi); rewrite -e corner_low ?hc // ler_nat => /andP [].
by have := place_bounds hq' (etrans (congr1 (leq i.+1) hc') hi); rewrite -e' corner_high ?hc // !ler_nat => /andP [].
Qed.

Lemma cell_ext c c' : size c = n -> size c' = n -> (forall i, (i < n)%N -> cn c i = cn c' i) -> c = c'.
Proof. by move=> h h' hn; apply: (@eq_from_nth _ (false, 0%N)); rewrite h ?h'. Qed.

Lemma cell_points_inj c c' : size c = n -> size c' = n ->
  (forall y, cell_points dims c y <-> cell_points dims c' y) -> c = c'.
Proof.
move=> hc hc' h; apply: cell_ext => // i hi.
have [h1 h2] := points_le hc hc' (fun y => (h y).1) hi.
have [h3 h4] := points_le hc' hc (fun y => (h y).2) hi.
move: h1 h2 h3 h4; case: (cn c i) => b x; case: (cn c' i) => b' x' /=.
by case: b b' => [] [] /= *; congr pair; lia.
Qed.

Lemma middle_inj c c' : size c = n -> size c' = n ->
  phys dims c (nseq (n_along c) (2%:R^-1 : F)) = phys dims c' (nseq (n_along c') 2%:R^-1) -> c = c'.
Proof.
move=> hc hc' /(phys_inj hpos hc hc') e; apply: cell_ext => // i hi.
have := congr1 (fun s => s`_i) e; rewrite !place_nth ?hc ?hc' // !nth_nseq.
have red (a : cell) : size a = n ->
  (cn a i).2%:R + (if i \in along_dirs a then if (index i (along_dirs a) < n_along a)%N then 2%:R^-1 else 0 else 0)
  = ((2 * (cn a i).2 + (cn a i).1)%:R / 2%:R : F).
  move=> ha; rewrite -size_along_dirs index_mem natrD natrM mulrDl mulrAC divff ?pnatr_eq0 // mul1r.
  congr (_ + _); case h : (i \in along_dirs a); move: h; rewrite mem_along_dirs ha hi /= => ->.
    by rewrite mul1r.
  by rewrite mul0r.
rewrite !red //; have h2 : (2%:R^-1 : F) != 0 by rewrite invr_eq0 pnatr_eq0.
move/(mulIf h2)/eqP; rewrite eqr_nat => /eqP.
case: (cn c i) => b x; case: (cn c' i) => b' x' /=.
by case: b b' => [] [] /= *; congr pair; lia.
Qed.

(** *** Interiors are disjoint *)
Lemma frac_inj (x x' : nat) (a a' : F) : 0 <= a < 1 -> 0 <= a' < 1 -> x%:R + a = x'%:R + a' ->
  x = x' /\ a = a'.
Proof.
move=> /andP [h1 h2] /andP [h3 h4] e.
have hx : x = x'.
  apply/eqP; rewrite eqn_leq; apply/andP; split; rewrite -ltnS -(ltr_nat F) -addn1 natrD.
    by apply: (@le_lt_trans _ _ (x%:R + a)); rewrite ?ler_addl // e ltr_add2l.
  by apply: (@le_lt_trans _ _ (x'%:R + a')); rewrite ?ler_addl // -e ltr_add2l.
by split=> //; move: e; rewrite hx => /addrI.
Qed.

Lemma interior_inj c c' p p' : size c = n -> size c' = n ->
  in_open_cube (n_along c) p -> in_open_cube (n_along c') p' ->
  phys dims c p = phys dims c' p' -> c = c' /\ p = p'.
Proof.
move=> hc hc' [hp hop] [hp' hop'] /(phys_inj hpos hc hc') e.
have opn (a : cell) (q : seq F) i : size q = n_along a -> all (fun x => (0 < x) && (x < 1)) q ->
    i \in along_dirs a -> 0 < q`_(index i (along_dirs a)) < 1.
  by move=> hq /all_nthP h hi; apply: h; rewrite hq -size_along_dirs index_mem.
have key i : (i < n)%N -> cn c i = cn c' i /\
    (if i \in along_dirs c then p`_(index i (along_dirs c)) else 0) =
    (if i \in along_dirs c' then p'`_(index i (along_dirs c')) else 0).
  move=> hi; have := congr1 (fun s => s`_i) e; rewrite !place_nth ?hc ?hc' //.
  have fr (a : cell) (q : seq F) : size q = n_along a -> all (fun x => (0 < x) && (x < 1)) q -> size a = n ->
      0 <= (if i \in along_dirs a then q`_(index i (along_dirs a)) else 0) < 1 /\
      ((if i \in along_dirs a then q`_(index i (along_dirs a)) else 0) != 0) = (cn a i).1.
    move=> hq ho ha; case: ifP => h.
      have /andP [h1 h2] := opn _ _ _ hq ho h; rewrite (ltW h1) h2 lt0r_neq0 //.
      by move: h; rewrite mem_along_dirs => /andP [_ ->].
    by move: h; rewrite mem_along_dirs ha hi lexx ltr01 eqxx /= => ->.
  have [f1 f2] := fr c p hp hop hc; have [f1' f2'] := fr c' p' hp' hop' hc'.
  move=> /(frac_inj f1 f1') [e1 e2]; split=> //.
  by rewrite [cn c i]surjective_pairing [cn c' i]surjective_pairing -f2 -f2' e1 e2.
have ec : c = c' by apply: cell_ext => // i /key [].
split=> //; subst c'; apply: (@eq_from_nth _ 0); rewrite hp ?hp' // => j hj.
have hin : nth 0%N (along_dirs c) j \in along_dirs c by rewrite mem_nth // size_along_dirs.
have hlt : (nth 0%N (along_dirs c) j < n)%N by rewrite -hc along_dirs_lt.
have [_] := key _ hlt; rewrite hin index_uniq ?along_dirs_uniq // size_along_dirs //.
Qed.

(** *** Refined cells cover the coarse cell *)
Lemma split_coord (L : nat) (x : F) : (0 < L)%N -> 0 <= x <= 1 ->
  exists2 r, (r < L)%N & r%:R <= L%:R * x <= r.+1%:R.
Proof.
move=> hL /andP [h0 h1].
have H m : (0 < m)%N -> L%:R * x <= m%:R -> exists2 r, (r < m)%N & r%:R <= L%:R * x <= r.+1%:R.
  elim: m => [//|m IH] _ hm; case: (lerP m%:R (L%:R * x)) => h.
    by exists m; rewrite // h hm.
  case: m IH hm h => [|m] IH hm h.
    by move: h; rewrite ltNge mulr_ge0 ?ler0n.
  by have [//|//|r hr hh] := IH _ _; [exact: ltW | exists r; rewrite // ltnW].
by apply: H => //; rewrite ler_pimulr ?ler0n.
Qed.

Lemma place_refine L E r p q : size r = n_along E -> size p = n_along E -> size q = n_along E ->
  (forall j, (j < n_along E)%N -> L%:R * p`_j = (nth 0%N r j)%:R + q`_j) ->
  place (refine L E (full r)) q = [seq L%:R * x | x <- place E p].
Proof.
rewrite /n_along; elim: E r p q => [//|[b x] E IH] r p q /=; case: b => /=; rewrite ?add1n ?add0n.
  case: r p q => [//|r0 r] [//|p0 p] [//|q0 q] [hr] [hp] [hq] h /=; congr cons.
    have := h 0%N isT => /= h0.
    by rewrite natrD natrM mulrDr h0 addrA.
  by apply: IH => // j hj; exact: (h j.+1).
by move=> hr hp hq h; rewrite natrM; congr cons; apply: IH.
Qed.

Lemma phys_refine L E r p q : (0 < L)%N -> size E = n ->
  size r = n_along E -> size p = n_along E -> size q = n_along E ->
  (forall j, (j < n_along E)%N -> L%:R * p`_j = (nth 0%N r j)%:R + q`_j) ->
  phys (fine_dims L dims) (refine L E (full r)) q = phys dims E p.
Proof.
move=> hL hE hr hp hq h; have hL0 : L%:R != 0 :> F by rewrite pnatr_eq0 -lt0n.
rewrite /phys (place_refine hr hp hq h) /fine_dims.
have : size (place E p) = size dims by rewrite size_place.
elim: (place E p) dims => [|x s IH] [|m ds] //= [hs]; congr cons; last exact: IH.
by rewrite natrM -mulf_div divff // mul1r.
Qed.

Lemma refine_cover L E p : (0 < L)%N -> size E = n -> in_cube (n_along E) p ->
  exists r q, [/\ size r = n_along E, all (fun x => (x < L)%N) r, in_cube (n_along E) q
    & phys (fine_dims L dims) (refine L E (full r)) q = phys dims E p].
Proof.
move=> hL hE hp; have hs : size p = n_along E by case: hp.
have [r [hr hl h]] : exists r, [/\ size r = size p, all (fun x => (x < L)%N) r &
    forall j, (j < size p)%N -> (nth 0%N r j)%:R <= L%:R * p`_j <= (nth 0%N r j).+1%:R].
  case: hp => _; elim: p {hs} => [|x p IH] /=; first by exists [::].
  move=> /andP [hx /IH [r [hr hl h]]]; have [r0 h0 h1] := split_coord hL hx.
  exists (r0 :: r); split=> //=; first by rewrite hr.
    by rewrite h0.
  by case=> [|j] //=; rewrite ltnS; exact: h.
exists r, (mkseq (fun j => L%:R * p`_j - (nth 0%N r j)%:R) (size p)); split=> //.
- by rewrite hr.
- split; first by rewrite size_mkseq.
  apply/(all_nthP 0) => j; rewrite size_mkseq => hj; rewrite nth_mkseq //.
  by have /andP [h1 h2] := h j hj; rewrite subr_ge0 h1 ler_subl_addr -[1]/(1%:R) -natrD add1n.
- apply: phys_refine => //; rewrite ?size_mkseq ?hr // => j hj.
  by rewrite nth_mkseq ?hs // addrC subrK.
Qed.

Lemma refine_inside L E r q : (0 < L)%N -> size E = n -> size r = n_along E ->
  all (fun x => (x < L)%N) r -> in_cube (n_along E) q ->
  exists2 p : seq F, in_cube (n_along E) p & phys (fine_dims L dims) (refine L E (full r)) q = phys dims E p.
Proof.
move=> hL hE hr hl hq; have hs : size q = n_along E by case: hq.
have hL0 : 0 < L%:R :> F by rewrite ltr0n.
exists (mkseq (fun j => ((nth 0%N r j)%:R + q`_j) / L%:R) (n_along E)).
  split; first by rewrite size_mkseq.
  apply/(all_nthP 0) => j; rewrite size_mkseq => hj; rewrite nth_mkseq //.
  have /andP [h1 h2] := in_cube_nth j hq.
  have hrj : (nth 0%N r j < L)%N by apply: (allP hl); rewrite mem_nth // hr.
  rewrite divr_ge0 ?addr_ge0 ?ler0n //= ler_pdivr_mulr // mul1r.
  apply: (@le_trans _ _ ((nth 0%N r j)%:R + 1)); first by rewrite ler_add2l.
  by rewrite -[1]/(1%:R) -natrD ler_nat addn1.
apply: phys_refine; rewrite ?size_mkseq // => j hj.
by rewrite nth_mkseq // mulrC mulfVK // lt0r_neq0.
Qed.
End Dims.
End Points.
