(** Proofs about the geometry read from files: refined hyperedges. *)
From mathcomp Require Import all_ssreflect all_algebra zify ring.
From Verif Require Import M_Base L_Base M_DenseLA S_DenseLA L_DenseLA M_Lapack S_Lapack L_Lapack M_Index
  S_Index L_Index M_Topology S_Topology L_Topology L_Topology2 M_Geometry S_Geometry L_Geometry L_Geometry2
  L_Geometry3 L_Geometry5 L_Geometry6 L_Geometry8 L_Geometry9.
Set Implicit Arguments. Unset Strict Implicit. Unset Printing Implicit Defensive.
Import Order.TTheory GRing.Theory Num.Theory.
Local Open Scope ring_scope.

Lemma cancel_scale (F : fieldType) (l s r p : F) : l != 0 ->
  l * (r * (s / l) + s / l * p) = (r + p) * s.
Proof. by move=> h; field. Qed.

Section File.
Variable F : realFieldType.
Variable geqr2 : nat -> nat -> seq F -> qr_result F.
Variables (enum : tpcc -> seq cell) (slice : nat -> seq nat -> nat).
Hypotheses (henum : tpcc_spec enum) (hslice : slice_spec slice).
Variables (d L : nat) (D : domain) (Q : points_of F).
Hypotheses (hd : (0 < d)%N) (hL : (0 < L)%N).
Let G := gfile_refine L (gfile_of (file_new enum d D)).
Let G0 := gfile_of (file_new enum d D).
Let n := po_n Q.
Let parts := Tpcc true d (nseq d L).
Variables (e : nat) (P : nat -> seq F).
Hypothesis he : (e < do_n_edges D)%N.
Hypothesis hP0 : file_point Q e 0 = Ok (P 0%N).
Hypothesis hP : forall j, (j < d)%N -> file_point Q e (2 ^ j) = Ok (P (2 ^ j)%N).
Hypothesis hs0 : size (P 0%N) = n.
Hypothesis hs : forall j, (j < d)%N -> size (P (2 ^ j)%N) = n.
Variables (T0 : linear F) (T : nat -> linear F).
Hypothesis hT0 : gfile_at geqr2 enum G0 Q e = Ok T0.
Hypothesis hT : forall k, (k < L ^ d)%N -> gfile_at geqr2 enum G Q (e * L ^ d + k) = Ok (T k).
Local Notation side := (side P).

Let L0 : L%:R != 0 :> F. Proof. by rewrite pnatr_eq0 -lt0n. Qed.

Lemma coarseE : [/\ l_n T0 = n, l_d T0 = d, is_mat n d (l_mat T0),
    forall i j, (i < n)%N -> (j < d)%N -> mget n (l_mat T0) i j = side i j
  & l_trans T0 = P 0%N /\ linear_new geqr2 n d (P 0%N) (l_mat T0) = Ok T0].
Proof.
have := @gfile_atE F geqr2 enum slice henum hslice d 1 D Q isT e P he hP0 hP hs0 hs 0.
rewrite exp1n muln1 addn0 => /(_ isT) [r [trans [M [[er sr] [sM st] hM htr]]]].
have -> : gfile_refine 1 (gfile_of (file_new enum d D)) = G0 by [].
rewrite hT0 => hnew; have [e1 e2 e3 e4] := linear_newE (esym hnew).
have r0 j : nth 0%N r j = 0%N.
  case: (ltnP j (size r)) => hj; last exact: nth_default.
  have hk : (0 < size (enum (Tpcc true d (nseq d 1))))%N by rewrite (size_ref henum hslice) exp1n.
  have /valid_ref [r' [er' _ ar]] := nth_enum_valid henum hk.
  have err : r = r' by rewrite -(along_full r) -(along_full r') -er -er'.
  by have := all_nthP 0%N ar j; rewrite -err => /(_ hj); case: (nth 0%N r j).
have et : trans = P 0%N.
  apply: (@eq_from_nth _ 0); rewrite st ?hs0 // => i hi; rewrite htr // big1 ?addr0 // => j _.
  by rewrite r0 mul0r.
split=> //; rewrite ?e4 //; first by move=> i j hi hj; rewrite hM // divr1.
by rewrite e3 et; split=> //; rewrite -et -hnew.
Qed.
Lemma partE k : (k < L ^ d)%N -> exists r,
  [/\ nth [::] (enum parts) k = full r, size r = d /\ all (fun x => (x < L)%N) r,
      [/\ l_n (T k) = n, l_d (T k) = d, is_mat n d (l_mat (T k)) & size (l_trans (T k)) = n],
      forall i j, (i < n)%N -> (j < d)%N -> mget n (l_mat (T k)) i j = side i j / L%:R
    & (forall i, (i < n)%N -> (l_trans (T k))`_i =
         (P 0%N)`_i + \sum_(j < d) (nth 0%N r j)%:R * (side i j / L%:R)) /\
      linear_new geqr2 n d (l_trans (T k)) (l_mat (T k)) = Ok (T k)].
Proof.
move=> hk; have [r [trans [M [[er sr] [sM st] hM htr]]]] :=
  gfile_atE geqr2 henum hslice hL he hP0 hP hs0 hs hk.
rewrite hT // => hnew; have [e1 e2 e3 e4] := linear_newE (esym hnew).
have hk2 : (k < size (enum parts))%N by rewrite (size_ref henum hslice).
have /valid_ref [r' [er' _ ar]] := nth_enum_valid henum hk2.
have err : r = r' by rewrite -(along_full r) -(along_full r') -er -er'.
by exists r; rewrite e3 e4; split=> //; split=> //; rewrite err.
Qed.

Lemma map_coarse (p : seq F) : in_cube d p -> exists2 y, gf_map T0 1 p = Ok y & size y = n /\
  forall i, (i < n)%N -> y`_i = (P 0%N)`_i + \sum_(j < d) p`_j * side i j.
Proof.
move=> /in_cubeP [sp hp]; have [e1 e2 sM hM [et _]] := coarseE.
rewrite /gf_map e2 muln1 hp; eexists; first by [].
have hm := linear_map_mat T0 1 p; rewrite /is_mat e1 muln1 in hm; split=> // i hi.
rewrite linear_map_nth ?e1 // e2 et addrC; congr (_ + _); apply: eq_bigr => j _.
by rewrite hM // mulrC.
Qed.
(** A part maps like the coarse hyperedge after the affine map of the reference cube. *)
Lemma map_part k r (p q : seq F) : (k < L ^ d)%N -> nth [::] (enum parts) k = full r ->
  in_cube d p -> in_cube d q -> (forall j, (j < d)%N -> L%:R * q`_j = (nth 0%N r j)%:R + p`_j) ->
  gf_map (T k) 1 p = gf_map T0 1 q.
Proof.
move=> hk er hp hq H; have [r' [er' [sr ar] [e1 e2 sM st] hM [htr _]]] := partE hk.
have err : r = r' by rewrite -(along_full r) -(along_full r') -er -er'.
have [y -> [sy hy]] := map_coarse hq; move/in_cubeP: hp => [sp hp].
rewrite /gf_map e2 muln1 hp; congr Ok.
have hm := linear_map_mat (T k) 1 p; rewrite /is_mat e1 muln1 in hm.
apply: (@eq_from_nth _ 0); rewrite hm ?sy // => i hi.
rewrite linear_map_nth ?e1 // e2 htr // hy // addrC -addrA -big_split /=; congr (_ + _).
apply: eq_bigr => j _; rewrite hM // -err; have := H j (ltn_ord j) => hj.
by apply: (mulfI L0); rewrite [RHS]mulrA hj cancel_scale.
Qed.

Lemma file_cover y : (exists2 q, in_cube d q & gf_map T0 1 q = Ok y) <->
  (exists k p, [/\ (k < L ^ d)%N, in_cube d p & gf_map (T k) 1 p = Ok y]).
Proof.
split.
  move=> [q hq hy]; have [r [p [sr ar hp h]]] := split_point hL hq.
  have [k hk ek] := part_index henum hslice sr ar.
  by exists k, p; split=> //; rewrite (map_part hk ek hp hq h).
move=> [k [p [hk hp hy]]]; have [r [er [sr ar] _ _ _]] := partE hk.
pose q := mkseq (fun j => ((nth 0%N r j)%:R + p`_j) / L%:R) d.
have Lp : 0 < L%:R :> F by rewrite ltr0n.
have hq : in_cube d q.
  split; first by rewrite size_mkseq.
  apply/(all_nthP 0) => j; rewrite size_mkseq => h; have /andP [p0 p1] := in_cube_nth j hp.
  rewrite nth_mkseq // ler_pdivl_mulr // ler_pdivr_mulr // mul0r mul1r addr_ge0 ?ler0n //=.
  have hr : (nth 0%N r j < L)%N by apply: (all_nthP 0%N ar); rewrite sr.
  by rewrite (le_trans (y := (nth 0%N r j).+1%:R)) ?ler_nat // -addn1 natrD ler_add2l.
exists q => //; rewrite -hy; symmetry; apply: (map_part hk er hp hq) => j hj.
by rewrite nth_mkseq // mulrC divfK.
Qed.

Lemma file_disjoint k k' (p p' : seq F) : (k < L ^ d)%N -> (k' < L ^ d)%N ->
  \rank (mx_of n d (l_mat T0)) = d -> in_open_cube d p -> in_open_cube d p' ->
  gf_map (T k) 1 p = gf_map (T k') 1 p' -> k = k' /\ p = p'.
Proof.
move=> hk hk' hrk [sp ap] [sp' ap'].
have [r [er [sr ar] [e1 e2 sM st] hM [htr _]]] := partE hk.
have [r' [er' [sr' ar'] [e1' e2' sM' st'] hM' [htr' _]]] := partE hk'.
have cl (q : seq F) : size q = d -> all (fun x => (0 < x) && (x < 1)) q -> in_ref d q.
  move=> sq /(all_nthP 0) h; apply/in_refP => j hj.
  by have := h j; rewrite sq => /(_ hj) /andP [h1 h2]; rewrite !ltW.
rewrite /gf_map e2 e2' muln1 !cl // => -[E].
have [_ _ _ hM0 _] := coarseE.
pose u : 'cV[F]_d := \col_j (((nth 0%N r j)%:R + p`_j) - ((nth 0%N r' j)%:R + p'`_j)).
have hu : mx_of n d (l_mat T0) *m u = 0.
  apply/matrixP => i j; rewrite [j]ord1 !mxE; have hi := ltn_ord i.
  have conv (s : seq F) (rr : seq nat) M : (forall i j, (i < n)%N -> (j < d)%N -> mget n M i j = side i j / L%:R) ->
    L%:R * (\sum_(i0 < d) mget n M i i0 * s`_i0 +
      ((P 0%N)`_i + \sum_(i0 < d) (nth 0%N rr i0)%:R * (side i i0 / L%:R))) =
    L%:R * (P 0%N)`_i + \sum_(i0 < d) side i i0 * ((nth 0%N rr i0)%:R + s`_i0).
    move=> hMM; rewrite addrCA mulrDr; congr (_ + _); rewrite -big_split /= mulr_sumr.
    by apply: eq_bigr => j0 _; rewrite hMM // addrC cancel_scale // mulrC.
  have := congr1 (fun s => L%:R * s`_i) E; rewrite !linear_map_nth ?e1 ?e1' // e2 e2' htr // htr' //.
  rewrite !conv // => /addrI E2.
  under eq_bigr => j0 _ do rewrite !mxE -/(loc _ _ _) -/(mget _ _ _ _) hM0 // mulrBr.
  by rewrite sumrB E2 subrr.
have u0 : u = 0.
  have fr : row_free (mx_of n d (l_mat T0))^T by rewrite /row_free mxrank_tr hrk.
  apply: (can_inj (@trmxK _ _ _)); apply: (row_free_inj fr).
  by rewrite -trmx_mul hu !trmx0 ?mul0mx.
have eq j : (j < d)%N -> nth 0%N r j = nth 0%N r' j /\ p`_j = p'`_j.
  move=> hj; have := congr1 (fun M : 'cV_d => M (Ordinal hj) 0) u0; rewrite !mxE /= => /eqP.
  rewrite subr_eq0 => /eqP; apply: frac_inj.
    by have := all_nthP 0 ap j; rewrite sp => /(_ hj) /andP [h1 h2]; rewrite ltW.
  by have := all_nthP 0 ap' j; rewrite sp' => /(_ hj) /andP [h1 h2]; rewrite ltW.
split; last by apply: (@eq_from_nth _ 0); rewrite sp ?sp' // => j /eq [].
have err : r = r' by apply: (@eq_from_nth _ 0%N); rewrite sr ?sr' // => j /eq [].
have lt m : (m < L ^ d)%N -> (m < size (enum parts))%N by rewrite (size_ref henum hslice).
rewrite -(index_uniq [::] (lt _ hk) (enum_uniq henum parts)) -(index_uniq [::] (lt _ hk') (enum_uniq henum parts)).
by rewrite er er' err.
Qed.

(** Areas *)
Lemma sq_eq (a b c : F) : 0 <= a -> 0 <= b -> 0 <= c -> a ^+ 2 = b ^+ 2 * c ^+ 2 -> a = b * c.
Proof. by move=> ha hb hc; rewrite -exprMn => /eqP; rewrite eqr_expn2 ?mulr_ge0 // => /eqP. Qed.
Lemma scaled_gram m (A B : 'M[F]_(n, m)) : A = L%:R^-1 *: B ->
  \det (A^T *m A) = \det (B^T *m B) * ((L%:R ^+ m)^-1) ^+ 2.
Proof.
move=> ->; have -> : (L%:R^-1 *: B)^T = L%:R^-1 *: B^T by apply/matrixP => i j; rewrite !mxE.
rewrite -scalemxAl -scalemxAr scalerA detZ mulrC; congr (_ * _).
by rewrite -expr2 -exprVn -!exprM mulnC.
Qed.
Hypotheses (hdn : (d <= n)%N) (hfit : r_fits n d).
Hypothesis hok : forall nr nc A, qr_info (geqr2 nr nc A) ->
  geqr2_ok nr nc A (qr_fac (geqr2 nr nc A)) (qr_tau (geqr2 nr nc A)).

Lemma file_area_part k : (k < L ^ d)%N -> gf_area (T k) = gf_area T0 / (L ^ d)%:R.
Proof.
move=> hk; have [r [er [sr ar] [e1 e2 sM st] hM [htr hnew]]] := partE hk.
have [f1 f2 sM0 hM0 [ft hnew0]] := coarseE.
have hdn' : (0 < d <= n)%N by rewrite hd.
have [p1 s1] := gf_area_sq hnew hdn' hfit (@hok _ _ _).
have [p0 s0] := gf_area_sq hnew0 hdn' hfit (@hok _ _ _).
rewrite natrX; apply: sq_eq => //; first by rewrite invr_ge0 exprn_ge0 // ler0n.
rewrite s1 s0; apply: scaled_gram; apply/matrixP => i j.
by rewrite !mxE -!/(loc _ _ _) -!/(mget _ _ _ _) hM // hM0 // mulrC.
Qed.
Lemma file_area_sum : \sum_(k < L ^ d) gf_area (T k) = gf_area T0.
Proof.
under eq_bigr => k _ do rewrite file_area_part //.
by rewrite sumr_const card_ord -[_ *+ _]mulr_natr divfK // pnatr_eq0 -lt0n expn_gt0 hL.
Qed.
Lemma file_face_area_part k i a a0 : (k < L ^ d)%N -> gf_face_area geqr2 (T k) i = Ok a ->
  gf_face_area geqr2 T0 i = Ok a0 -> a = a0 / (L ^ d.-1)%:R.
Proof.
move=> hk; have [r [er [sr ar] [e1 e2 sM st] hM [htr hnew]]] := partE hk.
have [f1 f2 sM0 hM0 [ft hnew0]] := coarseE.
move=> ha ha0.
have hi : (i < 2 * d)%N by move: ha; rewrite /gf_face_area e2; case: ifP.
have hj : (i %/ 2 < d)%N by rewrite ltn_divLR // mulnC.
have := @gf_face_area_sq F geqr2 (T k) i a; rewrite e1 e2 => /(_ hdn (@hok _ _ _) ha) [p1 s1].
have := @gf_face_area_sq F geqr2 T0 i a0; rewrite f1 f2 => /(_ hdn (@hok _ _ _) ha0) [p0 s0].
rewrite natrX; apply: sq_eq => //; first by rewrite invr_ge0 exprn_ge0 // ler0n.
rewrite s1 s0; apply: scaled_gram; apply/matrixP => x y.
have hy : (bump (i %/ 2) y < d)%N by have := ltn_ord y; rewrite /bump; lia.
by rewrite !mxE hM // hM0 // mulrC.
Qed.
Lemma file_face_area_sum i (a : nat -> F) a0 : (i < 2 * d)%N ->
  (forall k, (k < L ^ d)%N -> gf_face_area geqr2 (T k) i = Ok (a k)) -> gf_face_area geqr2 T0 i = Ok a0 ->
  \sum_(k < L ^ d | on_coarse enum d L k i) a k = a0.
Proof.
move=> hi ha ha0; under eq_bigr => k _ do rewrite (file_face_area_part (ltn_ord k) (ha k (ltn_ord k)) ha0).
rewrite sumr_const -[_ *+ _]mulr_natr -sum1_card (count_coarse henum hslice (dims := [::])) //.
by rewrite divfK // pnatr_eq0 -lt0n expn_gt0 hL.
Qed.
End File.
