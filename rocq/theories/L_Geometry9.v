(** Proofs about the geometry read from files: tiling, normals, areas. *)
From mathcomp Require Import all_ssreflect all_algebra zify ring.
From Verif Require Import M_Base L_Base M_DenseLA S_DenseLA L_DenseLA M_Lapack S_Lapack L_Lapack M_Index
  S_Index L_Index M_Topology S_Topology L_Topology L_Topology2 M_Geometry S_Geometry L_Geometry L_Geometry2
  L_Geometry3 L_Geometry6 L_Geometry8.
Set Implicit Arguments. Unset Strict Implicit. Unset Printing Implicit Defensive.
Import Order.TTheory GRing.Theory Num.Theory.
Local Open Scope ring_scope.

Section Split.
Variable F : realFieldType.
Lemma split_point (L d : nat) (p : seq F) : (0 < L)%N -> in_cube d p ->
  exists r q, [/\ size r = d, all (fun x => (x < L)%N) r, in_cube d q
    & forall j, (j < d)%N -> L%:R * p`_j = (nth 0%N r j)%:R + q`_j].
Proof.
move=> hL [<-]; elim: p => [|x p IH] /=; first by exists [::], [::].
move=> /andP [hx /IH [r [q [hr ar [hq aq] h]]]].
have [m hm /andP [h1 h2]] := split_coord hL hx.
exists (m :: r), (L%:R * x - m%:R :: q); split=> /=; rewrite ?hr ?hm //.
  split; first by rewrite /= hq.
  by rewrite /= aq andbT subr_ge0 h1 ler_subl_addl -(natrD _ m 1) addn1.
by move=> [|j] /= hj; [rewrite addrC subrK | exact: h].
Qed.
End Split.

Section QR.
Variable F : realFieldType.
Variable geqr2 : nat -> nat -> seq F -> qr_result F.

Lemma ext_gram n d (R : seq F) : (d <= n)%N ->
  (zero_extended n d R)^T *m zero_extended n d R = (mx_of d d R)^T *m mx_of d d R.
Proof.
move=> hdn; apply/matrixP => i j; rewrite !mxE.
under eq_bigr do rewrite !mxE.
rewrite (bigID (fun k : 'I_n => (k < d)%N)) /= [X in _ + X]big1 ?addr0; last first.
  by move=> k /negbTE ->; rewrite mul0r.
rewrite big_ord_narrow; apply: eq_bigr => k _.
by rewrite !mxE /= ltn_ord.
Qed.

Lemma linear_newP n d trans mat T : linear_new geqr2 n d trans mat = Ok T -> (0 < d <= n)%N -> r_fits n d ->
  (qr_info (geqr2 n d mat) -> geqr2_ok n d mat (qr_fac (geqr2 n d mat)) (qr_tau (geqr2 n d mat))) ->
  [/\ (mx_of n n (l_q T))^T *m mx_of n n (l_q T) = 1%:M,
      mx_of n n (l_q T) *m zero_extended n d (l_r T) = mx_of n d mat,
      forall i j : 'I_d, (j < i)%N -> mx_of d d (l_r T) i j = 0
    & (mx_of d d (l_r T))^T *m mx_of d d (l_r T) = (mx_of n d mat)^T *m mx_of n d mat].
Proof.
move=> hT hdn hf hok.
have hi : qr_info (geqr2 n d mat).
  by move: hT; rewrite /linear_new /qr_decomp /lapack_qr_decomp; case: ifP.
have r0 : is_mat d d (zeros F d d) by rewrite /is_mat size_nseq.
have rc : r_clean n d (zeros F d d) by constructor 3 => i j _; rewrite mxE nth_zeros.
have [m [Q [R [e hQ hA [hR _] _]]]] := qr_decomp_correct hdn r0 hf rc hi (hok hi).
move: hT; rewrite /linear_new e /= => -[<-] /=; split=> //.
case/andP: hdn => _ hdn.
by rewrite -(ext_gram R hdn) -hA trmx_mul !mulmxA -[_ *m _^T *m _]mulmxA hQ mulmx1.
Qed.

Lemma linear_det_edgeE (T : linear F) :
  linear_det_edge T = \prod_(i < l_d T) mget (l_d T) (l_r T) i i.
Proof.
rewrite /linear_det_edge; set d := l_d T.
have H m : for_ m (fun i a => a * mget d (l_r T) i i) 1 = \prod_(i < m) mget d (l_r T) i i :> F.
  by elim: m => [|m IH]; rewrite ?big_ord0 // for_S IH big_ord_recr.
exact: H.
Qed.
Lemma det_upper d (M : 'M[F]_d) : (forall i j : 'I_d, (j < i)%N -> M i j = 0) -> \det M = \prod_i M i i.
Proof.
move=> h; rewrite -det_tr det_trig; first by apply: eq_bigr => i _; rewrite mxE.
by apply/is_trig_mxP => i j hij; rewrite mxE h.
Qed.
Lemma gf_area_sq n d trans mat T : linear_new geqr2 n d trans mat = Ok T -> (0 < d <= n)%N -> r_fits n d ->
  (qr_info (geqr2 n d mat) -> geqr2_ok n d mat (qr_fac (geqr2 n d mat)) (qr_tau (geqr2 n d mat))) ->
  0 <= gf_area T /\ gf_area T ^+ 2 = \det ((mx_of n d mat)^T *m mx_of n d mat).
Proof.
move=> hT hdn hf hok; have [_ _ hR hG] := linear_newP hT hdn hf hok; split; first exact: normr_ge0.
have [_ ed _ _] := linear_newE hT.
rewrite -hG det_mulmx det_tr det_upper // -expr2 /gf_area real_normK ?num_real // linear_det_edgeE ed.
by congr (_ ^+ 2); apply: eq_bigr => i _; rewrite mxE.
Qed.

Lemma drop_columnE nr d (mat : seq F) idx i j : (i < nr)%N -> (j < d.-1)%N -> (idx < d)%N ->
  mget nr (drop_column nr d mat idx) i j = mget nr mat i (bump idx j).
Proof.
move=> hi hj hidx; rewrite /drop_column.
have st m : is_mat nr d.-1 (for_ m (fun i m => if i != idx then set_column nr m (i - (idx < i)) (get_column nr mat i) else m)
       (zeros F nr d.-1)).
  elim: m => [|m IH]; first by rewrite /is_mat size_nseq.
  by rewrite for_S; case: ifP => // _; rewrite /is_mat size_set_column.
have H m : (m <= d)%N -> mget nr (for_ m (fun i m => if i != idx then set_column nr m (i - (idx < i)) (get_column nr mat i) else m)
       (zeros F nr d.-1)) i j = if (bump idx j < m)%N then mget nr mat i (bump idx j) else 0.
  elim: m => [|m IH] hm; first by rewrite ltn0 mget_zeros.
  rewrite for_S; have {}IH := IH (ltnW hm).
  have [e|/eqP ne] := m =P idx.
    rewrite IH e /=; have -> // : (bump idx j < idx.+1)%N = (bump idx j < idx)%N by rewrite /bump; lia.
  rewrite (@mget_set_column _ nr d.-1) //; try by rewrite ltn_subLR; lia.
  have [e|ne2] := j =P (m - (idx < m))%N.
    have -> : bump idx j = m by move: ne; rewrite e /bump; case: (ltngtP idx m) => //=; lia.
    by rewrite ltnSn -(get_columnE mat m hi).
  rewrite IH; have -> // : (bump idx j < m.+1)%N = (bump idx j < m)%N.
  by move: ne ne2; rewrite /bump; case: (ltngtP idx m) => //=; lia.
rewrite H //; have -> // : (bump idx j < d)%N by rewrite /bump; lia.
Qed.

(** The matrix without one of its columns. *)
Definition without n d (mat : seq F) (idx : nat) : 'M[F]_(n, d.-1) :=
  \matrix_(i, j) mget n mat i (bump idx j).
Lemma mx_drop n d mat idx : (idx < d)%N ->
  mx_of n d.-1 (drop_column n d mat idx) = without n d mat idx.
Proof. by move=> h; apply/matrixP => i j; rewrite !mxE -/(loc _ _ _) -/(mget _ _ _ _) drop_columnE. Qed.

Lemma gf_face_area_sq (T : linear F) i a (n := l_n T) (d := l_d T)
    (B := drop_column n d (l_mat T) (i %/ 2)) : (d <= n)%N ->
  (qr_info (geqr2 n d.-1 B) -> geqr2_ok n d.-1 B (qr_fac (geqr2 n d.-1 B)) (qr_tau (geqr2 n d.-1 B))) ->
  gf_face_area geqr2 T i = Ok a ->
  0 <= a /\ a ^+ 2 = \det ((without n d (l_mat T) (i %/ 2))^T *m without n d (l_mat T) (i %/ 2)).
Proof.
move=> hdn hok; rewrite /gf_face_area; case: ifP => // hi.
have hj : (i %/ 2 < d)%N by rewrite ltn_divLR // mulnC.
rewrite /linear_det_node; case: eqP => hd1 /=.
  move=> [<-]; split; rewrite ?normr_ge0 // normr1 expr1n.
  have d0 : d.-1 = 0%N by rewrite /d hd1.
  by move: (without _ _ _ _); rewrite d0 => M; rewrite det_mx00.
have H := @determinant_square F geqr2 n d.-1 B (leq_trans (leq_pred _) hdn).
rewrite -/n -/d -/B; case ei : (qr_info (geqr2 n d.-1 B)); last first.
  by rewrite /mat_determinant /lapack_det ei.
have [x [-> hx]] := H ei (hok ei).
move=> [<-]; split; first exact: normr_ge0.
by rewrite real_normK ?num_real // hx /B mx_drop.
Qed.

Lemma last_orth m (B q : seq F) (v := get_column m.+1 q m) :
  (qr_info (geqr2 m.+1 m B) -> geqr2_ok m.+1 m B (qr_fac (geqr2 m.+1 m B)) (qr_tau (geqr2 m.+1 m B))) ->
  qr_decomp_q geqr2 m.+1 m B = Ok q ->
  [/\ size v = m.+1, \sum_(k < m.+1) v`_k * v`_k = 1
    & forall j, (j < m)%N -> \sum_(k < m.+1) v`_k * mget m.+1 B k j = 0].
Proof.
move=> hok hq; have hi : qr_info (geqr2 m.+1 m B).
  by move: hq; rewrite /qr_decomp_q; case: ifP.
have [Q [e hQ hU]] := qr_decomp_qE hi (hok hi).
move: hq; rewrite e => -[eq]; split; first by rewrite size_get_column.
  have := congr1 (fun M : 'M_m.+1 => M ord_max ord_max) hQ; rewrite !mxE eqxx => e1; rewrite -[RHS]e1.
  by apply: eq_bigr => k _; rewrite !mxE get_columnE // eq.
move=> j hj; have := congr1 (fun M : 'M_(m.+1, m) => ((mx_of m.+1 m.+1 Q)^T *m M) ord_max (Ordinal hj)) hU.
rewrite mulmxA hQ mul1mx !mxE /= leqNgt hj /= => e1; rewrite [RHS]e1.
by apply: eq_bigr => k _; rewrite !mxE get_columnE // eq.
Qed.

Lemma last_orth' d (B q : seq F) (v := get_column d q d.-1) : (0 < d)%N ->
  (qr_info (geqr2 d d.-1 B) -> geqr2_ok d d.-1 B (qr_fac (geqr2 d d.-1 B)) (qr_tau (geqr2 d d.-1 B))) ->
  qr_decomp_q geqr2 d d.-1 B = Ok q ->
  [/\ size v = d, \sum_(k < d) v`_k * v`_k = 1
    & forall j, (j < d.-1)%N -> \sum_(k < d) v`_k * mget d B k j = 0].
Proof. by rewrite /v {v}; case: d => [//|m] _ h1 h2; apply: last_orth. Qed.

Lemma gf_local_normalP (T : linear F) i v (d := l_d T) (B := drop_column d d (l_r T) (i %/ 2)) :
  (qr_info (geqr2 d d.-1 B) -> geqr2_ok d d.-1 B (qr_fac (geqr2 d d.-1 B)) (qr_tau (geqr2 d d.-1 B))) ->
  gf_local_normal geqr2 T i = Ok v ->
  [/\ size v = d, \sum_(k < d) v`_k * v`_k = 1,
      forall j, (j < d)%N -> j != (i %/ 2)%N -> \sum_(k < d) v`_k * mget d (l_r T) k j = 0
    & linear_det_edge T != 0 -> let s := \sum_(k < d) v`_k * mget d (l_r T) k (i %/ 2) in
      if (i %% 2 == 1)%N then 0 < s else s < 0].
Proof.
move=> hok; rewrite /gf_local_normal; case: ifP => // hi.
have hj : (i %/ 2 < d)%N by rewrite ltn_divLR // mulnC.
set w := linear_local_normal _ _ _.
have neg (u : seq F) : size u = d -> size (muls d u (-1)) = d /\
    forall k, (k < d)%N -> (muls d u (-1))`_k = - u`_k.
  move=> hu; split; first by rewrite size_pointwise.
  by move=> k hk; rewrite nth_muls ?hu // hk mulrN1.
have sumN (u : seq F) (f : nat -> F) : size u = d ->
    \sum_(k < d) (muls d u (-1))`_k * f k = - \sum_(k < d) u`_k * f k.
  move=> hu; rewrite -sumrN; apply: eq_bigr => k _.
  by rewrite (proj2 (neg u hu)) // mulNr.
have sqN (u : seq F) : size u = d -> \sum_(k < d) (muls d u (-1))`_k * (muls d u (-1))`_k = \sum_(k < d) u`_k * u`_k.
  by move=> hu; apply: eq_bigr => k _; rewrite (proj2 (neg u hu)) // mulrNN.
suff : forall u, w = Ok u -> [/\ size u = d, \sum_(k < d) u`_k * u`_k = 1,
      forall j, (j < d)%N -> j != (i %/ 2)%N -> \sum_(k < d) u`_k * mget d (l_r T) k j = 0
    & linear_det_edge T != 0 -> \sum_(k < d) u`_k * mget d (l_r T) k (i %/ 2) < 0].
  case ew : w => [u|||] // /(_ u erefl) [hs h1 h2 h3] [<-].
  case: ifP => _; last by split.
  split; rewrite ?(proj1 (neg u hs)) ?sqN //.
    by move=> j hj' ne; rewrite (sumN u (fun k => mget d (l_r T) k j)) // h2 // oppr0.
  by move=> hne; rewrite (sumN u (fun k => mget d (l_r T) k (i %/ 2))) // oppr_gt0; exact: h3.
move=> u; rewrite /w /linear_local_normal hj -/d.
have [e1|ne1] := d =P 1%N.
  rewrite e1 => -[<-]; have hz : (i %/ 2 = 0)%N by lia.
  split=> //.
  - by rewrite big_ord_recr big_ord0 /= add0r; case: ifP => _; rewrite ?mulrNN mulr1.
  - by move=> j; rewrite hz; case: j.
  rewrite linear_det_edgeE -/d e1 big_ord_recr big_ord0 /= mul1r => hne.
  rewrite hz big_ord_recr big_ord0 /= add0r; case: ifP => h; first by rewrite mulN1r oppr_lt0.
  by rewrite mul1r lt_neqAle hne leNgt h.
case eq : (qr_decomp_q _ _ _ _) => [q|||] //=.
have [sv n1 ort] := last_orth' (leq_ltn_trans (leq0n _) hj) hok eq.
set y := get_column d q d.-1 in sv n1 ort *.
have spE : scalar_product d y (get_column d (l_r T) (i %/ 2)) = \sum_(k < d) y`_k * mget d (l_r T) k (i %/ 2).
  by rewrite scalar_productE; apply: eq_bigr => k _; rewrite get_columnE.
have ort2 j : (j < d)%N -> j != (i %/ 2)%N -> \sum_(k < d) y`_k * mget d (l_r T) k j = 0.
  move=> hj' ne; have := ort (unbump (i %/ 2) j); rewrite /unbump => H.
  rewrite -[RHS]H; last by move/eqP: ne; lia.
  apply: eq_bigr => k _; rewrite drop_columnE //; last by move/eqP: ne; lia.
  by rewrite -/(unbump (i %/ 2) j) unbumpK // inE.
case: eqP => // /eqP sne; case: ifP => sp [<-].
  split; rewrite ?(proj1 (neg y sv)) ?sqN //.
    by move=> j hj' ne; rewrite (sumN y (fun k => mget d (l_r T) k j)) // ort2 // oppr0.
  by move=> _; rewrite (sumN y (fun k => mget d (l_r T) k (i %/ 2))) // oppr_lt0 -spE.
by split=> // _; rewrite -spE lt_neqAle sne leNgt sp.
Qed.
End QR.
