(** Proofs about M_SparseLA. *)
From mathcomp Require Import all_ssreflect all_algebra zify.
From Verif Require Import M_Base L_Base M_SparseLA S_SparseLA.
Set Implicit Arguments. Unset Strict Implicit. Unset Printing Implicit Defensive.
Import Order.TTheory GRing.Theory Num.Theory.
Local Open Scope ring_scope.

Section Dot.
Variables (F : realFieldType) (n : nat).
Implicit Types (u v w : 'cV[F]_n).

Lemma dotC u v : dot u v = dot v u.
Proof. by apply: eq_bigr => i _; rewrite mulrC. Qed.
Lemma dotDl u v w : dot (u + v) w = dot u w + dot v w.
Proof. by rewrite -big_split; apply: eq_bigr => i _; rewrite mxE mulrDl. Qed.
Lemma dotZl a u v : dot (a *: u) v = a * dot u v.
Proof. by rewrite mulr_sumr; apply: eq_bigr => i _; rewrite mxE mulrA. Qed.
Lemma dotDr u v w : dot w (u + v) = dot w u + dot w v.
Proof. by rewrite dotC dotDl !(dotC w). Qed.
Lemma dotZr a u v : dot u (a *: v) = a * dot u v.
Proof. by rewrite dotC dotZl dotC. Qed.
Lemma dotBr u v w : dot w (u - v) = dot w u - dot w v.
Proof. by rewrite -scaleN1r dotDr dotZr mulN1r. Qed.
Lemma dotBl u v w : dot (u - v) w = dot u w - dot v w.
Proof. by rewrite dotC dotBr !(dotC w). Qed.
Lemma dot0l v : dot 0 v = 0.
Proof. by apply: big1 => i _; rewrite mxE mul0r. Qed.
Lemma dot_ge0 v : 0 <= dot v v.
Proof. by apply: sumr_ge0 => i _; exact: sqr_ge0. Qed.
Lemma dot_eq0 v : (dot v v == 0) = (v == 0).
Proof.
apply/eqP/eqP => [h|->]; last exact: dot0l.
apply/matrixP => i j; rewrite [j]ord1 !mxE.
have := psumr_eq0P (fun k _ => sqr_ge0 (v k 0)) h => /(_ i isT) /eqP.
by rewrite mulf_eq0 orbb => /eqP.
Qed.
Lemma dotE u v : dot u v = (u^T *m v) 0 0.
Proof. by rewrite !mxE; apply: eq_bigr => i _; rewrite mxE. Qed.
Lemma dot_sym (M : 'M[F]_n) u v : symmetric M -> dot u (M *m v) = dot v (M *m u).
Proof.
move=> hM; rewrite !dotE; have -> : (u^T *m (M *m v)) = (v^T *m (M *m u))^T.
  by rewrite !trmx_mul trmxK hM mulmxA.
by rewrite mxE.
Qed.
End Dot.

Section Heap.
Variable F : realFieldType.
Implicit Types (h : heap F).

Lemma inner_productE n (l r : seq F) : size l = n -> size r = n ->
  inner_product l r = Ok (dot (vec n l) (vec n r)).
Proof.
move=> hl hr; rewrite /inner_product hl hr eqxx; congr Ok; rewrite /dot.
have H m : (m <= n)%N -> for_ m (fun i p => p + nth 0 l i * nth 0 r i) 0 =
    \sum_(i < n | (i < m)%N) nth 0 l i * nth 0 r i.
  elim: m => [_|m IH hm]; first by rewrite for_0 big_pred0.
  rewrite for_S IH ?(ltnW hm) // [RHS](bigD1 (Ordinal hm)) //= addrC; congr (_ + _).
  by apply: eq_bigl => i; rewrite -val_eqE /=; lia.
rewrite H //; under [RHS]eq_bigr do rewrite !mxE.
by apply: eq_bigl => i; rewrite ltn_ord.
Qed.

Lemma linear_combinationE n lf (l : seq F) rf r : size l = n -> size r = n ->
  exists c, [/\ linear_combination lf l rf r = Ok c, size c = n &
                vec n c = lf *: vec n l + rf *: vec n r].
Proof.
move=> hl hr; rewrite /linear_combination hl hr eqxx; eexists; split; first by [].
  by rewrite (@size_for_assign _ _ id) size_nseq.
apply/matrixP => i j; rewrite !mxE.
by rewrite (@nth_for_assign_in _ 0 n id (fun k _ => lf * nth 0 l k + rf * nth 0 r k)) ?size_nseq.
Qed.

(** Whatever the aliasing, the result is that of the old values. *)
Lemma lin_toE n lf l rf r res h : size (h l) = n -> size (h r) = n -> size (h res) = n ->
  exists h', [/\ linear_combination_to lf l rf r res h = Ok h', forall a, size (h' a) = size (h a),
    vec n (h' res) = lf *: vec n (h l) + rf *: vec n (h r) & forall a, a != res -> h' a = h a].
Proof.
move=> hl hr hs; rewrite /linear_combination_to hl hr hs eqxx /=; eexists; split; first by [].
- elim: {1}n => [//|m IH] a; rewrite for_S /hset; case: eqP => [->|_]; last exact: IH.
  by rewrite size_upd IH.
- set body := fun i h => _.
  have H m : (m <= n)%N -> let h' := for_ m body h in
     [/\ forall a, size (h' a) = size (h a), forall a, a != res -> h' a = h a &
         forall i, nth 0 (h' res) i = if (i < m)%N then lf * nth 0 (h l) i + rf * nth 0 (h r) i
                                     else nth 0 (h res) i].
    elim: m => [//|m IH] hm; have [h1 h2 h3] := IH (ltnW hm); rewrite for_S.
    move: h1 h2 h3; set g := for_ m body h => h1 h2 h3.
    have old a : nth 0 (g a) m = nth 0 (h a) m.
      by case: (eqVneq a res) => [->|ha]; [rewrite h3 ltnn | rewrite h2].
    rewrite /= /body /hset; split => a.
    + by case: eqP => [->|_]; rewrite ?size_upd h1.
    + by move=> ne; rewrite (negbTE ne) h2.
    + rewrite eqxx nth_upd h1 hs hm andbT !old h3.
      case: (eqVneq a m) => [->|ne]; first by rewrite leqnn.
      by rewrite ltnS [(a <= m)%N]leq_eqVlt (negbTE ne).
  have [_ _ H3] := H n (leqnn n).
  by apply/matrixP => i j; rewrite !mxE H3 ltn_ord.
- move=> a ha; elim: {1}n => [//|m IH]; rewrite for_S /hset (negbTE ha); exact: IH.
Qed.
End Heap.

Section CG.
Variables (F : realFieldType) (n : nat) (A : seq F -> outcome (seq F)) (M : 'M[F]_n).
Hypothesis AM : implements A M.


Record st := St { sx : 'cV[F]_n; sr : 'cV[F]_n; sd : 'cV[F]_n }.
Definition alpha s := dot (sr s) (sr s) / dot (sd s) (M *m sd s).
Definition nextr s := sr s - alpha s *: (M *m sd s).
Definition beta s := dot (nextr s) (nextr s) / dot (sr s) (sr s).
Definition next s : st :=
  St (sx s + alpha s *: sd s) (nextr s) (nextr s + beta s *: sd s).

Definition rep (h : heap F) s :=
  [/\ [/\ size (h vx) = n, size (h vr) = n & size (h vd) = n],
      vec n (h vx) = sx s, vec n (h vr) = sr s & vec n (h vd) = sd s].

Lemma cg_loop_step tol k used h s : rep h s ->
  let rsq := dot (sr s) (sr s) in
  let rsq' := dot (sr (next s)) (sr (next s)) in
  exists2 h', rep h' (next s) &
  cg_loop A tol k.+1 used h rsq =
    if dot (sd s) (M *m sd s) == 0 then Throw else if rsq == 0 then Throw else
    if rsq' < tol * tol then Ok (h' vx, used.+1) else cg_loop A tol k used.+1 h' rsq'.
Proof.
case=> -[zx zr zd] ex er ed /=.
have [z [eA hz vz']] := AM zd; rewrite eA /=; set h0 := hset h vz z.
have [z0x z0r z0d] : [/\ h0 vx = h vx, h0 vr = h vr & h0 vd = h vd] by [].
have e0z : h0 vz = z by rewrite /h0 /hset eqxx.
rewrite (@inner_productE _ n) ?z0d ?e0z //= vz' ed.
have [h1 [E1 s1 v1 f1]] := @lin_toE F n 1 vx (alpha s) vd vx h0 zx zd zx.
have [h2 [E2 s2 v2 f2]] : exists h2, [/\ linear_combination_to 1 vr (- alpha s) vz vr h1 = Ok h2,
   forall a, size (h2 a) = size (h1 a), vec n (h2 vr) = 1 *: vec n (h1 vr) - alpha s *: vec n (h1 vz)
   & forall a, a != vr -> h2 a = h1 a].
  have := @lin_toE F n 1 vr (- alpha s) vz vr h1; rewrite !s1 !e0z !z0r zr hz => /(_ erefl erefl erefl).
  by case=> h2 [? ? e ?]; exists h2; split => //; rewrite e scaleNr.
have r2 : vec n (h2 vr) = nextr s.
  by rewrite v2 !f1 // z0r e0z vz' er ed scale1r.
have [h3 [E3 s3 v3 f3]] : exists h3, [/\ linear_combination_to 1 vr (beta s) vd vd h2 = Ok h3,
   forall a, size (h3 a) = size (h2 a), vec n (h3 vd) = 1 *: vec n (h2 vr) + beta s *: vec n (h2 vd)
   & forall a, a != vd -> h3 a = h2 a].
  by apply: lin_toE; rewrite !s2 !s1 ?z0r ?z0d.
have zr2 : size (h2 vr) = n by rewrite s2 s1 z0r.
exists h3.
  split; first by rewrite !s3 !s2 !s1 z0x z0r z0d.
  - by rewrite f3 // f2 // v1 z0x z0d ex ed scale1r.
  - by rewrite f3.
  - by rewrite v3 r2 f2 // f1 // z0d ed scale1r.
case: eqP => // _; rewrite -/(alpha s) E1 /= E2 /= (@inner_productE _ n) //= r2.
by case: eqP => // _; rewrite -/(beta s) E3.
Qed.

(** C30: the residual of the recurrence is the true residual. *)
Lemma next_residual b s : sr s = b - M *m sx s -> sr (next s) = b - M *m sx (next s).
Proof. by move=> /= e; rewrite /nextr e mulmxDr -scalemxAr opprD addrA. Qed.

Lemma cg_loop_sound tol b k used h s x m : rep h s -> sr s = b - M *m sx s ->
  cg_loop A tol k used h (dot (sr s) (sr s)) = Ok (x, m) ->
  [/\ size x = n, dot (b - M *m vec n x) (b - M *m vec n x) < tol * tol & (used < m <= used + k)%N].
Proof.
elim: k used h s => [//|k IH] used h s hs hr.
have [h' hs' ->] := @cg_loop_step tol k used h s hs.
case: ifP => // _; case: ifP => // _; case: ifP => [hlt [<- <-]|_].
  case: hs' => -[zx _ _] ex _ _; split => //; last by lia.
  by rewrite ex -next_residual.
by move=> /IH [] //; [exact: next_residual | move=> h1 h2 h3; split => //; lia].
Qed.

Lemma vec_zero : vec n (nseq n (0 : F)) = 0.
Proof. by apply/matrixP => i j; rewrite !mxE nth_nseq; case: ifP. Qed.

Lemma cg_run_sound b N tol x m : size b = n -> cg_run A b N tol = Ok (x, m) ->
  [/\ size x = n, dot (vec n b - M *m vec n x) (vec n b - M *m vec n x) < tol * tol &
      (m <= if N == 0%N then n else N)%N].
Proof.
move=> hb; rewrite /cg_run /= /hset /= (@inner_productE _ n) //= hb.
case: ifP => [h [<- <-]|_].
  by rewrite size_nseq vec_zero mulmx0 subr0; split.
case: ifP => // _ /(@cg_loop_sound _ (vec n b) _ _ _ (St 0 (vec n b) (vec n b))) [].
- by split => //=; rewrite ?size_nseq ?vec_zero.
- by rewrite /= mulmx0 subr0.
- by move=> h1 h2 /andP[_ h3]; split.
Qed.

(** C31: Krylov argument. *)
Variable U : 'cV[F]_n -> Prop.
Hypothesis UM : invariant_subspace U M.
Hypothesis aniso : anisotropic U M.
Hypothesis symM : symmetric M.
Variable b : 'cV[F]_n.
Hypothesis Ub : U b.

Definition ss k := iter k next (St 0 b b).
Local Notation r k := (sr (ss k)).
Local Notation d k := (sd (ss k)).
Lemma rS k : r k.+1 = r k - alpha (ss k) *: (M *m d k). Proof. by []. Qed.
Lemma dS k : d k.+1 = r k.+1 + beta (ss k) *: d k. Proof. by []. Qed.

Lemma in_U k : U (r k) /\ U (d k).
Proof.
have [U1 U2] := UM; elim: k => [//|k [hr hd]].
have h : U (r k.+1) by rewrite rS -scaleNr; apply: U1 => //; exact: U2.
by split => //; rewrite dS; apply: U1.
Qed.

Definition Inv k := [/\ 
  forall i j, (i < j <= k)%N -> dot (r j) (d i) = 0,
  forall i j, (i < j <= k)%N -> dot (r j) (r i) = 0,
  forall i j, (i < j <= k)%N -> dot (d j) (M *m d i) = 0 &
  forall j, (j <= k)%N -> dot (r j) (d j) = dot (r j) (r j)].

Lemma dAd_neq0 k : dot (r k) (d k) = dot (r k) (r k) -> r k != 0 -> dot (d k) (M *m d k) != 0.
Proof.
move=> h hr; apply: aniso; first by have [] := in_U k.
by apply/eqP => h0; move: h; rewrite h0 dotC dot0l => /esym/eqP; rewrite dot_eq0 (negbTE hr).
Qed.

Lemma Inv_holds k : (forall j, (j < k)%N -> r j != 0) -> Inv k.
Proof.
elim: k => [|k IH] hne.
  by split => [i j|i j|i j|j]; rewrite ?leqn0; try lia; move=> /eqP ->.
have [I1 I2 I3 I4] := IH (fun j hj => hne j (ltnW hj)).
have rk : r k != 0 by apply: hne.
have rho : dot (r k) (r k) != 0 by rewrite dot_eq0.
have dAd : dot (d k) (M *m d k) != 0 by apply: dAd_neq0 => //; apply: I4.
have al j : (j <= k)%N -> alpha (ss j) != 0.
  move=> hj; rewrite /alpha mulf_neq0 ?invr_eq0 ?dot_eq0 ?hne //.
  by apply: dAd_neq0; [apply: I4 | apply: hne].
have J1 i : (i <= k)%N -> dot (r k.+1) (d i) = 0.
  rewrite rS dotBl dotZl leq_eqVlt => /orP[/eqP ->|hi].
    by rewrite I4 // (dotC (M *m _)) /alpha divfK // subrr.
  by rewrite I1 ?hi ?leqnn // dotC (dot_sym _ _ symM) I3 ?hi ?leqnn // mulr0 subr0.
have J2 i : (i <= k)%N -> dot (r k.+1) (r i) = 0.
  case: i => [|i] hi; first exact: (J1 0%N).
  have -> : r i.+1 = d i.+1 - beta (ss i) *: d i by rewrite dS addrK.
  by rewrite dotBr dotZr !J1 ?(ltnW hi) // mulr0 subrr.
have Md i : (i <= k)%N -> M *m d i = (alpha (ss i))^-1 *: (r i - r i.+1).
  by move=> hi; rewrite rS opprB addrC subrK scalerA mulVf ?scale1r // al.
have J3 i : (i <= k)%N -> dot (d k.+1) (M *m d i) = 0.
  rewrite leq_eqVlt dS dotDl dotZl => /orP[/eqP ->|hi].
    rewrite {1}Md // dotZr dotBr J2 // sub0r /beta -/(r k.+1) /alpha invf_div.
    have -> : nextr (ss k) = r k.+1 by [].
    by rewrite mulrN mulrAC -mulrA [X in _ + X]mulrC mulrA addNr.
  by rewrite Md 1?ltnW // dotZr dotBr !J2 ?(ltnW hi) // subrr mulr0 add0r
             -Md 1?ltnW // I3 ?hi ?leqnn // mulr0.
have J4 : dot (r k.+1) (d k.+1) = dot (r k.+1) (r k.+1).
  by rewrite dS dotDr dotZr J1 // mulr0 addr0.
split => [i j|i j|i j|j].
- by move=> /andP[hij]; rewrite leq_eqVlt => /orP[/eqP e|hj]; [rewrite e; apply: J1; lia | apply: I1; lia].
- by move=> /andP[hij]; rewrite leq_eqVlt => /orP[/eqP e|hj]; [rewrite e; apply: J2; lia | apply: I2; lia].
- by move=> /andP[hij]; rewrite leq_eqVlt => /orP[/eqP e|hj]; [rewrite e; apply: J3; lia | apply: I3; lia].
- by rewrite leq_eqVlt => /orP[/eqP ->|hj]; [exact: J4 | apply: I4; lia].
Qed.

(** More than n mutually orthogonal non-zero vectors do not exist. *)
Lemma orth_bound m (v : nat -> 'cV[F]_n) :
  (forall i j, (i < j < m)%N -> dot (v j) (v i) = 0) -> (forall i, (i < m)%N -> v i != 0) -> (m <= n)%N.
Proof.
move=> ho hn; pose R : 'M[F]_(m, n) := \matrix_(i, j) v i j 0.
have RR : R *m R^T = diag_mx (\row_i dot (v i) (v i)).
  apply/matrixP => i j; rewrite !mxE.
  have -> : \sum_k R i k * R^T k j = dot (v i) (v j) by apply: eq_bigr => k _; rewrite !mxE.
  case: (eqVneq i j) => [->|ne]; first by rewrite mulr1n.
  rewrite mulr0n; have [h|h|h] := ltngtP i j.
  - by rewrite dotC ho // h ltn_ord.
  - by rewrite ho // h ltn_ord.
  - by rewrite (ord_inj h) eqxx in ne.
have : R *m R^T \in unitmx.
  rewrite unitmxE RR det_diag unitfE; apply/prodf_neq0 => i _.
  by rewrite mxE dot_eq0 hn.
move=> /mxrank_unit hr; rewrite -{1}hr.
exact: leq_trans (mxrankM_maxl _ _) (rank_leq_col _).
Qed.

Lemma some_zero : exists2 k, (k <= n)%N & r k = 0.
Proof.
case: (boolP [exists k : 'I_n.+1, r k == 0]) => [/existsP[k /eqP hk]|/existsPn H].
  by exists k => //; rewrite -ltnS ltn_ord.
have hne i : (i < n.+1)%N -> r i != 0 by move=> hi; exact: (H (Ordinal hi)).
have [_ I2 _ _] := Inv_holds hne.
have := @orth_bound n.+1 (fun i => r i) _ hne.
by rewrite ltnn => h; suff : false by []; apply: h => i j /andP[hij hj]; apply: I2; lia.
Qed.

Lemma cg_loop_total tol k j h : 0 < tol -> rep h (ss j) -> (j + k = n)%N -> (0 < k)%N ->
  (forall i, (i <= j)%N -> ~~ (dot (r i) (r i) < tol * tol)) ->
  exists xm, cg_loop A tol k j h (dot (r j) (r j)) = Ok xm.
Proof.
move=> ht; have tt : 0 < tol * tol by rewrite mulr_gt0.
elim: k j h => [//|k IH] j h hs hjk _ big.
have hne i : (i <= j)%N -> r i != 0.
  by move=> hi; apply/eqP => e; move: (big i hi); rewrite e dot0l tt.
have [h' hs' ->] := @cg_loop_step tol k j h _ hs.
have [_ _ _ I4] := @Inv_holds j.+1 hne.
rewrite (negbTE (dAd_neq0 (I4 _ _) (hne _ _))) // dot_eq0 (negbTE (hne _ _)) //.
case: ifPn => [_|big']; first by eexists.
case: k IH hjk => [|k] IH hjk.
  have [i hi e] := some_zero; have : ~~ (dot (r i) (r i) < tol * tol).
    have hi' : (i <= j.+1)%N by lia.
    by move: hi'; rewrite leq_eqVlt => /orP[/eqP ->|]; [exact: big' | rewrite ltnS; exact: big].
  by rewrite e dot0l tt.
apply: (IH j.+1) => //; first by lia.
by move=> i; rewrite leq_eqVlt => /orP[/eqP ->|]; [exact: big' | rewrite ltnS; exact: big].
Qed.
End CG.

Lemma cg_total (F : realFieldType) n (A : seq F -> outcome (seq F)) (M : 'M[F]_n) U (b : seq F) tol :
  implements A M -> invariant_subspace U M -> anisotropic U M -> symmetric M ->
  size b = n -> U (vec n b) -> 0 < tol -> exists xm, cg_run A b 0 tol = Ok xm.
Proof.
move=> AM UM an sy hb Ub ht; have tt : 0 < tol * tol by rewrite mulr_gt0.
rewrite /cg_run /= /hset /= (@inner_productE _ n) //= hb.
case: ifPn => [_|big]; first by eexists.
case: (posnP n) => [e|hn].
  move: big; have -> : vec n b = 0 by apply/matrixP => i; have := ltn_ord i; rewrite {2}e.
  by rewrite dot0l tt.
apply: (@cg_loop_total F n A M AM U UM an sy (vec n b) Ub tol n 0) => //.
- by split => //=; rewrite ?size_nseq ?vec_zero.
- by move=> i; rewrite leqn0 => /eqP ->.
Qed.

Lemma cg_total_bound (F : realFieldType) n (A : seq F -> outcome (seq F)) (M : 'M[F]_n) b N tol x m :
  implements A M -> size b = n -> cg_run A b N tol = Ok (x, m) -> (m <= if N == 0%N then n else N)%N.
Proof. by move=> AM hb /(cg_run_sound AM hb) []. Qed.

(** Zero tolerance never succeeds. *)
Lemma cg_loop_tol0 (F : realFieldType) n (A : seq F -> outcome (seq F)) (M : 'M[F]_n) b N :
  implements A M -> size b = n -> forall xm, cg_run A b N 0 <> Ok xm.
Proof.
move=> AM hb [x m] /(cg_run_sound AM hb) [_]; rewrite mulr0 => h _.
by move: (dot_ge0 (vec n b - M *m vec n x)); rewrite leNgt h.
Qed.

Lemma inner_product_sym (F : realFieldType) (l r : seq F) : inner_product l r = inner_product r l.
Proof.
case: (eqVneq (size l) (size r)) => e.
  by rewrite (@inner_productE _ (size l)) // (@inner_productE _ (size l) r) // dotC.
by rewrite /inner_product (negbTE e) eq_sym (negbTE e).
Qed.
Lemma dot_bilinear (F : realFieldType) (n : nat) (a : F) (u v w : 'cV[F]_n) :
  dot (a *: u + v) w = a * dot u w + dot v w /\ dot w (a *: u + v) = a * dot w u + dot w v.
Proof. by rewrite dotDl dotZl dotDr dotZr. Qed.
Lemma inner_product_pos (F : realFieldType) (v : seq F) : exists2 p, inner_product v v = Ok p &
  (0 <= p) && ((p == 0) == all (fun x => x == 0) v).
Proof.
exists (dot (vec (size v) v) (vec (size v) v)); first exact: inner_productE.
rewrite dot_ge0 /= dot_eq0; apply/eqP; apply/eqP/allP => [h x /(nthP 0) [i hi <-]|h].
  by have /matrixP/(_ (Ordinal hi) 0) := h; rewrite !mxE /= => ->.
by apply/matrixP => i j; rewrite !mxE; apply/eqP; apply: h; apply: mem_nth.
Qed.
Lemma norm_2E (F : rcfType) (v : seq F) : exists2 p, norm_2 Num.sqrt v = Ok p &
  0 <= p /\ inner_product v v = Ok (p ^+ 2).
Proof.
rewrite /norm_2 (@inner_productE _ (size v)) //=; eexists; first by [].
by rewrite sqrtr_ge0 sqr_sqrtr // dot_ge0.
Qed.
Lemma mismatch (F : realFieldType) (lf : F) (l : seq F) (rf : F) (r : seq F) (a b c : nat)
    (h : heap F) :
  (size l != size r -> inner_product l r = Abort /\ linear_combination lf l rf r = Abort) /\
  ((size (h a) != size (h b)) || (size (h a) != size (h c)) ->
     linear_combination_to lf a rf b c h = Abort).
Proof.
split; first by rewrite /inner_product /linear_combination => /negbTE ->.
by rewrite /linear_combination_to -negb_and => /negbTE ->.
Qed.
Lemma cg_sound (F : realFieldType) (n : nat) (A : seq F -> outcome (seq F)) (M : 'M[F]_n)
    (b : seq F) (N : nat) (tol : F) (x : seq F) :
  implements A M -> size b = n -> (conjugate_gradient A b N tol).1 = Ok x ->
  size x = n /\ dot (vec n b - M *m vec n x) (vec n b - M *m vec n x) < tol * tol.
Proof.
move=> AM hb; rewrite /conjugate_gradient /=.
case E : (cg_run A b N tol) => [[y m]| | |] //= [<-].
by have [? ? _] := cg_run_sound AM hb E.
Qed.
Lemma cg_returns (F : realFieldType) (n : nat) (A : seq F -> outcome (seq F)) (M : 'M[F]_n)
    (U : 'cV[F]_n -> Prop) (b : seq F) (tol : F) :
  implements A M -> invariant_subspace U M -> anisotropic U M -> symmetric M ->
  size b = n -> U (vec n b) -> 0 < tol -> exists x, (conjugate_gradient A b 0 tol).1 = Ok x.
Proof.
move=> h1 h2 h3 h4 h5 h6 h7; have [[x m] e] := cg_total h1 h2 h3 h4 h5 h6 h7.
by exists x; rewrite /conjugate_gradient /= e.
Qed.
Lemma cg_spd (F : realFieldType) (n : nat) (A : seq F -> outcome (seq F)) (M : 'M[F]_n)
    (b : seq F) (tol : F) :
  implements A M -> symmetric M -> (forall u : 'cV[F]_n, u != 0 -> 0 < dot u (M *m u)) ->
  size b = n -> 0 < tol -> exists x, (conjugate_gradient A b 0 tol).1 = Ok x.
Proof.
move=> h1 h2 h3 h4 h5; apply: (@cg_returns _ _ _ _ (fun _ => True)) h1 _ _ h2 h4 _ h5 => //.
by move=> u _ /h3; apply: lt0r_neq0.
Qed.
Lemma cg_tol0 (F : realFieldType) (n : nat) (A : seq F -> outcome (seq F)) (M : 'M[F]_n)
    (b : seq F) (N : nat) : implements A M -> size b = n ->
  forall x, (conjugate_gradient A b N 0).1 <> Ok x.
Proof.
move=> AM hb x; rewrite /conjugate_gradient /=.
case E : (cg_run A b N 0) => [xm| | |] //= _.
exact: cg_loop_tol0 AM hb _ E.
Qed.
Lemma cg_iterations_lost :
  exists (A : seq rat -> outcome (seq rat)) (b : seq rat) (N : nat) (tol : rat),
  exists x m, cg_run A b N tol = Ok (x, m) /\ (conjugate_gradient A b N tol).2 != m.
Proof.
by exists (fun v => Ok v), [:: 0], 5%N, 1, [:: 0], 0%N.
Qed.
Lemma cg_example : exists (A : seq rat -> outcome (seq rat)) (M : 'M[rat]_2) (U : 'cV[rat]_2 -> Prop),
  [/\ implements A M, invariant_subspace U M, anisotropic U M, symmetric M & U (vec 2 [:: 3%:Q; 0])].
Proof.
exists (fun v => Ok [:: - nth 0 v 0 *+ 2; 0]).
exists (\matrix_(i, j) (if (i == 0) && (j == 0) then - 2%:Q else 0)).
exists (fun u => u 1 0 = 0).
have E (u : 'cV[rat]_2) : (\matrix_(i, j) (if (i == 0) && (j == 0) then - 2%:Q else 0)) *m u =
   \col_(i < 2) (if i == 0 then - 2%:Q * u 0 0 else 0).
  apply/matrixP => i j; rewrite !mxE !big_ord_recl big_ord0 !mxE /= [j]ord1 andbT andbF mul0r !addr0.
  by case: ifP => _ //; rewrite mul0r.
split.
- move=> v hv; eexists; split; [reflexivity | reflexivity|].
  rewrite E; apply/matrixP => i j; rewrite !mxE.
  case: i => -[|[|//]] hi /=; last by [].
  by rewrite mulNr mulr_natl mulNrn.
- split => [u v a h1 h2|u _]; first by rewrite !mxE h1 h2 mulr0 addr0.
  by rewrite E mxE.
- move=> u hu hne; rewrite E /dot !big_ord_recl big_ord0 !mxE /= mulr0 !addr0.
  rewrite mulrCA mulNr oppr_eq0 mulf_neq0 //.
  rewrite mulf_eq0 orbb; apply/eqP => h; case/eqP: hne; apply/matrixP => i j.
  rewrite [j]ord1 mxE; case: i => -[|[|//]] hi.
    by rewrite -h; congr (u _ _); apply: val_inj.
  by rewrite -hu; congr (u _ _); apply: val_inj.
- by apply/matrixP => i j; rewrite !mxE andbC.
- by rewrite mxE.
Qed.
