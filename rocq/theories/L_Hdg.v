(** The local HDG problem: unique solvability, symmetry, energy, constants. *)
From mathcomp Require Import all_ssreflect all_algebra ring.
From Verif Require Import S_Hdg.
Set Implicit Arguments. Unset Strict Implicit. Unset Printing Implicit Defensive.
Import Order.TTheory GRing.Theory Num.Theory.
Local Open Scope ring_scope.

Section Dot.
Variable F : realFieldType.
Implicit Types (n m : nat).
Lemma dotvE n (x y : 'cV[F]_n) : dotv x y = (x^T *m y) 0 0.
Proof. by rewrite mxE; apply: eq_bigr => i _; rewrite mxE. Qed.
Lemma dotvC n (x y : 'cV[F]_n) : dotv x y = dotv y x.
Proof. by apply: eq_bigr => i _; rewrite mulrC. Qed.
Lemma dotvDr n (x y z : 'cV[F]_n) : dotv x (y + z) = dotv x y + dotv x z.
Proof. by rewrite !dotvE mulmxDr mxE. Qed.
Lemma dotvZr n c (x y : 'cV[F]_n) : dotv x (c *: y) = c * dotv x y.
Proof. by rewrite !dotvE -scalemxAr mxE. Qed.
Lemma dotvNr n (x y : 'cV[F]_n) : dotv x (- y) = - dotv x y.
Proof. by rewrite -scaleN1r dotvZr mulN1r. Qed.
Lemma dotvBr n (x y z : 'cV[F]_n) : dotv x (y - z) = dotv x y - dotv x z.
Proof. by rewrite dotvDr dotvNr. Qed.
Lemma dotv0r n (x : 'cV[F]_n) : dotv x 0 = 0.
Proof. by rewrite dotvE mulmx0 mxE. Qed.
Lemma dotv_sumr n (I : finType) (x : 'cV[F]_n) (y : I -> 'cV[F]_n) :
  dotv x (\sum_i y i) = \sum_i dotv x (y i).
Proof. by rewrite dotvE mulmx_sumr summxE; apply: eq_bigr => i _; rewrite dotvE. Qed.
Lemma dotvDl n (x y z : 'cV[F]_n) : dotv (x + y) z = dotv x z + dotv y z.
Proof. by rewrite !(dotvC _ z) dotvDr. Qed.
Lemma dotvZl n c (x y : 'cV[F]_n) : dotv (c *: x) y = c * dotv x y.
Proof. by rewrite !(dotvC _ y) dotvZr. Qed.
Lemma dotvBl n (x y z : 'cV[F]_n) : dotv (x - y) z = dotv x z - dotv y z.
Proof. by rewrite !(dotvC _ z) dotvBr. Qed.
Lemma dotv0l n (x : 'cV[F]_n) : dotv 0 x = 0.
Proof. by rewrite dotvC dotv0r. Qed.
Lemma dotv_mxl n m (A : 'M[F]_(n, m)) x y : dotv (A *m x) y = dotv x (A^T *m y).
Proof. by rewrite !dotvE trmx_mul mulmxA. Qed.
Lemma dotv_ge0 n (x : 'cV[F]_n) : 0 <= dotv x x.
Proof. by apply: sumr_ge0 => i _; rewrite -expr2 sqr_ge0. Qed.
Lemma dotv_eq0 n (x : 'cV[F]_n) : (dotv x x == 0) = (x == 0).
Proof.
apply/eqP/eqP => [h|->]; last by rewrite dotv0r.
apply/matrixP => i j; rewrite (ord1 j) mxE; apply/eqP; rewrite -[_ == 0]orbb -mulf_eq0.
by apply/eqP; apply: (psumr_eq0P _ h) => // k _; rewrite -expr2 sqr_ge0.
Qed.
End Dot.

Section Theory.
Variable F : realFieldType.
Variables (nf nb dim nF : nat) (h : hdg F nf nb dim nF) (tau : F).
Hypotheses (hok : hdg_ok h).
Notation M := (hM h). Notation D := (hD h). Notation E := (hE h). Notation B := (hB h).
Notation nu := (hnu h). Notation a := (ha h).

(** The lower left block is the transposed derivative. *)
Lemma lower_left d : - D d + \sum_f nu f d *: B f = (D d)^T.
Proof. by case: hok => _ _ <- _ _; rewrite addKr. Qed.

Lemma area_neq0 f : a f != 0.
Proof. by case: hok => _ _ _ /(_ f)[ha _] _; rewrite gt_eqF. Qed.
Lemma faceB f : B f = (a f)^-1 *: (E f *m (E f)^T).
Proof. by case: hok => _ _ _ /(_ f)[_ <-] _; rewrite scalerA mulVf ?scale1r // area_neq0. Qed.

(** Pairing of the flux of x with another trace y: the HDG bilinear form. *)
Definition form (q' q : 'I_dim -> 'cV[F]_nf) (u' u : 'cV[F]_nf) (y x : 'I_nF -> 'cV[F]_nb) : F :=
  \sum_d dotv (q' d) (M *m q d) +
  tau * (\sum_f (a f)^-1 * dotv ((E f)^T *m u' - a f *: y f) ((E f)^T *m u - a f *: x f)).

Lemma second_eq q u x v : loc_eq h tau q u x ->
  \sum_d dotv v ((D d)^T *m q d) + tau * (\sum_f (a f)^-1 * dotv ((E f)^T *m v) ((E f)^T *m u)) =
  tau * (\sum_f dotv ((E f)^T *m v) (x f)).
Proof.
case=> _ /(congr1 (dotv v)); rewrite dotvDr !dotvZr !dotv_sumr => h2.
transitivity (\sum_d dotv v ((- D d + \sum_f nu f d *: B f) *m q d) +
              tau * (\sum_f dotv v (B f *m u))).
  congr (_ + tau * _); first by apply: eq_bigr => d _; rewrite lower_left.
  apply: eq_bigr => f _; rewrite faceB -scalemxAl dotvZr; congr (_ * _).
  by rewrite dotv_mxl trmxK mulmxA.
by rewrite h2; congr (tau * _); apply: eq_bigr => f _; rewrite dotv_mxl trmxK.
Qed.

Lemma energy q u x q' u' y : loc_eq h tau q u x -> loc_eq h tau q' u' y ->
  \sum_f dotv (y f) (num_flux h tau q u x f) = - form q' q u' u y x.
Proof.
move=> ex [ey1 _]; have := second_eq u' ex.
have step d : dotv (q' d) (M *m q d) - dotv u' ((D d)^T *m q d) =
    - (\sum_f nu f d * dotv (y f) ((E f)^T *m q d)).
  have := congr1 (fun z => dotv z (q d)) (ey1 d); rewrite dotvBl.
  rewrite !dotv_mxl; case: hok => -> _ _ _ _ ->; rewrite dotvC dotvNr dotv_sumr; congr (- _).
  by apply: eq_bigr => f _; rewrite dotvZr dotvC dotv_mxl.
have -> : \sum_f dotv (y f) (num_flux h tau q u x f) =
  \sum_d \sum_f nu f d * dotv (y f) ((E f)^T *m q d) +
  tau * (\sum_f dotv (y f) ((E f)^T *m u)) - tau * (\sum_f a f * dotv (y f) (x f)).
  rewrite [in RHS]exchange_big /= !mulr_sumr -big_split -sumrB /=; apply: eq_bigr => f _.
  rewrite /num_flux dotvBr dotvDr !dotvZr dotv_sumr mulrA; congr (_ + _ - _).
  by apply: eq_bigr => d _; rewrite dotvZr.
have -> : \sum_d \sum_f nu f d * dotv (y f) ((E f)^T *m q d) =
   \sum_d dotv u' ((D d)^T *m q d) - \sum_d dotv (q' d) (M *m q d).
  by rewrite -sumrB; apply: eq_bigr => d _; rewrite -[RHS]opprB step opprK.
rewrite /form => /eqP; rewrite eq_sym -subr_eq => /eqP <-.
have -> : \sum_f (a f)^-1 * dotv ((E f)^T *m u' - a f *: y f) ((E f)^T *m u - a f *: x f) =
   \sum_f (a f)^-1 * dotv ((E f)^T *m u') ((E f)^T *m u) - \sum_f dotv ((E f)^T *m u') (x f) -
   \sum_f dotv (y f) ((E f)^T *m u) + \sum_f a f * dotv (y f) (x f).
  rewrite -!sumrB -big_split /=; apply: eq_bigr => f _.
  by rewrite dotvBl !dotvBr !dotvZl !dotvZr; field; exact: area_neq0.
by ring.
Qed.

Lemma form_sym q' q u' u y x : form q' q u' u y x = form q q' u u' x y.
Proof.
rewrite /form; congr (_ + tau * _); apply: eq_bigr => i _; last by rewrite dotvC.
by rewrite dotvC dotv_mxl; case: hok => ->.
Qed.

Lemma mass_ge0 q : 0 <= dotv q (M *m q).
Proof.
have [->|q0] := eqVneq q 0; first by rewrite dotv0l.
by case: hok => _ /(_ _ q0)/ltW.
Qed.
Lemma mass_eq0 q : dotv q (M *m q) = 0 -> q = 0.
Proof.
move=> h0; apply/eqP; apply: contraT => q0.
by case: hok => _ /(_ _ q0); rewrite h0 ltxx.
Qed.

Lemma form_ge0 q u x : 0 <= tau -> 0 <= form q q u u x x.
Proof.
move=> t0; rewrite addr_ge0 //; first by apply: sumr_ge0 => d _; exact: mass_ge0.
rewrite mulr_ge0 //; apply: sumr_ge0 => f _; rewrite mulr_ge0 ?dotv_ge0 // invr_ge0 ltW //.
by case: hok => _ _ _ /(_ f)[].
Qed.

Lemma form_eq0 q u x : 0 < tau -> form q q u u x x = 0 ->
  (forall d, q d = 0) /\ (forall f, (E f)^T *m u = a f *: x f).
Proof.
move=> t0; have ha f : 0 < a f by case: hok => _ _ _ /(_ f)[].
have h1 : 0 <= \sum_d dotv (q d) (M *m q d) by apply: sumr_ge0 => d _; exact: mass_ge0.
have g2 f : 0 <= (a f)^-1 * dotv ((E f)^T *m u - a f *: x f) ((E f)^T *m u - a f *: x f).
  by rewrite mulr_ge0 ?dotv_ge0 // invr_ge0 ltW.
have h2 : 0 <= tau * (\sum_f (a f)^-1 * dotv ((E f)^T *m u - a f *: x f) ((E f)^T *m u - a f *: x f)).
  by rewrite mulr_ge0 ?(ltW t0) //; apply: sumr_ge0.
move=> /eqP; rewrite /form paddr_eq0 // => /andP[/eqP e1 /eqP e2]; split=> [d|f].
  by apply: mass_eq0; apply: (psumr_eq0P _ e1) => // k _; exact: mass_ge0.
move/eqP: e2; rewrite mulf_eq0 gt_eqF //= => /eqP e2.
have /eqP := psumr_eq0P (fun f _ => g2 f) e2 (erefl (xpredT f)).
by rewrite mulf_eq0 invr_eq0 gt_eqF //= dotv_eq0 subr_eq0 => /eqP.
Qed.

(** The homogeneous local problem has only the zero solution. *)
Lemma loc_unique0 q u : 0 < tau -> loc_eq h tau q u (fun=> 0) -> (forall d, q d = 0) /\ u = 0.
Proof.
move=> t0 hl; have := energy hl hl; rewrite big1; last by move=> f _; rewrite dotv0l.
move=> /eqP; rewrite eq_sym oppr_eq0 => /eqP /(form_eq0 t0)[hq hu]; split=> //.
case: hok => _ _ _ _; apply=> [d|f]; last by rewrite hu scaler0.
case: hl => /(_ d); rewrite hq mulmx0 sub0r => /eqP; rewrite eqr_opp => /eqP -> _.
by rewrite big1 // => f _; rewrite mulmx0 scaler0.
Qed.

Lemma loc_lin c q u x q' u' y : loc_eq h tau q u x -> loc_eq h tau q' u' y ->
  loc_eq h tau (fun d => c *: q d + q' d) (c *: u + u') (fun f => c *: x f + y f).
Proof.
case=> e1 e2 [e3 e4]; split=> [d|].
  have -> : M *m (c *: q d + q' d) - D d *m (c *: u + u') =
     c *: (M *m q d - D d *m u) + (M *m q' d - D d *m u').
    by rewrite !mulmxDr -!scalemxAr scalerBr opprD addrACA.
  rewrite e1 e3 scalerN -opprD scaler_sumr -big_split /=; congr (- _); apply: eq_bigr => f _.
  by rewrite mulmxDr -scalemxAr scalerDr !scalerA mulrC.
transitivity (c *: (tau *: (\sum_f (E f *m x f))) + tau *: (\sum_f (E f *m y f))).
  rewrite -e2 -e4 !scalerDr addrACA !scaler_sumr -!big_split /=.
  congr (_ + _); apply: eq_bigr => i _; rewrite mulmxDr -scalemxAr // scalerDr.
  by rewrite !scalerA [c * _]mulrC.
rewrite !scaler_sumr -big_split /=; apply: eq_bigr => f _.
by rewrite mulmxDr -scalemxAr scalerDr !scalerA [c * _]mulrC.
Qed.

Lemma loc_eq_ext q u x q' u' y : (forall d, q d = q' d) -> u = u' -> (forall f, x f = y f) ->
  loc_eq h tau q u x -> loc_eq h tau q' u' y.
Proof.
move=> hq <- hx [e1 e2]; split=> [d|].
  by rewrite -hq e1; congr (- _); apply: eq_bigr => f _; rewrite hx.
rewrite -[LHS](_ : \sum_d ((- D d + \sum_f nu f d *: B f) *m q d) + tau *: (\sum_f (B f *m u)) = _).
  by rewrite e2; congr (_ *: _); apply: eq_bigr => f _; rewrite hx.
by congr (_ + _); apply: eq_bigr => d _; rewrite hq.
Qed.

Lemma loc_unique q u q' u' x : 0 < tau -> loc_eq h tau q u x -> loc_eq h tau q' u' x ->
  (forall d, q d = q' d) /\ u = u'.
Proof.
move=> t0 h1 h2; have := loc_lin (-1) h2 h1.
move/(loc_eq_ext (fun=> erefl) erefl (fun f => (_ : -1 *: x f + x f = (fun=> 0) f))).
have hz f : -1 *: x f + x f = (fun=> 0) f by rewrite scaleN1r addNr.
move=> /(_ hz) /(loc_unique0 t0)[hq hu]; split=> [d|].
  by apply/eqP; rewrite -subr_eq0 addrC -scaleN1r hq.
by apply/eqP; rewrite -subr_eq0 addrC -scaleN1r hu.
Qed.

Lemma flux_lin c q u x q' u' y f :
  num_flux h tau (fun d => c *: q d + q' d) (c *: u + u') (fun f => c *: x f + y f) f =
  c *: num_flux h tau q u x f + num_flux h tau q' u' y f.
Proof.
rewrite /num_flux [in RHS]scalerBr [in RHS]scalerDr [RHS]addrACA -opprD; congr (_ - _);
  first rewrite [RHS]addrACA; first congr (_ + _).
- rewrite scaler_sumr -big_split /=; apply: eq_bigr => d _.
  by rewrite mulmxDr -scalemxAr scalerDr !scalerA mulrC.
- by rewrite mulmxDr -scalemxAr scalerDr !scalerA mulrC.
by rewrite scalerDr !scalerA mulrC.
Qed.

Lemma flux_ext q u x q' u' y f : (forall d, q d = q' d) -> u = u' -> x f = y f ->
  num_flux h tau q u x f = num_flux h tau q' u' y f.
Proof.
by move=> hq <- hx; rewrite /num_flux hx; congr (_ + _ - _); apply: eq_bigr => d _; rewrite hq.
Qed.

Section Const.
Variables (u0 : 'cV[F]_nf) (e : 'cV[F]_nb).
Hypothesis hc : hdg_const h u0 e.

Lemma loc_const : loc_eq h tau (fun=> 0) u0 (fun=> e).
Proof.
case: hc => hD hE.
have hEe f : E f *m e = B f *m u0 by rewrite faceB -scalemxAl -mulmxA hE -scalemxAr scalerA mulVf ?scale1r // area_neq0.
split=> [d|].
  rewrite mulmx0 sub0r; congr (- _).
  transitivity ((D d + (D d)^T) *m u0); first by rewrite mulmxDl hD addr0.
  case: hok => _ _ -> _ _; rewrite mulmx_suml; apply: eq_bigr => f _.
  by rewrite -scalemxAl hEe.
rewrite big1 ?add0r; last by move=> d _; rewrite mulmx0.
by congr (_ *: _); apply: eq_bigr => f _.
Qed.

Lemma flux_const f : num_flux h tau (fun=> 0) u0 (fun=> e) f = 0.
Proof.
case: hc => hD hE; rewrite /num_flux big1 ?add0r; last by move=> d _; rewrite mulmx0 scaler0.
by rewrite hE scalerA subrr.
Qed.

(** The fluxes of any solution add up to zero against constants. *)
Lemma flux_conserved q u x : loc_eq h tau q u x -> \sum_f dotv e (num_flux h tau q u x f) = 0.
Proof.
move=> hx; rewrite (energy hx loc_const) form_sym -(energy loc_const hx).
by rewrite big1 // => f _; rewrite flux_const dotv0r.
Qed.

Hypothesis hg : hdg_grad h u0.
(** Zero energy only for constant traces. *)
Lemma flux_kernel q u x : 0 < tau -> loc_eq h tau q u x ->
  \sum_f dotv (x f) (num_flux h tau q u x f) = 0 -> exists c, forall f, x f = c *: e.
Proof.
move=> t0 hx; rewrite (energy hx hx) => /eqP; rewrite oppr_eq0 => /eqP /(form_eq0 t0)[hq hu].
have [d|c hcu] := hg (u := u).
  case: hok => _ _ /(_ d) hi _ _; case: hx => /(_ d); rewrite hq mulmx0 sub0r => /eqP.
  rewrite eqr_opp => /eqP h1 _.
  have : (D d + (D d)^T) *m u = D d *m u.
    rewrite hi h1 mulmx_suml; apply: eq_bigr => f _.
    rewrite -scalemxAl; congr (_ *: _).
    by rewrite faceB -scalemxAl -mulmxA hu -scalemxAr scalerA mulVf ?scale1r ?area_neq0.
  by rewrite mulmxDl => /eqP; rewrite -subr_eq0 addrAC subrr add0r => /eqP.
exists c => f; have := hu f; rewrite hcu -scalemxAr; case: hc => _ ->.
move=> hcx; have := congr1 (fun z => (a f)^-1 *: z) hcx; rewrite /= !scalerA.
by rewrite -mulrA mulrCA mulVf ?area_neq0 // mulr1 scale1r => <-.
Qed.
End Const.
End Theory.
