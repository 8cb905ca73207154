(** Theory of the discrete beam equations. *)
From mathcomp Require Import all_ssreflect all_algebra zify ring.
From Verif Require Import S_Beam.
Set Implicit Arguments. Unset Strict Implicit. Unset Printing Implicit Defensive.
Import Order.TTheory GRing.Theory Num.Theory.
Local Open Scope ring_scope.

Section Mdot.
Variable F : realFieldType.
Lemma mdotE m n (A B : 'M[F]_(m, n)) : mdot A B = \tr (A^T *m B).
Proof.
rewrite /mdot /mxtrace exchange_big /=; apply: eq_bigr => j _; rewrite mxE.
by apply: eq_bigr => i _; rewrite mxE.
Qed.
Lemma mdotC m n (A B : 'M[F]_(m, n)) : mdot A B = mdot B A.
Proof. by apply: eq_bigr => i _; apply: eq_bigr => j _; rewrite mulrC. Qed.
Lemma mdotDr m n (A B C : 'M[F]_(m, n)) : mdot A (B + C) = mdot A B + mdot A C.
Proof. by rewrite !mdotE mulmxDr mxtraceD. Qed.
Lemma mdotZr m n c (A B : 'M[F]_(m, n)) : mdot A (c *: B) = c * mdot A B.
Proof. by rewrite !mdotE -scalemxAr mxtraceZ. Qed.
Lemma mdotNr m n (A B : 'M[F]_(m, n)) : mdot A (- B) = - mdot A B.
Proof. by rewrite -scaleN1r mdotZr mulN1r. Qed.
Lemma mdotBr m n (A B C : 'M[F]_(m, n)) : mdot A (B - C) = mdot A B - mdot A C.
Proof. by rewrite mdotDr mdotNr. Qed.
Lemma mdot0r m n (A : 'M[F]_(m, n)) : mdot A 0 = 0.
Proof. by rewrite mdotE mulmx0 mxtrace0. Qed.
Lemma mdotDl m n (A B C : 'M[F]_(m, n)) : mdot (B + C) A = mdot B A + mdot C A.
Proof. by rewrite !(mdotC _ A) mdotDr. Qed.
Lemma mdotZl m n c (A B : 'M[F]_(m, n)) : mdot (c *: B) A = c * mdot B A.
Proof. by rewrite !(mdotC _ A) mdotZr. Qed.
Lemma mdotBl m n (A B C : 'M[F]_(m, n)) : mdot (B - C) A = mdot B A - mdot C A.
Proof. by rewrite !(mdotC _ A) mdotBr. Qed.
Lemma mdot0l m n (A : 'M[F]_(m, n)) : mdot 0 A = 0.
Proof. by rewrite mdotC mdot0r. Qed.
(** Moving factors to the other side. *)
Lemma mdot_l m n r (A : 'M[F]_(r, m)) (X : 'M[F]_(m, n)) (Y : 'M[F]_(r, n)) : mdot Y (A *m X) = mdot (A^T *m Y) X.
Proof. by rewrite !mdotE trmx_mul trmxK mulmxA. Qed.
Lemma mdot_r m n r (A : 'M[F]_(n, r)) (X : 'M[F]_(m, n)) (Y : 'M[F]_(m, r)) : mdot Y (X *m A) = mdot (Y *m A^T) X.
Proof. by rewrite !mdotE trmx_mul trmxK mulmxA mxtrace_mulC mulmxA. Qed.
Lemma mdot_ge0 m n (A : 'M[F]_(m, n)) : 0 <= mdot A A.
Proof. by apply: sumr_ge0 => i _; apply: sumr_ge0 => j _; rewrite -expr2 sqr_ge0. Qed.
Lemma mdot_eq0 m n (A : 'M[F]_(m, n)) : mdot A A = 0 -> A = 0.
Proof.
move=> h; apply/matrixP => i j; rewrite mxE; apply/eqP; rewrite -[_ == 0]orbb -mulf_eq0; apply/eqP.
have h1 : \sum_j A i j * A i j = 0.
  apply: (@psumr_eq0P _ _ _ _ _ h i) => // a _; by apply: sumr_ge0 => b _; rewrite -expr2 sqr_ge0.
by apply: (@psumr_eq0P _ _ _ _ _ h1 j) => // a _; rewrite -expr2 sqr_ge0.
Qed.
Lemma mdot_cols m n (A B : 'M[F]_(m, n)) : mdot A B = \sum_j \sum_i (col j A) i 0 * (col j B) i 0.
Proof. by rewrite /mdot exchange_big; apply: eq_bigr => j _; apply: eq_bigr => i _; rewrite !mxE. Qed.
End Mdot.

Lemma col_mulmx (F : realFieldType) m n r (A : 'M[F]_(m, n)) (X : 'M[F]_(n, r)) j : col j (A *m X) = A *m col j X.
Proof. by rewrite !colE mulmxA. Qed.
Lemma coupling2 (F : realFieldType) : (coupling F) *m (coupling F) = 0.
Proof.
apply/matrixP => i j; rewrite !mxE big1 // => a _; rewrite !mxE.
by case: i j a => [[|[|[|[|[|[|i]]]]]] hi] [[|[|[|[|[|[|j]]]]]] hj] [[|[|[|[|[|[|a]]]]]] ha] //=;
  rewrite ?(mul0r, mulr0, subrr, subr0).
Qed.

Section Beam.
Variables (F : realFieldType) (nf : nat) (B : beam F nf) (k : 'I_6 -> F) (tau : F).
Notation M := (bM B).
Notation D := (bD B).
Notation E := (bE B).
Notation N := (bNu B).
Notation K := (flexibility k).
Notation C := (coupling F).
Variables (u0 : 'cV[F]_nf) (len : F).
Hypotheses (ok : beam_ok B u0 len) (k0 : forall c, 0 < k c) (tau0 : 0 < tau).
Implicit Types (q u Rq Ru : 'M[F]_(nf, 6)) (X Y : 'M[F]_(2, 6)).
Notation eqs := (beam_eq B k tau).
Notation flux := (beam_flux B tau).
Notation form := (beam_form B k tau).

Lemma trN : N^T = N.
Proof. by apply/matrixP => i j; rewrite !mxE eq_sym; case: eqP => // ->. Qed.
Lemma trK : K^T = K.
Proof. by apply/matrixP => i j; rewrite !mxE eq_sym; case: eqP => // ->. Qed.
Let trM : M^T = M. Proof. by case: ok => -[]. Qed.

(** Work of the fluxes of one solution in the motion of another. *)
Lemma beam_energy q u X Rq Ru q' u' X' Rq' Ru' : eqs q u X Rq Ru -> eqs q' u' X' Rq' Ru' ->
  mdot X' (flux q u X) = - form q u X q' u' X' + mdot q Rq' + mdot u' Ru.
Proof.
move=> [_ h2] [h1 _].
have e1 := congr1 (mdot q) h1; have e2 := congr1 (mdot u') h2.
rewrite -e1 -e2 /beam_flux /beam_form !(mdotDr, mdotNr, mdotZr).
rewrite [mdot q (D *m u')]mdot_l [mdot u' (D^T *m q)]mdotC.
have -> : mdot q (M *m u' *m C^T) = mdot u' (M *m q *m C).
  by rewrite mdot_r trmxK mdot_l trM mdotC mulmxA.
have -> : mdot q (E *m N *m X') = mdot X' (N *m E^T *m q).
  by rewrite mdot_l mdotC trmx_mul trN.
have -> : mdot q (M *m q' *m K) = mdot q' (M *m q *m K).
  by rewrite mdot_r trK mdot_l trM mdotC mulmxA.
have -> : mdot u' (E *m (E^T *m u - X)) = mdot (E^T *m u') (E^T *m u) - mdot (E^T *m u') X.
  by rewrite mdot_l mdotBr.
rewrite !mdotBl; ring.
Qed.
Lemma beam_form_sym q u X q' u' X' : form q u X q' u' X' = form q' u' X' q u X.
Proof.
rewrite /beam_form [mdot (_ - X') _]mdotC; congr (_ + _).
by rewrite mdot_r trK mdot_l trM mdotC mulmxA.
Qed.

(** Positive definite elastic energy. *)
Lemma mdot_col m (v w : 'cV[F]_m) : mdot v w = \sum_i v i 0 * w i 0.
Proof. by apply: eq_bigr => i _; rewrite big_ord1. Qed.
Lemma elastic q : mdot q (M *m q *m K) = \sum_c (k c)^-1 * mdot (col c q) (M *m col c q).
Proof.
rewrite mdot_cols; apply: eq_bigr => c _; rewrite mdot_col mulr_sumr; apply: eq_bigr => i _.
rewrite mulrCA; congr (_ * _); rewrite -col_mulmx [LHS]mxE [in RHS]mxE; move: (M *m q) => A.
rewrite mxE (bigD1 c) //= big1 => [|d hd]; last by rewrite [X in _ * X]mxE (negbTE hd) mulr0n mulr0.
by rewrite addr0 [X in _ * X]mxE eqxx mulr1n mulrC.
Qed.
Lemma mass_nonneg (v : 'cV[F]_nf) : 0 <= mdot v (M *m v).
Proof.
have [->|v0] := eqVneq v 0; first by rewrite mdot0l.
by case: ok => -[_ /(_ v v0)/ltW].
Qed.
Lemma elastic_ge0 q : 0 <= mdot q (M *m q *m K).
Proof. by rewrite elastic sumr_ge0 // => c _; rewrite mulr_ge0 ?mass_nonneg // invr_ge0 ltW. Qed.
Lemma elastic_eq0 q : mdot q (M *m q *m K) = 0 -> q = 0.
Proof.
rewrite elastic => h; apply/matrixP => i c; rewrite mxE.
have hc : (k c)^-1 * mdot (col c q) (M *m col c q) = 0.
  apply: (@psumr_eq0P _ _ _ _ _ h c) => // d _; by rewrite mulr_ge0 ?mass_nonneg // invr_ge0 ltW.
have h0 : col c q = 0.
  apply/eqP; apply: contraT => q0; have := hc; move/eqP; rewrite mulf_eq0 invr_eq0 gt_eqF //= => /eqP e.
  by case: ok => -[_ /(_ _ q0)]; rewrite e ltxx.
by have /colP/(_ i) := h0; rewrite !mxE.
Qed.
Lemma beam_form_ge0 q u X : 0 <= form q u X q u X.
Proof. by rewrite addr_ge0 ?elastic_ge0 // mulr_ge0 ?mdot_ge0 ?ltW. Qed.
Lemma beam_form_eq0 q u X : form q u X q u X = 0 -> q = 0 /\ E^T *m u = X.
Proof.
move/eqP; rewrite paddr_eq0 ?elastic_ge0 //; last by rewrite mulr_ge0 ?mdot_ge0 ?ltW.
case/andP => /eqP/elastic_eq0 h; rewrite mulf_eq0 gt_eqF //= => /eqP/mdot_eq0/subr0_eq e.
by split.
Qed.

(** Without force the displacement is free of strain. *)
Lemma free_strain u X : E^T *m u = X -> eqs 0 u X 0 0 -> D^T *m u + M *m u *m C^T = 0.
Proof.
move=> e [h _]; rewrite -[RHS]h mulmx0 mul0mx add0r -e; congr (_ + _).
by case: ok => _ hp _ _ _; rewrite -!mulmxA (mulmxA N) mulmxA mulmxA -hp mulmxDl addKr.
Qed.
Lemma grad_const (w : 'M[F]_(nf, 6)) : D^T *m w = 0 -> exists g : 'rV[F]_6, w = u0 *m g.
Proof.
move=> h; exists (row 0 (E^T *m w)); apply/matrixP => i c.
have [a ha] : exists a : F, col c w = a *: u0.
  by case: ok => _ _ _ hg _; apply: hg; rewrite -col_mulmx h col0.
have hw j : w j c = a * u0 j 0 by have /colP/(_ j) := ha; rewrite !mxE.
have [_ _ [_ /colP/(_ 0) e1] _ _] := ok; rewrite !mxE in e1.
rewrite !mxE big_ord1 !mxE hw mulrC; congr (_ * _).
rewrite -[LHS]mulr1 -[X in _ * X]e1 mulr_sumr; apply: eq_bigr => j _; rewrite hw.
exact: mulrCA.
Qed.
Lemma row_one (g : 'rV[F]_6) (f : 'I_2) : row f (E^T *m (u0 *m g)) = g.
Proof.
by case: ok => _ _ [_ h] _ _; apply/rowP => c; rewrite mulmxA h !mxE big_ord1 !mxE mul1r.
Qed.
(** Motions without strain. *)
Lemma strain_free u : D^T *m u + M *m u *m C^T = 0 ->
  unstrained len (row 0 (E^T *m u)) (E^T *m u) /\ (row 0 (E^T *m u) = 0 -> u = 0).
Proof.
move=> h; have c2 : C^T *m C^T = 0 by rewrite -trmx_mul coupling2 trmx0.
have h1 : D^T *m (u *m C^T) = 0.
  have := congr1 (mulmx^~ C^T) h; by rewrite /= mul0mx mulmxDl -[M *m u *m _ *m _]mulmxA c2 mulmx0 addr0 mulmxA.
have [g hg] := grad_const h1.
have hrow : g = row 0 (E^T *m u) *m C^T by rewrite -row_mul -mulmxA hg row_one.
split; last first.
  move=> z; have g0 : g = 0 by rewrite hrow z mul0mx.
  have h2 : D^T *m u = 0 by move: h; rewrite -mulmxA hg g0 !mulmx0 addr0.
  by have [v hv] := grad_const h2; move: z; rewrite hv row_one => ->; rewrite mulmx0.
split => //; rewrite -hrow; have [_ hp [e0 e1] _ [n0 n1 hl]] := ok.
(* test with the constants *)
have h2 : u0^T *m D^T *m u = const_mx 1 *m N *m (E^T *m u).
  have -> : u0^T *m D^T = (D *m u0)^T by rewrite trmx_mul.
  have -> : D *m u0 = E *m N *m const_mx 1 by rewrite -e1 mulmxA -hp mulmxDl e0 addr0.
  by rewrite !trmx_mul trN trmx_const !mulmxA.
have h3 : u0^T *m D^T *m u = - ((bN B 1 * len) *: g).
  move: h => /eqP; rewrite addr_eq0 => /eqP h; rewrite -mulmxA h -mulmxA hg mulmxN !mulmxA; congr (- _).
  have -> : u0^T *m M *m u0 = (bN B 1 * len)%:M.
    apply/matrixP => i j; rewrite !ord1 [RHS]mxE eqxx mulr1n -hl mdotE /mxtrace big_ord1.
    by rewrite mulmxA.
  by rewrite mul_scalar_mx.
apply/rowP => c; have := congr1 (fun A : 'M[F]_(1, 6) => A 0 c) h2; rewrite h3 /=.
move: (E^T *m u) => X; rewrite !mxE (big_ord_recl 1) (big_ord_recl 0) big_ord0 addr0.
rewrite !mxE !(big_ord_recl 1) !(big_ord_recl 0) !big_ord0 !mxE /=.
have -> : lift ord0 ord0 = 1 :> 'I_2 by apply: val_inj.
rewrite ?n0 ?n1 => e.
have {}e : - (bN B 1 * len * g 0 c) = bN B 1 * (X 1 c - X 0 c).
  rewrite e !mulr1n !mulr0n; have -> : ord0 = 0 :> 'I_2 by [].
  by move: (bN B 1) (X 0 c) (X 1 c) => *; ring.
have := congr1 (fun x => bN B 1 * x) e; rewrite /= [RHS]mulrA n1 mul1r mulrN !mulrA n1 mul1r => /esym/eqP.
by rewrite subr_eq addrC => /eqP.
Qed.

(** The local problem has at most one solution. *)
Lemma beam_unique q u : eqs q u 0 0 0 -> q = 0 /\ u = 0.
Proof.
move=> h; have := beam_energy h h; rewrite !mdot0r mdot0l !addr0 => /esym/eqP; rewrite oppr_eq0 => /eqP f0.
have [q0 e] := beam_form_eq0 f0; split => //; subst q.
by have [_ hu] := strain_free (free_strain e h); apply: hu; rewrite e row0.
Qed.
(** No work: no strain. *)
Lemma beam_kernel q u X : eqs q u X 0 0 -> mdot X (flux q u X) = 0 ->
  [/\ q = 0, E^T *m u = X & unstrained len (row 0 X) X].
Proof.
move=> h; rewrite (beam_energy h h) !mdot0r !addr0 => /eqP; rewrite oppr_eq0 => /eqP f0.
have [q0 e] := beam_form_eq0 f0; split => //; subst q.
by have [hu _] := strain_free (free_strain e h); rewrite e in hu.
Qed.
Lemma beam_flux0 q u X : eqs q u X 0 0 -> mdot X (flux q u X) = 0 -> flux q u X = 0.
Proof. by move=> h /(beam_kernel h)[-> e _]; rewrite /beam_flux mulmx0 e subrr scaler0 addr0. Qed.
(** Conversely a motion without strain needs no force, if the linear functions are among the shape functions. *)
Lemma beam_rigid (u1 : 'cV[F]_nf) v X : beam_linear B u0 u1 len -> unstrained len v X ->
  let u := u0 *m v - u1 *m (v *m C^T) in eqs 0 u X 0 0 /\ E^T *m u = X.
Proof.
move=> [d1 b1] [x0 x1] u; have [_ hp [e0 e1] _ [n0 n1 hl]] := ok.
have e : E^T *m u = X.
  rewrite mulmxBr !mulmxA e1 b1; apply/row_matrixP => f; rewrite -mulmxA.
  have [->|->] : f = 0 \/ f = 1 by case: f => [[|[|f]] hf] //; [left | right]; apply: val_inj.
    by rewrite x0; apply/rowP => c; rewrite !mxE !big_ord1 !mxE /= mul1r mul0r subr0.
  by rewrite x1; apply/rowP => c; rewrite !mxE !big_ord1 !mxE /= mul1r.
split => //; split; last by rewrite e subrr !mulmx0 mul0mx scaler0 addr0 subr0.
rewrite mulmx0 mul0mx add0r -e.
have -> : E *m N *m (E^T *m u) = D *m u + D^T *m u by rewrite mulmxA -hp mulmxDl.
rewrite addKr /u !mulmxBr mulmxBl !mulmxA e0 d1 mul0mx sub0r.
have c2 : C^T *m C^T = 0 by rewrite -trmx_mul coupling2 trmx0.
by rewrite -[M *m u1 *m v *m C^T *m C^T]mulmxA c2 mulmx0 subr0 addNr.
Qed.
(** The flux of every load is in balance with the motions without strain. *)
Lemma flux_balance q u X Rq Ru v X' (u1 : 'cV[F]_nf) : beam_linear B u0 u1 len -> unstrained len v X' ->
  eqs q u X Rq Ru -> mdot X' (flux q u X) = mdot (u0 *m v - u1 *m (v *m C^T)) Ru.
Proof.
move=> hl hX h; have [h' e'] := beam_rigid hl hX.
by rewrite (beam_energy h h') /beam_form e' subrr !(mdot0l, mdot0r, mulr0, addr0, add0r, oppr0).
Qed.
(** Translations need no linear functions. *)
Lemma beam_translate (v : 'rV[F]_6) X : v *m C^T = 0 -> (forall f, row f X = v) ->
  eqs 0 (u0 *m v) X 0 0 /\ E^T *m (u0 *m v) = X.
Proof.
move=> hv hX; have [_ hp [e0 e1] _ _] := ok.
have e : E^T *m (u0 *m v) = X by apply/row_matrixP => f; rewrite row_one hX.
split => //; split; last by rewrite e subrr !mulmx0 mul0mx scaler0 addr0 subr0.
rewrite mulmx0 mul0mx add0r -e.
have -> : E *m N *m (E^T *m (u0 *m v)) = D *m (u0 *m v) + D^T *m (u0 *m v) by rewrite mulmxA -hp mulmxDl.
by rewrite addKr !mulmxA e0 mul0mx add0r -mulmxA hv mulmx0.
Qed.
Lemma flux_translate q u X Rq Ru (v : 'rV[F]_6) X' : v *m C^T = 0 -> (forall f, row f X' = v) ->
  eqs q u X Rq Ru -> mdot X' (flux q u X) = mdot (u0 *m v) Ru.
Proof.
move=> hv hX h; have [h' e'] := beam_translate hv hX.
by rewrite (beam_energy h h') /beam_form e' subrr !(mdot0l, mdot0r, mulr0, addr0, add0r, oppr0).
Qed.
Lemma flux_rigid q u X v (u1 : 'cV[F]_nf) : beam_linear B u0 u1 len -> unstrained len v X -> eqs q u X 0 0 ->
  flux q u X = 0.
Proof. by move=> hl hX h; apply: beam_flux0 => //; rewrite (flux_balance hl hX h) mdot0r. Qed.
(** Linearity. *)
Lemma beam_eq_comb a b q u X Rq Ru q' u' X' Rq' Ru' : eqs q u X Rq Ru -> eqs q' u' X' Rq' Ru' ->
  eqs (a *: q + b *: q') (a *: u + b *: u') (a *: X + b *: X') (a *: Rq + b *: Rq') (a *: Ru + b *: Ru').
Proof.
move=> [h1 h2] [h1' h2']; rewrite -h1 -h2 -h1' -h2'.
have lin m n r (A : 'M[F]_(m, n)) (P Q : 'M[F]_(n, r)) : A *m (a *: P + b *: Q) = a *: (A *m P) + b *: (A *m Q).
  by rewrite mulmxDr -!scalemxAr.
have linr m n r (A : 'M[F]_(n, r)) (P Q : 'M[F]_(m, n)) : (a *: P + b *: Q) *m A = a *: (P *m A) + b *: (Q *m A).
  by rewrite mulmxDl -!scalemxAl.
split.
  rewrite !(lin, linr); move: (M *m q *m K) (M *m q' *m K) (D *m u) (D *m u') (E *m N *m X) (E *m N *m X')
    (M *m u *m C^T) (M *m u' *m C^T) => P1 P2 P3 P4 P5 P6 P7 P8.
  apply/matrixP => i j; rewrite !mxE.
  by move: (P1 i j) (P2 i j) (P3 i j) (P4 i j) (P5 i j) (P6 i j) (P7 i j) (P8 i j) => *; ring.
rewrite !(lin, linr).
have -> : a *: (E^T *m u) + b *: (E^T *m u') - (a *: X + b *: X') = a *: (E^T *m u - X) + b *: (E^T *m u' - X').
  by rewrite !scalerBr opprD addrACA.
rewrite lin; move: (D^T *m q) (D^T *m q') (E *m (E^T *m u - X)) (E *m (E^T *m u' - X')) (M *m q *m C) (M *m q' *m C)
  => P1 P2 P3 P4 P5 P6.
apply/matrixP => i j; rewrite !mxE.
by move: (P1 i j) (P2 i j) (P3 i j) (P4 i j) (P5 i j) (P6 i j) => *; ring.
Qed.
Lemma beam_flux_comb a b q u X q' u' X' :
  flux (a *: q + b *: q') (a *: u + b *: u') (a *: X + b *: X') = a *: flux q u X + b *: flux q' u' X'.
Proof.
rewrite /beam_flux !mulmxDr -!scalemxAr.
move: (N *m E^T *m q) (N *m E^T *m q') (E^T *m u) (E^T *m u') => P1 P2 P3 P4.
apply/matrixP => i j; rewrite !mxE.
by move: (P1 i j) (P2 i j) (P3 i j) (P4 i j) (X i j) (X' i j) => *; ring.
Qed.
End Beam.
