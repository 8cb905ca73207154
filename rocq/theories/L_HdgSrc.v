(** The local HDG problem with sources. *)
From mathcomp Require Import all_ssreflect all_algebra ring.
From Verif Require Import S_Hdg L_Hdg S_LocalSolver L_LocalLink S_Diffusion.
Set Implicit Arguments. Unset Strict Implicit. Unset Printing Implicit Defensive.
Import Order.TTheory GRing.Theory Num.Theory.
Local Open Scope ring_scope.

Section Theory.
Variable F : realFieldType.
Variables (nf nb dim nF : nat) (h : hdg F nf nb dim nF) (tau : F).
Hypotheses (hok : hdg_ok h).
Notation M := (hM h). Notation D := (hD h). Notation E := (hE h). Notation B := (hB h).
Notation nu := (hnu h). Notation a := (ha h).
Implicit Types (q rq : 'I_dim -> 'cV[F]_nf) (u ru : 'cV[F]_nf) (x y : 'I_nF -> 'cV[F]_nb).

Lemma loc_src0 q u x : loc_src h tau q u x (fun=> 0) 0 <-> loc_eq h tau q u x.
Proof. by split=> -[h1 h2]; split=> [d|]; rewrite ?h1 ?h2 addr0. Qed.

Lemma second_src q u x rq ru v : loc_src h tau q u x rq ru ->
  \sum_d dotv v ((D d)^T *m q d) + tau * (\sum_f (a f)^-1 * dotv ((E f)^T *m v) ((E f)^T *m u)) =
  tau * (\sum_f dotv ((E f)^T *m v) (x f)) + dotv v ru.
Proof.
case=> _ /(congr1 (dotv v)); rewrite !dotvDr !dotvZr !dotv_sumr => h2.
transitivity (\sum_d dotv v ((- D d + \sum_f nu f d *: B f) *m q d) +
              tau * (\sum_f dotv v (B f *m u))).
  congr (_ + tau * _); first by apply: eq_bigr => d _; rewrite lower_left.
  apply: eq_bigr => f _; rewrite faceB // -scalemxAl dotvZr; congr (_ * _).
  by rewrite dotv_mxl trmxK mulmxA.
by rewrite h2; congr (tau * _ + _); apply: eq_bigr => f _; rewrite dotv_mxl trmxK.
Qed.

Lemma energy_src q u x rq ru q' u' y rq' ru' :
  loc_src h tau q u x rq ru -> loc_src h tau q' u' y rq' ru' ->
  \sum_f dotv (y f) (num_flux h tau q u x f) =
  - form h tau q' q u' u y x + dotv u' ru + \sum_d dotv (rq' d) (q d).
Proof.
move=> ex [ey1 _]; have := second_src u' ex.
have step d : dotv (q' d) (M *m q d) - dotv u' ((D d)^T *m q d) =
    - (\sum_f nu f d * dotv (y f) ((E f)^T *m q d)) + dotv (rq' d) (q d).
  have := congr1 (fun z => dotv z (q d)) (ey1 d); rewrite dotvBl.
  rewrite !dotv_mxl; case: hok => -> _ _ _ _ ->; rewrite dotvDl; congr (_ + _).
  rewrite dotvC dotvNr dotv_sumr; congr (- _).
  by apply: eq_bigr => f _; rewrite dotvZr dotvC dotv_mxl.
have -> : \sum_f dotv (y f) (num_flux h tau q u x f) =
  \sum_d \sum_f nu f d * dotv (y f) ((E f)^T *m q d) +
  tau * (\sum_f dotv (y f) ((E f)^T *m u)) - tau * (\sum_f a f * dotv (y f) (x f)).
  rewrite [in RHS]exchange_big /= !mulr_sumr -big_split -sumrB /=; apply: eq_bigr => f _.
  rewrite /num_flux dotvBr dotvDr !dotvZr dotv_sumr mulrA; congr (_ + _ - _).
  by apply: eq_bigr => d _; rewrite dotvZr.
have -> : \sum_d \sum_f nu f d * dotv (y f) ((E f)^T *m q d) =
   \sum_d dotv u' ((D d)^T *m q d) - \sum_d dotv (q' d) (M *m q d) + \sum_d dotv (rq' d) (q d).
  rewrite -sumrB -big_split /=; apply: eq_bigr => d _; rewrite -[_ - dotv (q' d) _]opprB step.
  by rewrite opprD opprK subrK.
rewrite /form => h2.
have -> : \sum_f (a f)^-1 * dotv ((E f)^T *m u' - a f *: y f) ((E f)^T *m u - a f *: x f) =
   \sum_f (a f)^-1 * dotv ((E f)^T *m u') ((E f)^T *m u) - \sum_f dotv ((E f)^T *m u') (x f) -
   \sum_f dotv (y f) ((E f)^T *m u) + \sum_f a f * dotv (y f) (x f).
  rewrite -!sumrB -big_split /=; apply: eq_bigr => f _.
  by rewrite dotvBl !dotvBr !dotvZl !dotvZr; field; exact: area_neq0.
have -> : dotv u' ru = \sum_d dotv u' ((D d)^T *m q d) +
   tau * (\sum_f (a f)^-1 * dotv ((E f)^T *m u') ((E f)^T *m u)) -
   tau * (\sum_f dotv ((E f)^T *m u') (x f)) by rewrite h2 addrC addKr.
by ring.
Qed.

(** The flux of a sourced problem, tested by a trace y, in terms of the flux of y. *)
Lemma dual_src q u x rq ru q' u' y :
  loc_src h tau q u x rq ru -> loc_eq h tau q' u' y ->
  \sum_f dotv (y f) (num_flux h tau q u x f) =
  \sum_f dotv (x f) (num_flux h tau q' u' y f) + dotv u' ru - \sum_d dotv (rq d) (q' d).
Proof.
move=> e1 /loc_src0 e2; rewrite (energy_src e1 e2) (energy_src e2 e1) dotv0r addr0.
rewrite (form_sym _ hok) big1 => [|d _]; last by rewrite dotv0l.
by rewrite addr0 [RHS]addrAC addrK.
Qed.

Lemma src_lin c q u x rq ru q' u' y rq' ru' :
  loc_src h tau q u x rq ru -> loc_src h tau q' u' y rq' ru' ->
  loc_src h tau (fun d => c *: q d + q' d) (c *: u + u') (fun f => c *: x f + y f)
    (fun d => c *: rq d + rq' d) (c *: ru + ru').
Proof.
case=> e1 e2 [e3 e4]; split=> [d|].
  have -> : M *m (c *: q d + q' d) - D d *m (c *: u + u') =
     c *: (M *m q d - D d *m u) + (M *m q' d - D d *m u').
    by rewrite !mulmxDr -!scalemxAr scalerBr opprD addrACA.
  rewrite e1 e3 scalerDr scalerN addrACA; congr (_ + _).
  rewrite -opprD scaler_sumr -big_split /=; congr (- _); apply: eq_bigr => f _.
  by rewrite mulmxDr -scalemxAr scalerDr !scalerA mulrC.
transitivity (c *: (tau *: (\sum_f (E f *m x f)) + ru) + (tau *: (\sum_f (E f *m y f)) + ru')).
  rewrite -e2 -e4 !scalerDr addrACA !scaler_sumr -!big_split /=.
  congr (_ + _); apply: eq_bigr => i _; rewrite mulmxDr -scalemxAr // scalerDr.
  by rewrite !scalerA [c * _]mulrC.
rewrite scalerDr addrACA; congr (_ + _); rewrite !scaler_sumr -big_split /=; apply: eq_bigr => f _.
by rewrite mulmxDr -scalemxAr scalerDr !scalerA [c * _]mulrC.
Qed.

Lemma src_ext q u x rq ru q' u' y rq' ru' : (forall d, q d = q' d) -> u = u' -> (forall f, x f = y f) ->
  (forall d, rq d = rq' d) -> ru = ru' -> loc_src h tau q u x rq ru -> loc_src h tau q' u' y rq' ru'.
Proof.
move=> hq <- hx hr <- [e1 e2]; split=> [d|].
  by rewrite -hq -hr e1; congr (- _ + _); apply: eq_bigr => f _; rewrite hx.
rewrite -[LHS](_ : \sum_d ((- D d + \sum_f nu f d *: B f) *m q d) + tau *: (\sum_f (B f *m u)) = _).
  by rewrite e2; congr (_ *: _ + _); apply: eq_bigr => f _; rewrite hx.
by congr (_ + _); apply: eq_bigr => d _; rewrite hq.
Qed.

Lemma src_unique q u q' u' x rq ru : 0 < tau -> loc_src h tau q u x rq ru ->
  loc_src h tau q' u' x rq ru -> (forall d, q d = q' d) /\ u = u'.
Proof.
move=> t0 h1 h2; have h3 := src_lin (-1) h2 h1.
have h4 : loc_src h tau (fun d => -1 *: q' d + q d) (-1 *: u' + u) (fun=> 0) (fun=> 0) 0.
  by apply: src_ext h3 => // [f|d|]; rewrite scaleN1r addNr.
have /loc_src0 h5 := h4; have [hq hu] := loc_unique0 hok t0 h5; split=> [d|].
  by apply/eqP; rewrite -subr_eq0 addrC -scaleN1r hq.
by apply/eqP; rewrite -subr_eq0 addrC -scaleN1r hu.
Qed.
End Theory.

Section Flux.
Variable F : realFieldType.
Variables (nf nb dim nF : nat) (h : hdg F nf nb dim nF) (tau : F) (mask : nat -> bool).
Hypotheses (hok : hdg_ok h) (tau0 : 0 < tau).
Implicit Types (x y : seq (seq F)) (rq : 'I_dim -> 'cV[F]_nf) (ru : 'cV[F]_nf).
Notation fs := (flux_src h tau mask).

Lemma vanishesP x : vanishes mask nF nb x <-> forall f : 'I_nF, mask f -> tr nb x f = 0 :> 'cV[F]_nb.
Proof.
split=> [hv f hf|hv f j hf hj hm].
  by apply/colP => j; rewrite !mxE hv.
by have /colP/(_ (Ordinal hj)) := hv (Ordinal hf) hm; rewrite !mxE.
Qed.
Lemma fs_vanishes x rq ru y : fs x rq ru y -> vanishes mask nF nb y.
Proof. by move=> [_ [q [u [_ hy]]]]; apply/vanishesP => f hf; rewrite hy hf. Qed.

(** Pairing with a trace that vanishes on the masked faces. *)
Lemma pairing_mask x y q u z : vanishes mask nF nb x ->
  (forall f : 'I_nF, tr nb y f = if mask f then 0 else num_flux h tau q u z f) ->
  pairing nF nb x y = \sum_f dotv (tr nb x f) (num_flux h tau q u z f).
Proof.
move=> /vanishesP hx hy; rewrite pairing_dotv; apply: eq_bigr => f _; rewrite hy.
by case: ifP => // hf; rewrite hx // !dotv0l.
Qed.

Lemma fs_lin c x rq ru y x' rq' ru' y' : fs x rq ru y -> fs x' rq' ru' y' ->
  fs (comb_trace c nF nb x x') (fun d => c *: rq d + rq' d) (c *: ru + ru') (comb_trace c nF nb y y').
Proof.
move=> [sy [q [u [h1 f1]]]] [sy' [q' [u' [h2 f2]]]]; split; first exact: comb_is_trace.
exists (fun d => c *: q d + q' d), (c *: u + u'); split.
  by apply: src_ext (src_lin c h1 h2) => // f; rewrite tr_comb.
move=> f; rewrite tr_comb f1 f2; case: ifP => _; first by rewrite scaler0 addr0.
by rewrite -flux_lin; apply: flux_ext; rewrite ?tr_comb.
Qed.
Lemma fs_unique x rq ru y rq' ru' y' : (forall d, rq d = rq' d) -> ru = ru' ->
  fs x rq ru y -> fs x rq' ru' y' -> y = y'.
Proof.
move=> hq hu [sy [q [u [h1 f1]]]] [sy' [q' [u' [h2 f2]]]].
have h3 : loc_src h tau q' u' (tr nb x) rq ru by apply: src_ext h2.
have [eq eu] := src_unique hok tau0 h1 h3.
apply: trace_ext sy sy' _ => f; rewrite f1 f2; case: ifP => // _; apply: flux_ext => //.
Qed.
Notation z := (fun=> 0).
Lemma fs_sym x y x' y' : vanishes mask nF nb x -> vanishes mask nF nb x' ->
  fs x z 0 y -> fs x' z 0 y' -> pairing nF nb x' y = pairing nF nb x y'.
Proof.
move=> hx hx' [_ [q [u [/loc_src0 h1 f1]]]] [_ [q' [u' [/loc_src0 h2 f2]]]].
rewrite (pairing_mask hx' f1) (pairing_mask hx f2).
by rewrite (energy hok h1 h2) (energy hok h2 h1) (form_sym _ hok).
Qed.
Lemma fs_neg x y : vanishes mask nF nb x -> fs x z 0 y -> pairing nF nb x y <= 0.
Proof.
move=> hx [_ [q [u [/loc_src0 h1 f1]]]].
by rewrite (pairing_mask hx f1) (energy hok h1 h1) oppr_le0 form_ge0 // ltW.
Qed.
Lemma fs_kernel u0 x y : hdg_const h u0 (unit_vec F nb) -> hdg_grad h u0 -> is_trace nF nb x ->
  vanishes mask nF nb x -> fs x z 0 y -> pairing nF nb x y = 0 ->
  exists c, x = const_trace c nF nb.
Proof.
move=> hc hg sx hx [_ [q [u [/loc_src0 h1 f1]]]]; rewrite (pairing_mask hx f1).
case/(flux_kernel hok hc hg tau0 h1) => c hxc; exists c; apply: trace_ext sx _ _ => [|f].
  by split; [exact: size_nseq | apply/allP => l /nseqP[-> _]; rewrite size_mkseq].
by rewrite hxc tr_const.
Qed.
End Flux.
