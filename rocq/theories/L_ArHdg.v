(** The local problem with advection and reaction. *)
From mathcomp Require Import all_ssreflect all_algebra zify ring.
From Verif Require Import S_Hdg L_Hdg S_Diffusion L_HdgSrc S_AdvReact.
Set Implicit Arguments. Unset Strict Implicit. Unset Printing Implicit Defensive.
Import Order.TTheory GRing.Theory Num.Theory.
Local Open Scope ring_scope.

Section Theory.
Variable F : realFieldType.
Variables (nf nb dim nF : nat) (h : hdg F nf nb dim nF) (tau : F) (A : 'I_dim -> 'M[F]_nf) (R : 'M[F]_nf).
Notation M := (hM h). Notation D := (hD h). Notation E := (hE h). Notation B := (hB h).
Notation nu := (hnu h). Notation a := (ha h).
Notation aloc := (adv_loc h tau A R).
Notation bulk := (bulk_form h A R).
Implicit Types (q rq : 'I_dim -> 'cV[F]_nf) (u ru : 'cV[F]_nf) (x y : 'I_nF -> 'cV[F]_nb).

Lemma aloc_src q u x rq ru :
  aloc q u x rq ru <-> loc_src h tau q u x (fun d => rq d + A d *m u) (ru - R *m u).
Proof.
split=> -[h1 h2]; (split=> [d|]).
- by rewrite addrA -h1 -[M *m q d - _ - _]addrA [- (A d *m u) - _]addrC addrA subrK.
- by rewrite addrA -h2 addrK.
- by rewrite addrAC h1 addrA addrK.
- by rewrite h2 addrA subrK.
Qed.
Lemma aloc_ext q u x rq ru q' u' y rq' ru' : (forall d, q d = q' d) -> u = u' -> (forall f, x f = y f) ->
  (forall d, rq d = rq' d) -> ru = ru' -> aloc q u x rq ru -> aloc q' u' y rq' ru'.
Proof. by move=> hq <- hx hr <- /aloc_src h1; apply/aloc_src; apply: src_ext h1 => // d; rewrite hr. Qed.
Lemma aloc_lin c q u x rq ru q' u' y rq' ru' : aloc q u x rq ru -> aloc q' u' y rq' ru' ->
  aloc (fun d => c *: q d + q' d) (c *: u + u') (fun f => c *: x f + y f)
    (fun d => c *: rq d + rq' d) (c *: ru + ru').
Proof.
move=> /aloc_src h1 /aloc_src h2; apply/aloc_src; apply: src_ext (src_lin c h1 h2) => // [d|].
  by rewrite mulmxDr -scalemxAr scalerDr addrACA.
by rewrite mulmxDr -scalemxAr scalerBr opprD addrACA.
Qed.
Section Unique.
Hypothesis hreg : adv_regular h tau A R.
Lemma aloc_unique q u q' u' x rq ru : aloc q u x rq ru -> aloc q' u' x rq ru -> (forall d, q d = q' d) /\ u = u'.
Proof.
move=> h1 h2; have h3 := aloc_lin (-1) h2 h1.
have h4 : aloc (fun d => -1 *: q' d + q d) (-1 *: u' + u) (fun=> 0) (fun=> 0) 0.
  by apply: aloc_ext h3 => // [f|d|]; rewrite scaleN1r addNr.
have [hq hu] := hreg h4; split=> [d|]; apply/eqP.
  by rewrite -subr_eq0 addrC -scaleN1r hq.
by rewrite -subr_eq0 addrC -scaleN1r hu.
Qed.
End Unique.

Hypotheses (hok : hdg_ok h).
Notation jump := (trace_jump h).
Lemma form_bulk q u x : form h tau q q u u x x = \sum_d dotv (q d) (M *m q d) + tau * jump u x.
Proof. by []. Qed.
Lemma adv_energy q u x rq ru : aloc q u x rq ru ->
  \sum_f dotv (x f) (num_flux h tau q u x f) =
  - (bulk q u + tau * jump u x) + dotv u ru + \sum_d dotv (rq d) (q d).
Proof.
move=> /aloc_src h1; rewrite (energy_src hok h1 h1) form_bulk /bulk_form dotvBr.
under [\sum_d dotv (rq d + _) _]eq_bigr => d _ do rewrite dotvDl [dotv (A d *m u) _]dotvC.
by rewrite big_split /=; ring.
Qed.
Lemma area_gt0 f : 0 < a f. Proof. by case: hok => _ _ _ /(_ f)[]. Qed.
Lemma jump_ge0 u x : 0 <= jump u x.
Proof. by apply: sumr_ge0 => f _; rewrite mulr_ge0 ?dotv_ge0 // invr_ge0 ltW ?area_gt0. Qed.
Lemma jump_eq0 u x : jump u x = 0 -> forall f, (E f)^T *m u = a f *: x f.
Proof.
rewrite /jump => h0 f.
have g2 f' : 0 <= (a f')^-1 * dotv ((E f')^T *m u - a f' *: x f') ((E f')^T *m u - a f' *: x f').
  by rewrite mulr_ge0 ?dotv_ge0 // invr_ge0 ltW ?area_gt0.
have hh := psumr_eq0P (fun f _ => g2 f) h0.
have := hh f isT => /eqP.
by rewrite mulf_eq0 invr_eq0 gt_eqF ?area_gt0 //= dotv_eq0 subr_eq0 => /eqP.
Qed.

(** The trace of a function whose weak gradient is zero. *)
Lemma grad_zero u x : (forall f, (E f)^T *m u = a f *: x f) ->
  (forall d, D d *m u = \sum_f nu f d *: (E f *m x f)) -> forall d, (D d)^T *m u = 0.
Proof.
move=> hu h1 d; case: hok => _ _ /(_ d) hi _ _.
have : (D d + (D d)^T) *m u = D d *m u.
  rewrite hi h1 mulmx_suml; apply: eq_bigr => f _.
  rewrite -scalemxAl; congr (_ *: _).
  by rewrite (faceB hok) -scalemxAl -mulmxA hu -scalemxAr scalerA mulVf ?scale1r ?(area_neq0 hok).
by rewrite mulmxDl => /eqP; rewrite -subr_eq0 addrAC subrr add0r => /eqP.
Qed.
Lemma zero_state u : (forall f, (E f)^T *m u = 0) -> (forall d, D d *m u = 0) -> u = 0.
Proof. by case: hok => _ _ _ _ H h1 h2; apply: H. Qed.
Section Const.
Variables (u0 : 'cV[F]_nf) (e : 'cV[F]_nb).
Hypothesis hc : hdg_const h u0 e.
(** What leaves through the faces is the source minus what the reaction takes. *)
Lemma adv_balance q u x rq ru : aloc q u x rq ru ->
  \sum_f dotv e (num_flux h tau q u x f) = dotv u0 ru - dotv u0 (R *m u).
Proof.
move=> /aloc_src h1; have h2 := dual_src hok h1 (loc_const tau hok hc).
rewrite h2 big1 ?add0r => [|f _]; last by rewrite (flux_const tau hc) dotv0r.
rewrite [X in _ - X]big1 ?subr0 ?dotvBr // => d _.
by rewrite dotv0r.
Qed.
Hypothesis hg : hdg_grad h u0.
Lemma trace_const u x : (forall f, (E f)^T *m u = a f *: x f) ->
  (forall d, D d *m u = \sum_f nu f d *: (E f *m x f)) -> exists c, u = c *: u0 /\ forall f, x f = c *: e.
Proof.
move=> hu h1; have [d|c hcu] := hg (u := u); first exact: (grad_zero hu h1).
exists c; split=> // f; have := hu f; rewrite hcu -scalemxAr; case: hc => _ ->.
move=> hcx; have := congr1 (fun z => (a f)^-1 *: z) hcx; rewrite /= !scalerA.
by rewrite -mulrA mulrCA mulVf ?(area_neq0 hok) // mulr1 scale1r => <-.
Qed.
End Const.

(** ** Small velocities *)
Section Dominated.
Hypothesis tau0 : 0 < tau.
Hypothesis dom : forall q u, 0 <= bulk q u /\
  (bulk q u = 0 -> (forall d, q d = 0) /\ forall d, A d *m u = 0).
Lemma dom_neg q u x : aloc q u x (fun=> 0) 0 -> \sum_f dotv (x f) (num_flux h tau q u x f) <= 0.
Proof.
move=> h1; rewrite (adv_energy h1) dotv0r big1 => [|d _]; last by rewrite dotv0l.
rewrite !addr0 oppr_le0 addr_ge0 //; first by have [] := dom q u.
by rewrite mulr_ge0 ?jump_ge0 // ltW.
Qed.
Lemma dom_eq0 q u x : aloc q u x (fun=> 0) 0 -> \sum_f dotv (x f) (num_flux h tau q u x f) = 0 ->
  [/\ forall d, q d = 0, forall d, A d *m u = 0, forall f, (E f)^T *m u = a f *: x f &
      forall d, D d *m u = \sum_f nu f d *: (E f *m x f)].
Proof.
move=> h1; rewrite (adv_energy h1) dotv0r big1 => [|d _]; last by rewrite dotv0l.
rewrite !addr0 => /eqP; have [b0 b1] := dom q u.
rewrite oppr_eq0 paddr_eq0 // ?mulr_ge0 ?jump_ge0 ?(ltW tau0) // => /andP[/eqP /b1 [hq hA]].
rewrite mulf_eq0 gt_eqF //= => /eqP /jump_eq0 hu; split=> // d.
by case: h1 => /(_ d); rewrite hq hA mulmx0 !sub0r oppr0 sub0r addr0 => /eqP; rewrite eqr_opp => /eqP.
Qed.
Lemma dom_regular : adv_regular h tau A R.
Proof.
move=> q u h1; have [|hq _ hu hd] := dom_eq0 h1.
  by rewrite big1 // => f _; rewrite dotv0l.
split=> //; apply: zero_state => [f|d]; first by rewrite hu scaler0.
by rewrite hd big1 // => f _; rewrite mulmx0 scaler0.
Qed.
Lemma dom_kernel u0 e q u x : hdg_const h u0 e -> hdg_grad h u0 -> aloc q u x (fun=> 0) 0 ->
  \sum_f dotv (x f) (num_flux h tau q u x f) = 0 ->
  exists c, [/\ u = c *: u0, forall f, x f = c *: e & c *: (R *m u0) = 0].
Proof.
move=> hc hg h1 h0; have [hq hA hu hd] := dom_eq0 h1 h0.
have [c [ec hx]] := trace_const hc hg hu hd; exists c; split=> //.
case: h1 => _; rewrite big1 => [|d _]; last by rewrite hq mulmx0.
rewrite add0r addr0 ec -scalemxAr => h2; apply/(addrI (tau *: (\sum_f B f *m (c *: u0)))).
rewrite addr0 h2; congr (_ *: _); apply: eq_bigr => f _.
rewrite (faceB hok) -scalemxAl -mulmxA -ec hu -scalemxAr scalerA mulVf ?scale1r ?(area_neq0 hok) //.
Qed.
End Dominated.

(** ** A wind that is constant in the hyperedge *)
Section Wind.
Variable w : 'I_dim -> F.
Hypothesis hA : forall d, A d = w d *: M.
Hypothesis hR : forall u, 0 <= dotv u (R *m u).
Notation out := (outflow h w).
Hypothesis hstab : forall f, 0 < tau + out f / 2%:R.
Definition dflux q u (d : 'I_dim) := q d - w d *: u.
Definition gap u x f : 'cV[F]_nb := (a f)^-1 *: ((E f)^T *m u) - x f.
Definition wind_form q u x : F :=
  \sum_d dotv (dflux q u d) (M *m dflux q u d) + dotv u (R *m u) +
  \sum_f (tau + out f / 2%:R) * (a f * dotv (gap u x f) (gap u x f)).
Lemma wind_src q u x : aloc q u x (fun=> 0) 0 ->
  loc_src h tau (dflux q u) u x (fun=> 0) (- (R *m u) - \sum_d w d *: ((D d)^T *m u)).
Proof.
case=> h1 h2; split=> [d|].
  by rewrite -h1 hA mulmxBr -scalemxAl -scalemxAr.
have hl d : - D d + \sum_f nu f d *: B f = (D d)^T by rewrite (lower_left hok).
move: h2; rewrite addr0 => <-.
under [in RHS]eq_bigr => d _ do rewrite hl.
under [in LHS]eq_bigr => d _ do rewrite hl mulmxBr -scalemxAr.
rewrite sumrB; move: (\sum_d _) (\sum_d _) (tau *: _) (R *m u) => X Y Z W.
by rewrite addrA addrK addrAC.
Qed.
Lemma wind_flux q u x f : num_flux h tau q u x f = num_flux h tau (dflux q u) u x f + out f *: ((E f)^T *m u).
Proof.
rewrite /num_flux.
under [in RHS]eq_bigr => d _ do rewrite mulmxBr scalerBr -scalemxAr scalerA.
rewrite sumrB -scaler_suml -/(outflow h w f).
move: (\sum_d _) (tau *: _) ((tau * _) *: _) (out f *: _) => X Z W V.
by rewrite [in RHS]addrAC [X - V + Z]addrAC subrK.
Qed.
Lemma skew u d : dotv u ((D d)^T *m u) = (\sum_f nu f d * ((a f)^-1 * dotv ((E f)^T *m u) ((E f)^T *m u))) / 2%:R.
Proof.
have h1 : dotv u ((D d + (D d)^T) *m u) = 2%:R * dotv u ((D d)^T *m u).
  by rewrite mulmxDl dotvDr -[in dotv u (D d *m u)](trmxK (D d)) -dotv_mxl dotvC mulr2n mulrDl mul1r.
have h2 : dotv u ((D d + (D d)^T) *m u) = \sum_f nu f d * ((a f)^-1 * dotv ((E f)^T *m u) ((E f)^T *m u)).
  case: hok => _ _ /(_ d) -> _ _; rewrite mulmx_suml dotv_sumr; apply: eq_bigr => f _.
  rewrite -scalemxAl dotvZr (faceB hok) -scalemxAl dotvZr; congr (_ * (_ * _)).
  by rewrite dotv_mxl trmxK mulmxA.
by rewrite -h2 h1 mulrC mulKf // pnatr_eq0.
Qed.
Lemma wind_energy q u x : aloc q u x (fun=> 0) 0 ->
  \sum_f dotv (x f) (num_flux h tau q u x f) =
  - wind_form q u x + (\sum_f out f * a f * dotv (x f) (x f)) / 2%:R.
Proof.
move=> h1; have h2 := wind_src h1.
under eq_bigr => f _ do rewrite wind_flux dotvDr dotvZr.
rewrite big_split /= (energy_src hok h2 h2) form_bulk [X in _ + X + _]big1; last by move=> d _; rewrite dotv0l.
rewrite addr0 dotvBr dotvNr dotv_sumr.
under [\sum_d dotv u _]eq_bigr => d _ do rewrite dotvZr skew.
have -> : \sum_d w d * ((\sum_f nu f d * ((a f)^-1 * dotv ((E f)^T *m u) ((E f)^T *m u))) / 2%:R) =
    \sum_f out f / 2%:R * ((a f)^-1 * dotv ((E f)^T *m u) ((E f)^T *m u)).
  under eq_bigr => d _ do rewrite mulr_suml mulr_sumr.
  rewrite exchange_big /=; apply: eq_bigr => f _; rewrite /outflow !mulr_suml; apply: eq_bigr => d _.
  by move: (dotv _ _) (a f)^-1 (2%:R)^-1 => r s t; ring.
rewrite /wind_form /jump mulr_sumr.
rewrite mulr_suml; set S1 := \sum_d _; set S2 := dotv u _.
have hg f : (tau + out f / 2%:R) * (a f * dotv (gap u x f) (gap u x f)) =
  tau * ((a f)^-1 * dotv ((E f)^T *m u - a f *: x f) ((E f)^T *m u - a f *: x f)) +
  out f / 2%:R * ((a f)^-1 * dotv ((E f)^T *m u) ((E f)^T *m u)) - out f * dotv (x f) ((E f)^T *m u) +
  out f * a f * dotv (x f) (x f) / 2%:R.
  rewrite /gap !dotvBl !dotvBr !dotvZl !dotvZr [dotv ((E f)^T *m u) (x f)]dotvC.
  move: (dotv _ _) (dotv _ _) (dotv _ _) => r s t; have := area_neq0 hok f; move: (a f) => a0 ha.
  by field; rewrite ha.
under [X in _ = - (_ + _ + X) + _]eq_bigr => f _ do rewrite hg.
rewrite !big_split /= sumrN.
move: S1 S2 => s1 s2; do 4 (let X := fresh "X" in set X := \sum_(i < nF) _; move: X => X).
by ring.
Qed.
Lemma wind_gap_ge0 u x f : 0 <= (tau + out f / 2%:R) * (a f * dotv (gap u x f) (gap u x f)).
Proof. by rewrite mulr_ge0 ?(ltW (hstab f)) // mulr_ge0 ?dotv_ge0 // ltW ?area_gt0. Qed.
Lemma wind_form_ge0 q u x : 0 <= wind_form q u x.
Proof.
rewrite !addr_ge0 //; first by apply: sumr_ge0 => d _; exact: mass_ge0.
by apply: sumr_ge0 => f _; exact: wind_gap_ge0.
Qed.
Lemma wind_form_eq0 q u x : aloc q u x (fun=> 0) 0 -> wind_form q u x = 0 ->
  [/\ forall d, q d = w d *: u, forall f, (E f)^T *m u = a f *: x f,
      forall d, D d *m u = \sum_f nu f d *: (E f *m x f) & dotv u (R *m u) = 0].
Proof.
move=> hl /eqP.
have h1 : 0 <= \sum_d dotv (dflux q u d) (M *m dflux q u d) by apply: sumr_ge0 => d _; exact: mass_ge0.
have h3 : 0 <= \sum_f (tau + out f / 2%:R) * (a f * dotv (gap u x f) (gap u x f)).
  by apply: sumr_ge0 => f _; exact: wind_gap_ge0.
rewrite /wind_form paddr_eq0 ?addr_ge0 // paddr_eq0 // => /andP[/andP[/eqP e1 /eqP e2] /eqP e3].
have hq d : dflux q u d = 0.
  by apply: (mass_eq0 hok); apply: (psumr_eq0P _ e1) => // k _; exact: mass_ge0.
split=> [d|f|d|//].
- by apply/eqP; rewrite -subr_eq0; apply/eqP; exact: hq.
- have hh := psumr_eq0P (fun f _ => wind_gap_ge0 u x f) e3.
  have := hh f isT => /eqP.
  rewrite mulf_eq0 gt_eqF ?hstab //= mulf_eq0 gt_eqF ?area_gt0 //= dotv_eq0 subr_eq0 => /eqP <-.
  by rewrite scalerA mulfV ?scale1r // (area_neq0 hok).
have [/(_ d) + _] := wind_src hl; rewrite hq mulmx0 sub0r addr0 => /eqP.
by rewrite eqr_opp => /eqP.
Qed.
Lemma wind_regular : adv_regular h tau A R.
Proof.
move=> q u h1; have := wind_energy h1; rewrite big1 => [|f _]; last by rewrite dotv0l.
rewrite big1 => [|f _]; last by rewrite dotv0l mulr0.
rewrite mul0r addr0 => /eqP; rewrite eq_sym oppr_eq0 => /eqP /(wind_form_eq0 h1)[hq hu hd _].
have u0 : u = 0.
  apply: zero_state => [f|d]; first by rewrite hu scaler0.
  by rewrite hd big1 // => f _; rewrite mulmx0 scaler0.
by split=> // d; rewrite hq u0 scaler0.
Qed.
Lemma wind_bound q u x : aloc q u x (fun=> 0) 0 ->
  \sum_f dotv (x f) (num_flux h tau q u x f) <= (\sum_f out f * a f * dotv (x f) (x f)) / 2%:R.
Proof. by move=> h1; rewrite (wind_energy h1) ger_addr oppr_le0 wind_form_ge0. Qed.
Lemma wind_kernel u0 e q u x : hdg_const h u0 e -> hdg_grad h u0 -> aloc q u x (fun=> 0) 0 ->
  \sum_f dotv (x f) (num_flux h tau q u x f) = (\sum_f out f * a f * dotv (x f) (x f)) / 2%:R ->
  exists c, (forall f, x f = c *: e) /\ c ^+ 2 * dotv u0 (R *m u0) = 0.
Proof.
move=> hc hg h1; rewrite (wind_energy h1) => /eqP; rewrite -[X in _ == X]add0r (inj_eq (addIr _)) oppr_eq0 => /eqP h0.
have [_ hu hd hr] := wind_form_eq0 h1 h0.
have [c [ec hx]] := trace_const hc hg hu hd; exists c; split=> //.
by move: hr; rewrite ec -scalemxAr dotvZl dotvZr mulrA expr2.
Qed.
End Wind.
End Theory.
