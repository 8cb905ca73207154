(** The one-step-theta scheme for the local HDG problem: solvability, energy, balance. *)
From mathcomp Require Import all_ssreflect all_algebra ring.
From Verif Require Import S_Hdg L_Hdg S_LocalSolver L_LocalLink S_Diffusion L_HdgSrc S_DiffusionParab.
Set Implicit Arguments. Unset Strict Implicit. Unset Printing Implicit Defensive.
Import Order.TTheory GRing.Theory Num.Theory.
Local Open Scope ring_scope.

Section Theory.
Variable F : realFieldType.
Variables (nf nb dim nF : nat) (h : hdg F nf nb dim nF) (tau : F).
Hypotheses (hok : hdg_ok h).
Notation M := (hM h). Notation D := (hD h). Notation E := (hE h). Notation B := (hB h).
Notation nu := (hnu h). Notation a := (ha h).
Implicit Types (q rq : 'I_dim -> 'cV[F]_nf) (u ru : 'cV[F]_nf) (x y : 'I_nF -> 'cV[F]_nb).
Notation rate := (rate h tau).

Lemma zm_rate (V : zmodType) (t r o : V) : o = t + (r - (r + t - o)).
Proof. by rewrite opprB addrA addrCA [t + r]addrC subrr addr0. Qed.
Lemma rate_src q u x rq ru : grad_eq h q u x rq <-> loc_src h tau q u x rq (ru - rate q u x ru).
Proof. by split=> [hq|[hq _] //]; split=> //; exact: zm_rate. Qed.

Lemma rate_lin c q u x ru q' u' y ru' :
  rate (fun d => c *: q d + q' d) (c *: u + u') (fun f => c *: x f + y f) (c *: ru + ru') =
  c *: rate q u x ru + rate q' u' y ru'.
Proof.
rewrite /S_DiffusionParab.rate scalerBr addrACA -opprD; congr (_ - _).
  rewrite scalerDr addrACA; congr (_ + _); rewrite !scaler_sumr -big_split /=; apply: eq_bigr => f _.
  by rewrite mulmxDr -scalemxAr scalerDr !scalerA [c * _]mulrC.
rewrite scalerDr addrACA !scaler_sumr -!big_split /=; congr (_ + _); apply: eq_bigr => i _.
  by rewrite mulmxDr -scalemxAr.
by rewrite mulmxDr -scalemxAr scalerDr !scalerA [c * _]mulrC.
Qed.
Lemma grad_lin c q u x rq q' u' y rq' : grad_eq h q u x rq -> grad_eq h q' u' y rq' ->
  grad_eq h (fun d => c *: q d + q' d) (c *: u + u') (fun f => c *: x f + y f) (fun d => c *: rq d + rq' d).
Proof.
move=> /(rate_src _ _ _ _ 0) h1 /(rate_src _ _ _ _ 0) h2.
by case: (src_lin c h1 h2).
Qed.
Lemma rate_ext q u x ru q' u' y ru' : (forall d, q d = q' d) -> u = u' -> (forall f, x f = y f) -> ru = ru' ->
  rate q u x ru = rate q' u' y ru'.
Proof.
move=> hq <- hx <-; rewrite /S_DiffusionParab.rate; congr (_ + _ *: _ - (_ + _)); apply: eq_bigr => i _.
  by rewrite hx.
by rewrite hq.
Qed.
Lemma grad_ext q u x rq q' u' y rq' : (forall d, q d = q' d) -> u = u' -> (forall f, x f = y f) ->
  (forall d, rq d = rq' d) -> grad_eq h q u x rq -> grad_eq h q' u' y rq'.
Proof.
move=> hq <- hx hr h1 d; rewrite -hq -hr h1; congr (- _ + _); apply: eq_bigr => f _.
by rewrite hx.
Qed.

(** The flux tested by a trace. *)
Lemma energy_rate q u x rq ru q' u' y rq' : grad_eq h q u x rq -> grad_eq h q' u' y rq' ->
  \sum_f dotv (y f) (num_flux h tau q u x f) =
  - form h tau q' q u' u y x + dotv u' (ru - rate q u x ru) + \sum_d dotv (rq' d) (q d).
Proof.
move=> /(rate_src _ _ _ _ ru) h1 /(rate_src _ _ _ _ 0) h2.
exact: energy_src hok _ _ _ _ _ _ _ _ _ _ h1 h2.
Qed.

(** The rate of the constant function: sources minus outflow. *)
Lemma balance u0 e q u x rq ru : hdg_const h u0 e -> grad_eq h q u x rq ->
  dotv u0 (rate q u x ru) = dotv u0 ru - \sum_f dotv e (num_flux h tau q u x f).
Proof.
move=> hc hq.
have hz : grad_eq h (fun=> 0) u0 (fun=> e) (fun=> 0).
  by move=> d; rewrite addr0; case: (loc_const tau hok hc) => ->.
have := energy_rate ru hq hz; rewrite dotvBr.
have -> : form h tau (fun=> 0) q u0 u (fun=> e) x = 0.
  rewrite /form big1 ?add0r => [|d _]; last by rewrite dotv0l.
  rewrite big1 ?mulr0 // => f _; case: hc => _ ->.
  by rewrite subrr dotv0l mulr0.
rewrite [\sum_(d < dim) _]big1 => [|d _]; last by rewrite dotv0l.
by rewrite oppr0 add0r addr0 => ->; rewrite opprB addrC subrK.
Qed.

Variables (m : 'M[F]_nf) (theta dt : F).
Hypotheses (msym : m^T = m) (mpos : forall u : 'cV[F]_nf, u != 0 -> 0 < dotv u (m *m u)).
Notation step := (theta_step h tau m theta dt).

Lemma m_ge0 (u : 'cV[F]_nf) : 0 <= dotv u (m *m u).
Proof. by have [->|/mpos/ltW //] := eqVneq u 0; rewrite dotv0l. Qed.
Lemma m_eq0 (u : 'cV[F]_nf) : dotv u (m *m u) <= 0 -> u = 0.
Proof. by move=> hu; apply/eqP; apply: contraT => /mpos; rewrite ltNge hu. Qed.
Lemma m_sym (u v : 'cV[F]_nf) : dotv u (m *m v) = dotv v (m *m u).
Proof. by rewrite dotvC dotv_mxl msym. Qed.

(** ** Unique solvability *)
Lemma step_unique0 q u : 0 <= theta * dt -> 0 <= tau ->
  step q u (fun=> 0) (fun=> 0) 0 0 0 -> (forall d, q d = 0) /\ u = 0.
Proof.
move=> c0 t0 [hq]; rewrite subr0 scaler0 addr0 scalerA [dt * _]mulrC => hu.
have u0 : u = 0.
  apply: m_eq0; rewrite hu dotvZr mulr_ge0_le0 //.
  have := energy_rate 0 hq hq; rewrite big1 => [|f _]; last by rewrite dotv0l.
  rewrite [\sum_(d < dim) _]big1 => [|d _]; last by rewrite dotv0l.
  rewrite addr0 sub0r dotvNr => /eqP; rewrite eq_sym -opprD oppr_eq0 addr_eq0 => /eqP hf.
  by rewrite -oppr_ge0 -hf form_ge0.
split=> // d; have := hq d; rewrite u0 mulmx0 subr0 big1 => [|f _]; last by rewrite mulmx0 scaler0.
by rewrite oppr0 addr0 => hM; apply: (mass_eq0 hok); rewrite hM dotv0r.
Qed.

Lemma step_lin c q u x rq ru v r q' u' y rq' ru' v' r' : step q u x rq ru v r -> step q' u' y rq' ru' v' r' ->
  step (fun d => c *: q d + q' d) (c *: u + u') (fun f => c *: x f + y f) (fun d => c *: rq d + rq' d)
    (c *: ru + ru') (c *: v + v') (c *: r + r').
Proof.
move=> [h1 e1] [h2 e2]; split; first exact: grad_lin.
have -> : c *: u + u' - (c *: v + v') = c *: (u - v) + (u' - v') by rewrite scalerBr opprD addrACA.
rewrite mulmxDr -scalemxAr e1 e2 rate_lin.
move: (rate q u x ru) (rate q' u' y ru') => r1 r2.
rewrite scalerA mulrC -scalerA -scalerDr; congr (_ *: _).
by rewrite !scalerDr !scalerA [c * _]mulrC [c * (1 - _)]mulrC addrACA.
Qed.
Lemma step_ext q u x rq ru v r q' u' y rq' ru' v' r' : (forall d, q d = q' d) -> u = u' ->
  (forall f, x f = y f) -> (forall d, rq d = rq' d) -> ru = ru' -> v = v' -> r = r' ->
  step q u x rq ru v r -> step q' u' y rq' ru' v' r'.
Proof.
move=> hq hu hx hr hru <- <- [h1 h2]; split; first exact: (grad_ext hq hu hx hr h1).
by rewrite -(rate_ext hq hu hx hru) -hu.
Qed.
Lemma step_unique q u x rq ru v r q' u' : 0 <= theta * dt -> 0 <= tau ->
  step q u x rq ru v r -> step q' u' x rq ru v r -> (forall d, q d = q' d) /\ u = u'.
Proof.
move=> c0 t0 h1 h2; have h3 := step_lin (-1) h2 h1.
have [hq hu] : (forall d, -1 *: q' d + q d = 0) /\ -1 *: u' + u = 0.
  by apply: step_unique0 c0 t0 _; apply: step_ext h3 => // [f|d|||]; rewrite scaleN1r addNr.
split=> [d|]; apply/eqP; rewrite -subr_eq0 addrC -scaleN1r; [exact/eqP/hq | exact/eqP].
Qed.

(** ** Fluxes of steps without data *)
Notation hom q u x := (step q u x (fun=> 0) 0 0 0).
Lemma hom_energy q u x q' u' y : 0 < theta -> 0 < dt -> hom q u x -> hom q' u' y ->
  \sum_f dotv (y f) (num_flux h tau q u x f) =
  - form h tau q' q u' u y x - (theta * dt)^-1 * dotv u' (m *m u).
Proof.
move=> th0 dt0 [hq hu] [hq' _]; rewrite (energy_rate 0 hq hq') [\sum_(d < dim) _]big1 => [|d _]; last by rewrite dotv0l.
move: hu; rewrite subr0 scaler0 addr0 scalerA [dt * _]mulrC => ->.
by rewrite sub0r dotvNr dotvZr mulrA mulVf ?mul1r ?addr0 // mulf_neq0 // gt_eqF.
Qed.
Lemma hom_sym q u x q' u' y : 0 < theta -> 0 < dt -> hom q u x -> hom q' u' y ->
  \sum_f dotv (y f) (num_flux h tau q u x f) = \sum_f dotv (x f) (num_flux h tau q' u' y f).
Proof. by move=> th0 dt0 h1 h2; rewrite (hom_energy th0 dt0 h1 h2) (hom_energy th0 dt0 h2 h1) (form_sym _ hok) m_sym. Qed.
Lemma hom_neg q u x : 0 < theta -> 0 < dt -> 0 < tau -> hom q u x ->
  \sum_f dotv (x f) (num_flux h tau q u x f) <= 0 /\
  (\sum_f dotv (x f) (num_flux h tau q u x f) = 0 -> forall f, x f = 0).
Proof.
move=> th0 dt0 t0 h1; rewrite (hom_energy th0 dt0 h1 h1).
have f0 := form_ge0 hok q u x (ltW t0).
have c0 : 0 < (theta * dt)^-1 by rewrite invr_gt0 mulr_gt0.
have m0 : 0 <= (theta * dt)^-1 * dotv u (m *m u) by rewrite mulr_ge0 ?m_ge0 // ltW.
split; first by rewrite -opprD oppr_le0 addr_ge0.
move/eqP; rewrite -opprD oppr_eq0 paddr_eq0 // => /andP[/eqP hf /eqP hm] f.
have [_ hE] := form_eq0 hok t0 hf.
have u0 : u = 0.
  by apply: m_eq0; move/eqP: hm; rewrite mulf_eq0 gt_eqF //= => /eqP ->.
have := hE f; rewrite u0 mulmx0 => /esym/eqP; rewrite scaler_eq0 (negbTE (area_neq0 hok f)) => /eqP //.
Qed.

(** ** Stability *)
Definition mix (th : F) (V : lmodType F) (a b : V) : V := th *: a + (1 - th) *: b.
Lemma polar (u v : 'cV[F]_nf) : 2%:R * dotv (mix theta u v) (m *m (u - v)) =
  dotv u (m *m u) - dotv v (m *m v) + (2%:R * theta - 1) * dotv (u - v) (m *m (u - v)).
Proof.
have -> w : dotv (mix theta u v) w = theta * dotv u w + (1 - theta) * dotv v w.
  by rewrite /mix dotvDl !dotvZl.
rewrite mulmxBr !dotvBr !dotvBl (m_sym v u).
by ring.
Qed.
(** A step from a state which itself is (q0, u0, x0) with its rate. *)
Lemma step_energy q u x q0 u0 x0 : dt != 0 ->
  grad_eq h q0 u0 x0 (fun=> 0) -> step q u x (fun=> 0) 0 u0 (rate q0 u0 x0 0) ->
  let qm d := mix theta (q d) (q0 d) in let um := mix theta u u0 in let xm f := mix theta (x f) (x0 f) in
  dotv u (m *m u) - dotv u0 (m *m u0) + (2%:R * theta - 1) * dotv (u - u0) (m *m (u - u0)) =
  - (2%:R * dt) * (form h tau qm qm um um xm xm +
                   \sum_f dotv (xm f) (mix theta (num_flux h tau q u x f) (num_flux h tau q0 u0 x0 f))).
Proof.
move=> dt0 h0 [h1 hu] qm um xm.
have hz : grad_eq h (fun d => (1 - theta) *: q0 d + 0) ((1 - theta) *: u0 + 0) (fun f => (1 - theta) *: x0 f + 0) (fun=> 0).
  have z0 : grad_eq h (fun=> 0) 0 (fun=> 0) (fun=> 0).
    by move=> d; rewrite !mulmx0 subr0 big1 ?oppr0 ?addr0 // => f _; rewrite mulmx0 scaler0.
  by apply: grad_ext (grad_lin (1 - theta) h0 z0) => // d; rewrite scaler0 addr0.
have hm : grad_eq h qm um xm (fun=> 0).
  apply: grad_ext (grad_lin theta h1 hz) => [d||f|d]; rewrite ?addr0 //.
  by rewrite scaler0.
have rm : rate qm um xm 0 = mix theta (rate q u x 0) (rate q0 u0 x0 0).
  rewrite /mix; have -> : (1 - theta) *: rate q0 u0 x0 0 = rate (fun d => (1 - theta) *: q0 d + 0)
     ((1 - theta) *: u0 + 0) (fun f => (1 - theta) *: x0 f + 0) ((1 - theta) *: 0 + 0).
    rewrite rate_lin -[LHS]addr0; congr (_ + _); apply/esym.
    rewrite /S_DiffusionParab.rate !big1 ?scaler0 ?addr0 ?subr0 // => i _; exact: mulmx0.
  by rewrite -rate_lin; apply: rate_ext => // [d||f|]; rewrite ?addr0 // !scaler0 !addr0.
have fm f : mix theta (num_flux h tau q u x f) (num_flux h tau q0 u0 x0 f) = num_flux h tau qm um xm f.
  rewrite /mix; have -> : (1 - theta) *: num_flux h tau q0 u0 x0 f = num_flux h tau (fun d => (1 - theta) *: q0 d + 0)
     ((1 - theta) *: u0 + 0) (fun f => (1 - theta) *: x0 f + 0) f.
    rewrite flux_lin -[LHS]addr0; congr (_ + _); apply/esym.
    rewrite /num_flux big1 => [|d _]; last by rewrite mulmx0 scaler0.
    by rewrite mulmx0 !scaler0 subr0 addr0.
  by rewrite -flux_lin; apply: flux_ext => // [d||]; rewrite ?addr0.
rewrite -polar; under eq_bigr => f _ do rewrite fm.
rewrite (energy_rate 0 hm hm) [\sum_(d < dim) _]big1 => [|d _]; last by rewrite dotv0l.
rewrite sub0r dotvNr addr0 addrA subrr sub0r rm mulrNN -mulrA; congr (_ * _).
by rewrite hu dotvZr.
Qed.
End Theory.
