(** The parameter classes are solutions of their equations. *)
From Coq Require Import Reals Lra.
From mathcomp Require Import all_ssreflect.
From Verif Require Import M_Base L_Base M_Params S_Params L_Params.
Set Implicit Arguments. Unset Strict Implicit. Unset Printing Implicit Defensive.
Local Open Scope R_scope.

Section Edge.
Variables (n : nat) (a : nat -> R) (e : nat -> nat -> R).
Notation X := (chart n a e).
Notation elliptic := (elliptic n a e).
Lemma elliptic_ext inv u f inv' u' f' : (forall x, inv x = inv' x) -> (forall x, u x = u' x) -> (forall x, f x = f' x) ->
  elliptic inv u f -> elliptic inv' u' f'.
Proof.
move=> h1 h2 h3 [q [hq [dq [hd hs]]]]; exists q; split.
  move=> d hdn xi; rewrite -h1; apply: dlim_ext (hq d hdn xi) => s; by rewrite h2.
by exists dq; split=> // xi; rewrite hs h3.
Qed.
Lemma elliptic_unique inv u f f' : (forall x, inv x <> 0) -> elliptic inv u f -> elliptic inv u f' ->
  forall xi, f (X xi) = f' (X xi).
Proof.
move=> hi [q [hq [dq [hd hs]]]] [q' [hq' [dq' [hd' hs']]]] xi.
have eq d : (d < n)%N -> forall xi, q d xi = q' d xi.
  move=> hdn y; have := uniqueness_limite _ _ _ _ (hq d hdn y) (hq' d hdn y).
  move=> h; apply: (Rmult_eq_reg_l (inv (X y))) => //; lra.
rewrite -hs -hs'; apply: rsum_ext => d hdn.
by apply: uniqueness_limite (hd d hdn xi) _; apply: dlim_ext (hd' d hdn xi) => s; apply: eq.
Qed.
Lemma sin_elliptic k b inv : inv <> 0 -> along n e 0%N ->
  elliptic (fun=> inv) (fun x => sin (k * (x 0%N + b))) (fun x => k * k / inv * sin (k * (x 0%N + b))).
Proof.
move=> hi ha; exists (fun d xi => - (k / inv) * e d 0%N * cos (k * (X xi 0%N + b))); split.
  move=> d hd xi; apply: dlim_val (sin_deriv a e k b xi 0%N hd); by field.
exists (fun d xi => (k / inv) * e d 0%N * (k * e d 0%N * sin (k * (X xi 0%N + b)))); split.
  by move=> d hd xi; apply: dlim_val (dlim_scal _ (cos_deriv a e k b xi 0%N hd)); ring.
move=> xi; rewrite (@rsum_ext _ _ (fun d => (k * k / inv * sin (k * (X xi 0%N + b))) * (e d 0%N * e d 0%N))).
  by rewrite rsumM ha; ring.
by move=> d _; field.
Qed.
Lemma quad_elliptic m b sd : unit_directions n e sd ->
  elliptic (fun=> 1) (fun x => m * rsum sd (fun c => (x c + b) * (x c + b))) (fun=> - (2 * m) * INR n).
Proof.
move=> hu; exists (fun d xi => - m * rsum sd (fun c => 2 * ((X xi c + b) * e d c))); split.
  move=> d hd xi; apply: dlim_val (dlim_scal m (dlim_rsum (fun c _ => sqr_deriv a e b xi c hd))); ring.
exists (fun d xi => - (2 * m) * rsum sd (fun c => e d c * e d c)); split.
  move=> d hd xi.
  have h c : (c < sd)%N -> derivable_pt_lim (fun s => 2 * ((X (subst xi d s) c + b) * e d c)) (xi d) (2 * (e d c * e d c)).
    move=> _; apply: dlim_scal.
    apply: (@dlim_ext _ (fun s => e d c * (X (subst xi d s) c + b))); first by move=> s; ring.
    apply: dlim_val (dlim_scal (e d c) (dlim_plus (chart_deriv a e xi c hd) (derivable_pt_lim_const b (xi d)))); ring.
  apply: dlim_val (dlim_scal (- m) (dlim_rsum h)); rewrite rsumM; ring.
move=> xi; rewrite (@rsum_ext _ _ (fun=> - (2 * m))) ?rsum_const; first ring.
by move=> d hd; rewrite hu //; ring.
Qed.
Lemma chart_constant c xi : constant n e c -> X xi c = a c.
Proof. by move=> h; rewrite /chart rsum0 => [|d hd]; [lra | rewrite h //; lra]. Qed.
Lemma ho_any sd : elliptic (fun=> 4 * PI * PI) (fun x => rsum sd (fun c => sin (2 * PI * (x c + 0))))
    (fun x => rsum sd (fun c => rsum n (fun d => e d c * e d c) * sin (2 * PI * (x c + 0)))).
Proof.
have pi0 := PI_neq0.
exists (fun d xi => - (/ (4 * PI * PI)) * rsum sd (fun c => 2 * PI * e d c * cos (2 * PI * (X xi c + 0)))); split.
  move=> d hd xi; apply: dlim_val (dlim_rsum (fun c _ => sin_deriv a e (2 * PI) 0 xi c hd)); by field.
exists (fun d xi => rsum sd (fun c => e d c * e d c * sin (2 * PI * (X xi c + 0)))); split.
  move=> d hd xi.
  have h c : (c < sd)%N -> derivable_pt_lim (fun s => 2 * PI * e d c * cos (2 * PI * (X (subst xi d s) c + 0))) (xi d)
      (- (4 * PI * PI) * (e d c * e d c * sin (2 * PI * (X xi c + 0)))).
    move=> _; apply: dlim_val (dlim_scal (2 * PI * e d c) (cos_deriv a e (2 * PI) 0 xi c hd)); ring.
  by apply: dlim_val (dlim_scal (- (/ (4 * PI * PI))) (dlim_rsum h)); rewrite rsumM; field.
move=> xi; rewrite rsum_swap; apply: rsum_ext => c _.
rewrite (@rsum_ext _ _ (fun d => sin (2 * PI * (X xi c + 0)) * (e d c * e d c))) ?rsumM; [ring|by move=> d _; ring].
Qed.
Lemma ho_elliptic sd : half_grid n a e sd ->
  elliptic (fun=> 4 * PI * PI) (fun x => rsum sd (fun c => sin (2 * PI * (x c + 0)))) (fun x => rsum sd (fun c => sin (2 * PI * (x c + 0)))).
Proof.
move=> hh; have [q [hq [dq [hd hs]]]] := ho_any sd; exists q; split=> //; exists dq; split=> // xi; rewrite hs.
apply: rsum_ext => c hc; case: (hh c hc) => [->|[hk [z hz]]]; first ring.
rewrite (chart_constant xi hk) hz sin_eq_0_1; first ring.
by exists z; field.
Qed.
End Edge.

Section Classes.
Variables (n : nat) (a : nat -> R) (e : nat -> nat -> R).
Lemma sin_elliptP : along n e 0%N -> forall t, elliptic n a e ((dp_inv sin_ellipt)^~ t) ((dp_result sin_ellipt)^~ t) ((dp_rhs sin_ellipt)^~ t).
Proof.
move=> h t; have pi0 := PI_neq0; have i0 : / 2 * PI <> 0 by lra.
apply: elliptic_ext (@sin_elliptic n a e (/ 2 * PI) 0 (/ 2 * PI) i0 h) => x //=; rewrite Rplus_0_r //.
by field.
Qed.
Lemma quad_elliptP sd : unit_directions n e sd ->
  forall t, elliptic n a e ((dp_inv (quad_ellipt n sd))^~ t) ((dp_result (quad_ellipt n sd))^~ t) ((dp_rhs (quad_ellipt n sd))^~ t).
Proof.
move=> h t; apply: elliptic_ext (@quad_elliptic n a e (-1) 0 sd h) => x //=; last by ring.
rewrite for_rsub; rewrite (@rsum_ext _ _ (fun c => x c * x c)); first ring.
by move=> c _; ring.
Qed.
Lemma ho_elliptP sd : half_grid n a e sd ->
  forall t, elliptic n a e ((dp_inv (quad_ellipt_ho sd))^~ t) ((dp_result (quad_ellipt_ho sd))^~ t) ((dp_rhs (quad_ellipt_ho sd))^~ t).
Proof.
move=> h t; have E x : rsum sd (fun c => sin (2 * PI * (x c + 0))) = for_ sd (fun d r => r + sin (2 * PI * x d)) 0.
  by rewrite for_rsum; apply: rsum_ext => c _; rewrite Rplus_0_r.
by apply: elliptic_ext (ho_elliptic h) => x //=; rewrite E.
Qed.
Lemma time_deriv x t : derivable_pt_lim (fun s => sin (PI * (x + s))) t (PI * cos (PI * (x + t))).
Proof. apply: dlim_val (dlim_sin (dlim_scal PI (dlim_shift x t))); ring. Qed.
Lemma sin_parabP : along n e 0%N -> parabolic n a e (dp_inv sin_parab) (dp_result sin_parab) (dp_rhs sin_parab).
Proof.
move=> h; exists (fun x t => PI * cos (PI * (x 0%N + t))); split=> [x t|t]; first exact: time_deriv.
have pi0 := PI_neq0; apply: elliptic_ext (@sin_elliptic n a e PI t PI pi0 h) => x //=.
by field.
Qed.
Lemma bi_sin_elliptP : along n e 0%N -> forall t, biharmonic n a e ((bp_inv bi_sin_ellipt)^~ t)
  ((bp_result bi_sin_ellipt)^~ t) ((bp_laplace bi_sin_ellipt)^~ t) ((bp_rhs bi_sin_ellipt)^~ t).
Proof.
move=> h t; have h1 := @sin_elliptic n a e PI 0 1 R1_neq_R0 h; split.
  by apply: elliptic_ext h1 => x //=; rewrite Rplus_0_r //; field.
have [q [hq [dq [hd hs]]]] := h1; exists (fun d xi => PI * q d xi); split.
  move=> d hdn xi /=; apply: (@dlim_val _ _ (PI * - (1 * q d xi))); first ring.
  apply: dlim_scal; apply: dlim_ext (hq d hdn xi) => s; by rewrite Rplus_0_r.
exists (fun d xi => PI * dq d xi); split=> [d hdn xi|xi]; first by apply: dlim_scal; apply: hd.
by rewrite rsumM hs /= Rplus_0_r; field.
Qed.
Lemma const_elliptic c : elliptic n a e (fun=> 1) (fun=> c) (fun=> 0).
Proof.
exists (fun _ _ => 0); split=> [d _ xi|]; first by apply: dlim_val (derivable_pt_lim_const c (xi d)); ring.
exists (fun _ _ => 0); split=> [d _ xi|xi]; first exact: derivable_pt_lim_const.
exact: rsum0.
Qed.
Lemma bi_quad_elliptP sd : unit_directions n e sd -> forall t, biharmonic n a e ((bp_inv (bi_quad_ellipt n sd))^~ t)
  ((bp_result (bi_quad_ellipt n sd))^~ t) ((bp_laplace (bi_quad_ellipt n sd))^~ t) ((bp_rhs (bi_quad_ellipt n sd))^~ t).
Proof.
move=> h t; split; last exact: const_elliptic.
apply: elliptic_ext (@quad_elliptic n a e 1 0 sd h) => x //=; last by ring.
by rewrite for_rsum Rmult_1_l; apply: rsum_ext => c _; rewrite Rplus_0_r.
Qed.
Lemma bi_sin_parabP : along n e 0%N -> exists ut, (forall x t, derivable_pt_lim (bp_result bi_sin_parab x) t (ut x t)) /\
  forall t, biharmonic n a e ((bp_inv bi_sin_parab)^~ t) ((bp_result bi_sin_parab)^~ t) ((bp_laplace bi_sin_parab)^~ t)
    (fun x => bp_rhs bi_sin_parab x t - ut x t).
Proof.
move=> h; exists (fun x t => PI * cos (PI * (x 0%N + t))); split=> [x t|t]; first exact: time_deriv.
have h1 := @sin_elliptic n a e PI t 1 R1_neq_R0 h; split.
  by apply: elliptic_ext h1 => x //=; field.
have [q [hq [dq [hd hs]]]] := h1; exists (fun d xi => PI * q d xi); split.
  move=> d hdn xi /=; apply: (@dlim_val _ _ (PI * - (1 * q d xi))); first ring.
  by apply: dlim_scal; apply: hq.
exists (fun d xi => PI * dq d xi); split=> [d hdn xi|xi]; first by apply: dlim_scal; apply: hd.
by rewrite rsumM hs /=; field.
Qed.
Lemma tangential0 sd (v : R) d : (0 < sd)%N -> tangential e sd (fun c => if c == 0%N then v else 0) d = v * e d 0%N.
Proof.
case: sd => // sd _; rewrite /tangential; elim: sd => [|sd /= IH] /=; first ring.
by rewrite IH; ring.
Qed.
Lemma adv_sin_parabP sd : (0 < sd)%N -> along n e 0%N -> transport n a e sd (ap_velocity adv_sin_parab) (ap_result adv_sin_parab) (ap_rhs adv_sin_parab).
Proof.
move=> s0 h; exists (fun x t => PI * cos (PI * (x 0%N + t))); split=> [x t|t]; first exact: time_deriv.
have pi0 := PI_neq0; exists (fun d xi => e d 0%N * e d 0%N * cos (PI * (chart n a e xi 0%N + t))); split.
  move=> d hd xi /=; apply: (@dlim_ext _ (fun s => 1 / PI * e d 0%N * sin (PI * (chart n a e (subst xi d s) 0%N + t)))).
    by move=> s; rewrite tangential0.
  by apply: dlim_val (dlim_scal _ (sin_deriv a e PI t xi 0%N hd)); field.
move=> xi /=; rewrite (@rsum_ext _ _ (fun d => cos (PI * (chart n a e xi 0%N + t)) * (e d 0%N * e d 0%N))) ?rsumM ?h; first ring.
by move=> d _; ring.
Qed.
Lemma adr_sin_elliptP sd : (0 < sd)%N -> along n e 0%N -> forall t, reactive n a e (fun x => cos (/ 4 * PI * x 0%N) <> 0) sd
  ((rp_inv adr_sin_ellipt)^~ t) ((rp_velocity adr_sin_ellipt)^~ t) ((rp_reaction adr_sin_ellipt)^~ t)
  ((rp_result adr_sin_ellipt)^~ t) ((rp_rhs adr_sin_ellipt)^~ t).
Proof.
move=> s0 h t; pose k := / 4 * PI; pose X := chart n a e.
exists (fun d xi => e d 0%N * (sin (k * (X xi 0%N + 0)) - k)), (fun d xi => e d 0%N * (k * e d 0%N * cos (k * (X xi 0%N + 0)))); split.
- move=> d hd xi hok /=.
  have E : tangential e sd (fun c => 1 / cos (/ 4 * PI * chart n a e xi 0%N) * (if c == 0%N then - / 4 * PI * sin (/ 4 * PI * chart n a e xi 0%N) + 1 else 0)) d =
      1 / cos (/ 4 * PI * chart n a e xi 0%N) * (- / 4 * PI * sin (/ 4 * PI * chart n a e xi 0%N) + 1) * e d 0%N.
    rewrite -(@tangential0 sd _ d s0); apply: rsum_ext => c _; case: eqP => _; ring.
  rewrite E; apply: dlim_ext (dlim_val _ (sin_deriv a e k 0 xi 0%N hd)); first by move=> s; rewrite Rplus_0_r.
  rewrite Rplus_0_r /X -/k; move: hok; rewrite -/k; move: (chart n a e xi 0%N) => y hok.
  have sc := sin2_cos2 (k * y); rewrite /Rsqr in sc.
  apply: (Rmult_eq_reg_l (cos (k * y))) => //.
  set c := cos (k * y) in hok sc *; set s := sin (k * y) in sc *.
  have -> : c * (1 / c * (- / 4 * PI * s + 1) * e d 0%N * s - 1 / c * (e d 0%N * (s - k))) = e d 0%N * ((- / 4 * PI * s + 1) * s - s + k) by field.
  have -> : - / 4 * PI = - k by rewrite /k; ring.
  have -> : e d 0%N * ((- k * s + 1) * s - s + k) = e d 0%N * (k * (1 - s * s)) by ring.
  rewrite -sc; ring.
- move=> d hd xi _; apply: dlim_scal.
  apply: (@dlim_val _ _ (k * e d 0%N * cos (k * (chart n a e xi 0%N + 0)) + - 0)); first by rewrite /X; ring.
  exact: (dlim_plus (sin_deriv a e k 0 xi 0%N hd) (dlim_opp (derivable_pt_lim_const k (xi d)))).
move=> xi _ /=; rewrite (@rsum_ext _ _ (fun d => (k * cos (k * (X xi 0%N + 0))) * (e d 0%N * e d 0%N))) ?rsumM ?h; last by move=> d _; ring.
by rewrite Rplus_0_r /X /k; ring.
Qed.
Lemma adr_quad_elliptP sd : unit_directions n e sd -> forall t, reactive n a e (fun x => rp_result (adr_quad_ellipt n sd) x t <> 0) sd
  ((rp_inv (adr_quad_ellipt n sd))^~ t) ((rp_velocity (adr_quad_ellipt n sd))^~ t) ((rp_reaction (adr_quad_ellipt n sd))^~ t)
  ((rp_result (adr_quad_ellipt n sd))^~ t) ((rp_rhs (adr_quad_ellipt n sd))^~ t).
Proof.
move=> hu t; pose X := chart n a e.
have [q [hq [dq [hd hs]]]] := @quad_elliptic n a e (-1) (-2) sd hu.
have E x : for_ sd (fun d r => r - (x d - 2) * (x d - 2)) 0 = -1 * rsum sd (fun c => (x c + -2) * (x c + -2)).
  rewrite for_rsub; have -> : rsum sd (fun c => (x c - 2) * (x c - 2)) = rsum sd (fun c => (x c + -2) * (x c + -2)) by apply: rsum_ext => c _; ring.
  ring.
have hq2 d xi : (d < n)%N -> q d xi = 2 * rsum sd (fun c => (X xi c + -2) * e d c).
  move=> hdn; have := uniqueness_limite _ _ _ _ (hq d hdn xi) (dlim_scal (-1) (dlim_rsum (fun c (_ : (c < sd)%N) => sqr_deriv a e (-2) xi c hdn))).
  rewrite rsumM /X; lra.
exists (fun d xi => 3 / 2 * q d xi), (fun d xi => 3 / 2 * dq d xi); split.
- move=> d hdn xi hok /=; apply: dlim_ext (dlim_val _ (hq d hdn xi)); first by move=> s; rewrite E.
  have -> : tangential e sd (fun c => 1 * (if (c < sd)%N then (chart n a e xi c - 2) / for_ sd (fun d0 r => r - (chart n a e xi d0 - 2) * (chart n a e xi d0 - 2)) 0 else 0)) d =
      / for_ sd (fun d0 r => r - (chart n a e xi d0 - 2) * (chart n a e xi d0 - 2)) 0 * rsum sd (fun c => (X xi c + -2) * e d c).
    by rewrite -rsumM; apply: rsum_ext => c hc; rewrite hc /Rdiv /X; ring.
  rewrite hq2 //; move: hok => /=; move: (for_ _ _ _) => v hv; by field.
- by move=> d hdn xi _; apply: dlim_scal; apply: hd.
move=> xi _ /=; rewrite rsumM hs; move: (for_ _ _ _) => v; by field.
Qed.
End Classes.

(** Hyperedges along the axes. *)
Lemma axes_unit n sd k : (k + n <= sd)%N -> unit_directions n (axes k) sd.
Proof.
move=> hn d hd; have hs : (k + d < sd)%N by apply: leq_trans hn; rewrite ltn_add2l.
rewrite (@rsum_ext _ _ (fun c => if c == (k + d)%N then 1 else 0)); last first.
  by move=> c _; rewrite /axes eq_sym; case: eqP => _; ring.
elim: sd hs {hn} => //= sd IH; rewrite ltnS leq_eqVlt => /orP [/eqP h|h].
  by rewrite -h eqxx rsum0 => [|c hc]; [ring | case: eqP => // e; rewrite e h ltnn in hc].
by rewrite IH //; case: eqP => [e|_]; [rewrite e ltnn in h | ring].
Qed.
Lemma axes_along n k c : (k <= c < k + n)%N -> along n (axes k) c.
Proof.
move=> /andP [h1 h2]; rewrite /along (@rsum_ext _ _ (fun d => if d == (c - k)%N then 1 else 0)); last first.
  move=> d _; rewrite /axes -[(d == _)](eqn_add2l k) subnKC //; case: eqP => _; ring.
have : (c - k < n)%N by rewrite ltn_subLR.
elim: n {h2} => //= n IH; rewrite ltnS leq_eqVlt => /orP [/eqP h|h].
  by rewrite -h eqxx rsum0 => [|d hd]; [ring | case: eqP => // e; rewrite e h ltnn in hd].
by rewrite IH //; case: eqP => [e|_]; [rewrite e ltnn in h | ring].
Qed.
Lemma axes_constant n k c : ((c < k) || (k + n <= c))%N -> constant n (axes k) c.
Proof.
move=> h d hd; rewrite /axes; case: eqP => // e; move: h; rewrite -e ltnNge leq_addr /=.
by rewrite leq_add2l leqNgt hd.
Qed.
Lemma axes_half n k sd (a : nat -> R) : (forall c, exists z, a c = IZR z / 2) -> half_grid n a (axes k) sd.
Proof.
move=> ha c _; case h: (k <= c < k + n)%N; first by left; apply: axes_along.
by right; split=> //; apply: axes_constant; move/negbT: h; rewrite negb_and -ltnNge -leqNgt.
Qed.
Lemma sin_ellipt_line : ~ elliptic 1 (fun=> 1) (axes 1) ((dp_inv sin_ellipt)^~ 0) ((dp_result sin_ellipt)^~ 0) ((dp_rhs sin_ellipt)^~ 0).
Proof.
have pi0 := PI_neq0; move=> h.
have hk : constant 1 (axes 1) 0%N by apply: axes_constant.
have h0 : elliptic 1 (fun=> 1) (axes 1) ((dp_inv sin_ellipt)^~ 0) ((dp_result sin_ellipt)^~ 0) (fun=> 0).
  exists (fun _ _ => 0); split=> [d _ xi|] /=.
    apply: (@dlim_ext _ (fun=> sin (/ 2 * PI * 1))); first by move=> s; rewrite (chart_constant _ _ hk).
    by apply: dlim_val (derivable_pt_lim_const _ (xi d)); ring.
  exists (fun _ _ => 0); split=> [d _ xi|xi]; [exact: derivable_pt_lim_const | exact: rsum0].
have hi x : (dp_inv sin_ellipt)^~ 0 x <> 0 by move=> /=; lra.
have := elliptic_unique hi h h0 (fun=> 0); rewrite /= (chart_constant _ _ hk).
have -> : / 2 * PI * 1 = PI / 2 by field.
rewrite sin_PI2; lra.
Qed.
Lemma ho_line (a := fun c => if c == 1%N then / 4 else 0) :
  ~ elliptic 1 a (axes 0) ((dp_inv (quad_ellipt_ho 2))^~ 0) ((dp_result (quad_ellipt_ho 2))^~ 0) ((dp_rhs (quad_ellipt_ho 2))^~ 0).
Proof.
have pi0 := PI_neq0; move=> h; have hk : constant 1 (axes 0) 1%N by apply: axes_constant.
have hi x : (dp_inv (quad_ellipt_ho 2))^~ 0 x <> 0.
  by rewrite /=; apply: Rmult_integral_contrapositive; split=> //; lra.
have h0 : elliptic 1 a (axes 0) ((dp_inv (quad_ellipt_ho 2))^~ 0) ((dp_result (quad_ellipt_ho 2))^~ 0)
   (fun x => rsum 2 (fun c => rsum 1 (fun d => axes 0 d c * axes 0 d c) * sin (2 * PI * (x c + 0)))).
  apply: elliptic_ext (ho_any 1 a (axes 0) 2) => x //.
  by rewrite [RHS](for_rsum 2 (fun d => sin (2 * PI * x d))); apply: rsum_ext => c _; rewrite Rplus_0_r.
have := elliptic_unique hi h h0 (fun=> 0).
rewrite [LHS](for_rsum 2 (fun d => sin (2 * PI * chart 1 a (axes 0) (fun=> 0) d))) /= (chart_constant _ _ hk) /a /axes /=.
have -> : 2 * PI * / 4 = PI / 2 by field.
rewrite sin_PI2 Rplus_0_r; move: (sin _) => s; lra.
Qed.
Lemma axes_example n sd k : (k + n <= sd)%N -> unit_directions n (axes k) sd /\ half_grid n (fun=> / 2) (axes k) sd.
Proof.
move=> h; split; first exact: axes_unit.
by apply: axes_half => c; exists 1%Z; field.
Qed.
Lemma axes_first n : (0 < n)%N -> along n (axes 0) 0%N.
Proof. by move=> h; apply: axes_along. Qed.
Lemma diffusion_values (P : diffusion_params) hd sd x t : P = sin_ellipt \/ P = quad_ellipt hd sd \/ P = quad_ellipt_ho sd \/ P = sin_parab ->
  dp_dirichlet P x t = dp_result P x t /\ dp_initial P x t = dp_result P x t.
Proof. by move=> [->|[->|[->|->]]]. Qed.
Lemma bilaplacian_values (P : bilaplacian_params) hd sd x t : P = bi_sin_ellipt \/ P = bi_quad_ellipt hd sd \/ P = bi_sin_parab ->
  bp_dirichlet P x t = bp_result P x t /\ bp_initial P x t = bp_result P x t.
Proof. by move=> [->|[->|->]]. Qed.
Lemma advection_values x t : ap_dirichlet adv_sin_parab x t = ap_result adv_sin_parab x t /\
  ap_initial adv_sin_parab x t = ap_result adv_sin_parab x t.
Proof. by []. Qed.
Lemma reaction_values (P : reaction_params) hd sd x t : P = adr_sin_ellipt \/ P = adr_quad_ellipt hd sd ->
  rp_dirichlet P x t = rp_result P x t /\ rp_initial P x t = rp_result P x t.
Proof. by move=> [->|->]. Qed.
Lemma parab_laplace x t : bp_initial_laplace bi_sin_parab x t = bp_laplace bi_sin_parab x t.
Proof. by []. Qed.
Lemma inverse_values x t sd : sin_ellipt_coeff * dp_inv sin_ellipt x t = 1 /\
  quad_ellipt_ho_coeff * dp_inv (quad_ellipt_ho sd) x t = 1.
Proof. by have pi0 := PI_neq0; split; rewrite /sin_ellipt_coeff /quad_ellipt_ho_coeff /=; field. Qed.
Lemma initial_laplace_differs : exists x, bp_initial_laplace bi_sin_ellipt x 0 <> bp_laplace bi_sin_ellipt x 0 /\
  bp_initial_laplace (bi_quad_ellipt 1 1) x 0 <> bp_laplace (bi_quad_ellipt 1 1) x 0.
Proof.
exists (fun=> / 2); rewrite /=; have -> : PI * / 2 = PI / 2 by field.
rewrite sin_PI2; split; first by have := PI2_3_2; lra.
by rewrite /for_ /=; lra.
Qed.
