(** Upwind forms, and the local solver AdvectionParab with the contract of its integrals. *)
From mathcomp Require Import all_ssreflect all_algebra zify ring.
From Verif Require Import M_Base L_Base M_Index L_Index M_DenseLA S_DenseLA L_DenseLA M_Lapack S_Lapack L_Lapack.
From Verif Require Import S_Hdg L_Hdg S_LocalSolver M_DiffusionUniform M_Diffusion S_Diffusion.
From Verif Require Import L_LocalBase L_LocalLink L_DiffusionUniform L_Diffusion L_DiffusionParab.
From Verif Require Import M_AdvectionParab S_AdvectionParab L_AdvectionParab.
Set Implicit Arguments. Unset Strict Implicit. Unset Printing Implicit Defensive.
Import Order.TTheory GRing.Theory Num.Theory.
Local Open Scope ring_scope.

Section Forms.
Variable F : realFieldType.
(** Value of a combination of functions at a point. *)
Definition pval n (h : nat -> F) (u : 'cV[F]_n) : F := \sum_(i < n) h i * u i 0.
Lemma pval0 n h : pval h (0 : 'cV[F]_n) = 0.
Proof. by rewrite /pval big1 // => i _; rewrite mxE mulr0. Qed.
Lemma pvalD n h (u v : 'cV[F]_n) : pval h (u + v) = pval h u + pval h v.
Proof. by rewrite /pval -big_split; apply: eq_bigr => i _; rewrite mxE mulrDr. Qed.
Lemma pvalZ n h c (u : 'cV[F]_n) : pval h (c *: u) = c * pval h u.
Proof. by rewrite /pval mulr_sumr; apply: eq_bigr => i _; rewrite mxE mulrCA. Qed.
Lemma dot_form n k r (a : nat -> F) (al be : nat -> nat -> F) (g : nat -> nat -> F) (u : 'cV[F]_n) (v : 'cV[F]_k) :
  (forall i j, (i < n)%N -> (j < k)%N -> g i j = \sum_(s < r) a s * (al s i * be s j)) ->
  dotv u (mat_of n k g *m v) = \sum_(s < r) a s * (pval (al s) u * pval (be s) v).
Proof.
move=> hg; rewrite /dotv.
transitivity (\sum_(i < n) \sum_(s < r) \sum_(j < k) u i 0 * (a s * (al s i * be s j) * v j 0)).
  apply: eq_bigr => i _; rewrite mxE mulr_sumr exchange_big; apply: eq_bigr => j _.
  by rewrite mxE hg // mulr_suml mulr_sumr.
rewrite exchange_big; apply: eq_bigr => s _.
rewrite /pval mulr_suml mulr_sumr; apply: eq_bigr => i _; rewrite mulr_sumr mulr_sumr; apply: eq_bigr => j _.
ring.
Qed.
Lemma max_min (w : F) : Num.max w 0 = w - Num.min w 0.
Proof. by have := addr_max_min w 0; rewrite addr0 => {2}<-; rewrite addrK. Qed.
Lemma min_abs (w : F) : w - 2%:R * Num.min w 0 = `|w|.
Proof.
have [h|h] := leP w 0; first by rewrite ler0_norm //; ring.
by rewrite gtr0_norm // mulr0 subr0.
Qed.
End Forms.

Section Contract.
Variable F : realFieldType.
Variables (dim nb nf : nat) (dirs outs bnds : seq nat) (tau theta dt : F) (P : ap_data F) (W : upwind_data F).
Hypothesis hW : upwind_contract dim nb nf W P.
Notation nF := (2 * dim)%N.
Notation phi := (up_phi W).
Notation psi := (up_psi W).
Implicit Types (x y : seq (seq F)) (u v : 'cV[F]_nf).
Notation tr x f := (@tr F nF nb x f).
Notation pt := (fun f s u => pval (phi f s) u).

Lemma up_vol : mat_of nf nf (ap_vol P) = (ap_area P)%:M.
Proof. by apply/matrixP => i j; case: hW => _ _ _ _ [_ _ _ _ h]; rewrite !mxE h. Qed.
Lemma up_area : 0 < ap_area P.
Proof. by case: hW => _ _ _ _ []. Qed.
Lemma mat_add2 n k (g h : nat -> nat -> F) c : mat_of n k (fun i j => g i j + c * h i j) = mat_of n k g + c *: mat_of n k h.
Proof. by apply/matrixP => i j; rewrite !mxE. Qed.
Lemma mat_sub2 n k (g h : nat -> nat -> F) c : mat_of n k (fun i j => g i j - c * h i j) = mat_of n k g - c *: mat_of n k h.
Proof. by apply/matrixP => i j; rewrite !mxE. Qed.
Lemma dot_adv u : 2%:R * dotv u (mat_of nf nf (ap_adv P) *m u) =
  \sum_(f < nF) \sum_(s < up_n W f) up_w W f s * pval (phi f s) u ^+ 2.
Proof.
have e : 2%:R * dotv u (mat_of nf nf (ap_adv P) *m u) =
  dotv u (mat_of nf nf (fun i j => ap_adv P i j + ap_adv P j i) *m u).
  have -> : mat_of nf nf (fun i j => ap_adv P i j + ap_adv P j i) = mat_of nf nf (ap_adv P) + (mat_of nf nf (ap_adv P))^T.
    by apply/matrixP => i j; rewrite !mxE.
  rewrite mulmxDl dotvDr -dotv_mxl [X in _ = _ + X]dotvC; ring.
rewrite e.
have -> : mat_of nf nf (fun i j => ap_adv P i j + ap_adv P j i) = \sum_(f < nF) mat_of nf nf
   (fun i j => \sum_(s < up_n W f) up_w W f s * (phi f s i * phi f s j)).
  apply/matrixP => i j; case: hW => _ _ _ _ [h _ _ _ _]; rewrite mxE h // summxE.
  by apply: eq_bigr => f _; rewrite mxE.
rewrite mulmx_suml dotv_sumr; apply: eq_bigr => f _.
rewrite (@dot_form _ _ _ (up_n W f) (up_w W f) (phi f) (phi f)) //.
Qed.
Lemma dot_bb (f : 'I_nF) v u : dotv v (mat_of nf nf (fun i j => ap_bbn P i j f + tau * ap_bb P i j f) *m u) =
  \sum_(s < up_n W f) (Num.max (up_w W f s) 0 + tau * up_c W f s) * (pval (phi f s) v * pval (phi f s) u).
Proof.
apply: (@dot_form _ _ _ (up_n W f) (fun s => Num.max (up_w W f s) 0 + tau * up_c W f s) (phi f) (phi f)) => i j hi hj.
case: hW => _ h _ _ _; have [-> ->] := h f i j (ltn_ord f) hi hj.
rewrite mulr_sumr -big_split; apply: eq_bigr => s _ /=; ring.
Qed.
Lemma dot_bp (f : 'I_nF) u (l : 'cV[F]_nb) :
  dotv u (mat_of nf nb (fun i j => ap_bpn P i j f - tau * ap_bp P i j f) *m l) =
  \sum_(s < up_n W f) (Num.min (up_w W f s) 0 - tau * up_c' W f s) * (pval (phi f s) u * pval (psi f s) l).
Proof.
apply: (@dot_form _ _ _ (up_n W f) (fun s => Num.min (up_w W f s) 0 - tau * up_c' W f s) (phi f) (psi f)) => i j hi hj.
case: hW => _ _ h _ _; have [-> -> _ _] := h f i j (ltn_ord f) hi hj.
rewrite mulr_sumr -sumrB; apply: eq_bigr => s _ /=; ring.
Qed.
Lemma dot_pb (f : 'I_nF) u (l : 'cV[F]_nb) :
  dotv l (mat_of nb nf (fun i j => ap_pbn P i j f + tau * ap_pb P i j f) *m u) =
  \sum_(s < up_n W f) (Num.max (up_w W f s) 0 + tau * up_c W f s) * (pval (psi f s) l * pval (phi f s) u).
Proof.
apply: (@dot_form _ _ _ (up_n W f) (fun s => Num.max (up_w W f s) 0 + tau * up_c W f s) (psi f) (phi f)) => i j hi hj.
case: hW => _ _ h _ _; have [_ _ -> ->] := h f j i (ltn_ord f) hj hi.
rewrite mulr_sumr -big_split; apply: eq_bigr => s _ /=; ring.
Qed.
Lemma dot_pp (f : 'I_nF) (k l : 'cV[F]_nb) :
  dotv k (mat_of nb nb (fun i j => ap_ppn P i j f - tau * ap_pp P i j f) *m l) =
  \sum_(s < up_n W f) (Num.min (up_w W f s) 0 - tau * up_c' W f s) * (pval (psi f s) k * pval (psi f s) l).
Proof.
apply: (@dot_form _ _ _ (up_n W f) (fun s => Num.min (up_w W f s) 0 - tau * up_c' W f s) (psi f) (psi f)) => i j hi hj.
case: hW => _ _ _ h _; have [-> ->] := h f i j (ltn_ord f) hi hj.
rewrite mulr_sumr -sumrB; apply: eq_bigr => s _ /=; ring.
Qed.

(** ** Dissipation *)
Definition face_rate x u (f : 'I_nF) : F := \sum_(s < up_n W f)
  (`|up_w W f s| * pval (phi f s) u ^+ 2 +
   2%:R * Num.min (up_w W f s) 0 * (pval (phi f s) u * pval (psi f s) (tr x f)) +
   2%:R * tau * (up_c W f s * pval (phi f s) u ^+ 2 - up_c' W f s * (pval (phi f s) u * pval (psi f s) (tr x f)))).
Lemma dot_hom_rate x u : 2%:R * dotv u (hom_rate dim nb tau P x u) = - \sum_(f < nF) face_rate x u f.
Proof.
rewrite /hom_rate dotvBr mulrBr dot_adv dotv_sumr mulr_sumr -sumrB -sumrN; apply: eq_bigr => f _.
rewrite /face_terms dotvDr dot_bb dot_bp -big_split mulr_sumr -sumrB -sumrN; apply: eq_bigr => s _ /=.
rewrite max_min -min_abs; move: (Num.min _ _) (pval _ _) (pval _ _) => *; ring.
Qed.
Lemma dissipative u : 0 <= tau -> dotv u (hom_rate dim nb tau P [::] u) <= 0.
Proof.
move=> ht; rewrite -(@pmulr_rle0 _ 2%:R) ?ltr0n // dot_hom_rate oppr_le0; apply: sumr_ge0 => f _.
have tr0 : tr [::] f = 0 by apply/colP => j; rewrite !mxE nth_nil nth_nil.
apply: sumr_ge0 => s _; rewrite tr0 pval0 !mulr0 addr0 subr0.
case: hW => hc _ _ _ _; apply: addr_ge0; first by rewrite mulr_ge0 ?normr_ge0 ?sqr_ge0.
by apply: mulr_ge0; [rewrite mulr_ge0 ?ler0n | rewrite mulr_ge0 ?hc ?sqr_ge0].
Qed.
Lemma hom_rate_nil u : hom_rate dim nb tau P [::] u =
  mat_of nf nf (ap_adv P) *m u - \sum_(f < nF) mat_of nf nf (fun i j => ap_bbn P i j f + tau * ap_bb P i j f) *m u.
Proof.
rewrite /hom_rate; congr (_ - _); apply: eq_bigr => f _; rewrite /face_terms.
rewrite (_ : tr [::] f = 0) ?mulmx0 ?addr0 //; by apply/colP => j; rewrite !mxE nth_nil nth_nil.
Qed.
(** The only steady free state is zero. *)
Lemma free_step0 u : 0 <= tau -> 0 <= theta * dt -> ap_area P *: u = (theta * dt) *: hom_rate dim nb tau P [::] u -> u = 0.
Proof.
move=> t0 c0 /(congr1 (dotv u)); rewrite !dotvZr => h; apply/eqP; rewrite -dotv_eq0 eq_le dotv_ge0 andbT.
by rewrite -(pmulr_rle0 _ up_area) h mulr_ge0_le0 // dissipative.
Qed.

(** ** Linearity *)
Lemma face_terms_lin c x y z u v f : is_trace nF nb x -> is_trace nF nb y -> (forall g, tr z g = c *: tr x g + tr y g) ->
  face_terms dim nb tau P z (c *: u + v) f = c *: face_terms dim nb tau P x u f + face_terms dim nb tau P y v f.
Proof. by move=> _ _ hz; rewrite /face_terms hz !mulmxDr -!scalemxAr scalerDr addrACA. Qed.
Lemma hom_rate_lin c x y z u v : (forall g, tr z g = c *: tr x g + tr y g) ->
  hom_rate dim nb tau P z (c *: u + v) = c *: hom_rate dim nb tau P x u + hom_rate dim nb tau P y v.
Proof.
move=> hz; rewrite /hom_rate mulmxDr -scalemxAr.
rewrite (eq_bigr (fun f => c *: face_terms dim nb tau P x u f + face_terms dim nb tau P y v f)); last first.
  by move=> f _; rewrite /face_terms hz !mulmxDr -!scalemxAr scalerDr addrACA.
by rewrite big_split -scaler_sumr /= scalerBr opprD addrACA.
Qed.
Lemma adv_flux_lin c x y z u v f : (forall g, tr z g = c *: tr x g + tr y g) ->
  adv_flux dim nb outs bnds tau P z (c *: u + v) f =
  c *: adv_flux dim nb outs bnds tau P x u f + adv_flux dim nb outs bnds tau P y v f.
Proof.
move=> hz; rewrite /adv_flux; case: ifP => _; rewrite /stab_flux /full_flux hz !mulmxDr -!scalemxAr; last first.
  by rewrite scalerDr addrACA.
set a := _ *m u; set b := _ *m v; set a' := _ *m tr x f; set b' := _ *m tr y f.
by rewrite opprD addrACA -scalerBr [LHS]scalerDr !scalerA [in RHS]mulrC.
Qed.
Lemma adv_rateE x u : adv_rate dim nb dirs bnds tau P x u = hom_rate dim nb tau P x u +
  (col_of nf (ap_src P) - \sum_(f < nF | inflow_face dirs bnds P f) col_of nf (fun i => ap_dirval P i f)).
Proof. by rewrite /adv_rate /hom_rate [RHS]addrCA -!addrA. Qed.
Lemma hom_rate_ext x y u : (forall f, tr x f = tr y f) -> hom_rate dim nb tau P x u = hom_rate dim nb tau P y u.
Proof. by move=> h; rewrite /hom_rate; congr (_ - _); apply: eq_bigr => f _; rewrite /face_terms h. Qed.

Section Step.
Hypotheses (tau0 : 0 <= tau) (c0 : 0 <= theta * dt).
Lemma tr_nil (f : 'I_nF) : tr [::] f = 0.
Proof. by apply/colP => j; rewrite !mxE nth_nil nth_nil. Qed.
Lemma hom_diff x u v : hom_rate dim nb tau P x u - hom_rate dim nb tau P x v = hom_rate dim nb tau P [::] (u - v).
Proof.
have := @hom_rate_lin (-1) x x [::] v u; rewrite !scaleN1r addrC => ->; first by rewrite addrC.
by move=> g; rewrite tr_nil scaleN1r addNr.
Qed.
Lemma adv_step_unique S x u v : adv_step dim nb dirs bnds tau theta dt P S x u ->
  adv_step dim nb dirs bnds tau theta dt P S x v -> u = v.
Proof.
rewrite /adv_step => h1 h2; apply/eqP; rewrite -subr_eq0; apply/eqP/(free_step0 tau0 c0).
have e : ap_area P *: (u - v) = ap_area P *: (u - adv_u nf S) - ap_area P *: (v - adv_u nf S).
  by rewrite -scalerBr opprB addrA subrK.
rewrite e h1 h2 -scalerBr opprD addrACA subrr addr0 -scalerBr !adv_rateE opprD addrACA subrr addr0 hom_diff scalerA.
by rewrite mulrC.
Qed.
Lemma hom_step_unique x u v : hom_adv_step dim nb tau theta dt P x u -> hom_adv_step dim nb tau theta dt P x v -> u = v.
Proof.
rewrite /hom_adv_step => h1 h2; apply/eqP; rewrite -subr_eq0; apply/eqP/(free_step0 tau0 c0).
by rewrite scalerBr h1 h2 -scalerBr hom_diff.
Qed.
Lemma hom_step_lin c x y z u v : (forall g, tr z g = c *: tr x g + tr y g) ->
  hom_adv_step dim nb tau theta dt P x u -> hom_adv_step dim nb tau theta dt P y v ->
  hom_adv_step dim nb tau theta dt P z (c *: u + v).
Proof.
rewrite /hom_adv_step => hz h1 h2.
rewrite (hom_rate_lin _ _ hz) (scalerDr (ap_area P)) (scalerA (ap_area P)) [ap_area P * c]mulrC -(scalerA c) h1 h2.
by rewrite (scalerDr (theta * dt)) !scalerA [c * _]mulrC.
Qed.
Lemma adv_step_add S x y z u v : (forall g, tr z g = tr x g + tr y g) -> hom_adv_step dim nb tau theta dt P x u ->
  adv_step dim nb dirs bnds tau theta dt P S y v -> adv_step dim nb dirs bnds tau theta dt P S z (u + v).
Proof.
rewrite /hom_adv_step /adv_step => hz h1 h2; rewrite -addrA (scalerDr (ap_area P)) h1 h2 !adv_rateE.
have -> : hom_rate dim nb tau P z (u + v) = hom_rate dim nb tau P x u + hom_rate dim nb tau P y v.
  by have := @hom_rate_lin 1 x y z u v; rewrite !scale1r; apply => g; rewrite scale1r.
move: (hom_rate _ _ _ _ x u) (hom_rate _ _ _ _ y v) (_ - _) (adv_old_rate nf S) => a b c d.
by apply/colP => i; rewrite !mxE; move: (a i 0) (b i 0) (c i 0) (d i 0) => *; ring.
Qed.
End Step.

(** ** Mass *)
Lemma rate_mean x u (n0 : (0 < nf)%N) (m0 : (0 < nb)%N) :
  hom_rate dim nb tau P x u (Ordinal n0) 0 = - \sum_(f < nF) full_flux dim nb tau P x u f (Ordinal m0) 0.
Proof.
case: hW => _ h1 h2 h3 [_ h4 h5 _ _].
rewrite /hom_rate !mxE big1 ?add0r => [|j _]; last by rewrite mxE h4 ?mul0r.
congr (- _); rewrite summxE; apply: eq_bigr => f _; rewrite /face_terms /full_flux !mxE.
congr (_ + _); apply: eq_bigr => j _; rewrite !mxE; congr (_ * _) => /=.
  have [-> ->] := h1 f 0%N j (ltn_ord f) n0 (ltn_ord j).
  have [_ _ -> ->] := h2 f j 0%N (ltn_ord f) (ltn_ord j) m0.
  by congr (_ + _ * _); apply: eq_bigr => s _; rewrite h5.
have [-> -> _ _] := h2 f 0%N j (ltn_ord f) n0 (ltn_ord j).
have [-> ->] := h3 f 0%N j (ltn_ord f) m0 (ltn_ord j).
by congr (_ - _ * _); apply: eq_bigr => s _; rewrite h5.
Qed.
(** ** Energy of a hyperedge without stabilisation *)
Lemma energy_edge x u : tau = 0 ->
  2%:R * (dotv u (hom_rate dim nb tau P x u) + \sum_(f < nF) dotv (tr x f) (full_flux dim nb tau P x u f)) =
  - (\sum_(f < nF) \sum_(s < up_n W f) `|up_w W f s| * (pval (phi f s) u - pval (psi f s) (tr x f)) ^+ 2) +
  \sum_(f < nF) dotv (tr x f) (wind_matrix nb W f *m tr x f).
Proof.
move=> t0; rewrite mulrDr dot_hom_rate mulr_sumr -!sumrN -!big_split; apply: eq_bigr => f _ /=.
rewrite /full_flux dotvDr dot_pb dot_pp /wind_matrix.
rewrite (@dot_form _ _ _ (up_n W f) (up_w W f) (psi f) (psi f)) //.
rewrite /face_rate -!sumrN -!big_split mulr_sumr -!big_split; apply: eq_bigr => s _ /=.
rewrite t0 max_min -min_abs; move: (Num.min _ _) (pval _ _) (pval _ _) => *; ring.
Qed.

Lemma mul_e0 n k (g : nat -> nat -> F) c (i : 'I_n) : (0 < k)%N -> (mat_of n k g *m e0 k c) i 0 = g i 0%N * c.
Proof.
move=> k0; rewrite mxE (bigD1 (Ordinal k0)) //= !mxE eqxx big1 ?addr0 // => j hj; rewrite !mxE.
by case: eqP => [e|_]; rewrite ?mulr0 //; case/eqP: hj; exact: val_inj.
Qed.
Lemma const_rate x c : (0 < nf)%N -> (0 < nb)%N -> tau = 0 -> (forall i, (i < nf)%N -> ap_src P i = 0) ->
  (forall f : 'I_nF, tr x f = if inflow_face dirs bnds P f then 0 else e0 nb c) ->
  (forall (f : 'I_nF) i, (i < nf)%N -> inflow_face dirs bnds P f -> ap_dirval P i f = c * ap_bpn P i 0 f) ->
  adv_rate dim nb dirs bnds tau P x (e0 nf c) = 0.
Proof.
move=> n0 m0 t0 hs hx hd; case: hW => _ h1 h2 _ [h3 h4 h5 _ _].
apply/colP => i; rewrite /adv_rate.
have eA := @mul_e0 nf nf (ap_adv P) c i n0.
have eB := summxE (index_enum (ordinal_finType nF)) xpredT (fun f => face_terms dim nb tau P x (e0 nf c) f) i 0.
have eD := summxE (index_enum (ordinal_finType nF)) (fun f => inflow_face dirs bnds P f) (fun f : 'I_nF => col_of nf (ap_dirval P ^~ f)) i 0.
move: eA eB eD; move: (_ *m e0 nf c) (\sum_f face_terms _ _ _ _ _ _ _ : 'cV[F]_nf) => A B.
move: (\sum_(f | _) _ : 'cV[F]_nf) => D eA eB eD.
rewrite !mxE hs // add0r eA eB eD.
have -> : ap_adv P i 0 = \sum_(f < nF) \sum_(s < up_n W f) up_w W f s * (phi f s i * phi f s 0).
  by rewrite -h3 // h4 // addr0.
rewrite [X in _ - _ - X]big_mkcond mulr_suml -!sumrB big1 // => f _ /=.
rewrite /face_terms hx mxE mul_e0 // t0 mul0r addr0.
have [-> _] := h1 f i 0%N (ltn_ord f) (ltn_ord i) n0.
have [eb _ _ _] := h2 f i 0%N (ltn_ord f) (ltn_ord i) m0.
have es : \sum_(s < up_n W f) up_w W f s * (phi f s i * phi f s 0) =
  \sum_(s < up_n W f) Num.max (up_w W f s) 0 * (phi f s i * phi f s 0) + ap_bpn P i 0 f.
  rewrite eb -big_split; apply: eq_bigr => s _ /=; rewrite h5 ?ltn_ord // max_min; ring.
rewrite es; case hm : (inflow_face dirs bnds P f).
  by rewrite mulmx0 !mxE hd //; ring.
by rewrite mul_e0 // mul0r !subr0; ring.
Qed.
Lemma const_flux x c (f : 'I_nF) : (0 < nf)%N -> (0 < nb)%N -> tau = 0 -> tr x f = e0 nb c ->
  full_flux dim nb tau P x (e0 nf c) f = wind_matrix nb W f *m e0 nb c.
Proof.
move=> n0 m0 t0 hx; case: hW => _ _ h2 h3 [_ _ h5 _ _].
apply/colP => i; rewrite /full_flux hx mxE !mul_e0 // t0 !mul0r addr0 subr0 -mulrDl; congr (_ * _).
have [_ _ -> _] := h2 f 0%N i (ltn_ord f) n0 (ltn_ord i).
have [-> _] := h3 f i 0%N (ltn_ord f) (ltn_ord i) m0.
rewrite -big_split; apply: eq_bigr => s _ /=; rewrite h5 ?ltn_ord // max_min; ring.
Qed.
(** ** Outflow, without stabilisation *)
Lemma outflow_flux x u (f : 'I_nF) : tau = 0 -> outflow_face outs bnds P f -> adv_flux dim nb outs bnds tau P x u f = 0.
Proof. by move=> t0 h; rewrite /adv_flux h /stab_flux t0 scale0r. Qed.
Lemma outwind_bp (f : 'I_nF) (l : 'cV[F]_nb) : tau = 0 -> (forall s, (s < up_n W f)%N -> 0 <= up_w W f s) ->
  mat_of nf nb (fun i j => ap_bpn P i j f - tau * ap_bp P i j f) *m l = 0.
Proof.
move=> t0 hw; apply/eqP; rewrite -dotv_eq0 dot_bp big1 // => s _.
by rewrite t0 mul0r subr0 (min_idPr _) ?mul0r // hw.
Qed.
Lemma outwind_rate x y u : tau = 0 ->
  (forall f : 'I_nF, tr x f = tr y f \/ (forall s, (s < up_n W f)%N -> 0 <= up_w W f s)) ->
  hom_rate dim nb tau P x u = hom_rate dim nb tau P y u.
Proof.
move=> t0 h; rewrite /hom_rate; congr (_ - _); apply: eq_bigr => f _; rewrite /face_terms.
by case: (h f) => [-> //|hw]; rewrite !outwind_bp.
Qed.
End Contract.
