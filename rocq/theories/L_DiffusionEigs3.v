(** Properties of the fluxes of DiffusionEigs; the Jacobian is the derivative. *)
From mathcomp Require Import all_ssreflect all_algebra zify ring.
From Verif Require Import M_Base L_Base M_DenseLA S_DenseLA M_Lapack S_Lapack S_Hdg L_Hdg S_Tpp S_TppGeo S_LocalSolver.
From Verif Require Import M_DiffusionUniform M_Diffusion S_Diffusion M_DiffusionEigs S_DiffusionEigs.
From Verif Require Import L_LocalBase L_LocalLink L_HdgSrc L_DiffusionUniform L_DiffusionUniform2 L_Diffusion L_TppGeo.
From Verif Require Import L_BlockLink L_EigHdg L_DiffusionEigs L_DiffusionEigs2.
Set Implicit Arguments. Unset Strict Implicit. Unset Printing Implicit Defensive.
Import Order.TTheory GRing.Theory Num.Theory.
Local Open Scope ring_scope.

Section Eigs.
Variable F : realFieldType.
Variables (gesv : nat -> nat -> seq F -> seq F -> sv_result F).
Variables (dim p : nat) (dirs : seq nat) (tau : F) (P : de_data F).
Hypotheses (dim0 : (0 < dim)%N) (hP : eigs_data dim p P) (hg : gesv_correct gesv).
Notation H := (de_hdg dim p P).
Notation nf := ((p + 1) ^ dim)%N.
Notation nb := ((p + 1) ^ (dim - 1))%N.
Notation mask := (de_mask dirs P).
Notation ttf := (de_trace_to_flux gesv dim p dirs tau P).
Notation jac := (de_jacobian gesv dim p dirs tau P).
Notation is_tr := (is_trace (2 * dim) nb).
Notation reg := (regular dim p tau P).
Notation loc := (eig_loc dim p tau P).
Notation pair := (pairing (2 * dim) nb).
Notation van := (vanishes mask (2 * dim) nb).
Implicit Types (x y out : seq (seq F)).

Lemma eigs_flux_at eig x out y : reg eig -> is_tr x -> is_tr out -> ttf x out eig = Ok y ->
  exists q u, loc eig q u (tr nb x) 0 /\ eig_flux_of dim p dirs tau P eig x q u y.
Proof.
by move=> hr hx ho hy; have [y' [q [u [h1 h2 h3]]]] := eigs_flux dirs dim0 hP hg hr hx ho; exists q, u;
  move: h1; rewrite hy => -[->].
Qed.
Lemma eigs_linear eig c x x' out : reg eig -> is_tr x -> is_tr x' -> is_tr out -> exists y y',
  [/\ ttf x out eig = Ok y, ttf x' out eig = Ok y' &
      ttf (comb_trace c (2 * dim) nb x x') out eig = Ok (comb_trace c (2 * dim) nb y y')].
Proof.
move=> hr hx hx' ho; have [y [q [u [h1 h2 [h3 h4]]]]] := eigs_flux dirs dim0 hP hg hr hx ho.
have [y' [q' [u' [h1' h2' [h3' h4']]]]] := eigs_flux dirs dim0 hP hg hr hx' ho.
have [z [q2 [u2 [e1 e2 [e3 e4]]]]] := eigs_flux dirs dim0 hP hg hr (comb_is_trace _ _ c x x') ho.
exists y, y'; split=> //; rewrite e1; congr Ok.
apply: trace_ext e3 (comb_is_trace _ _ _ _ _) _ => f; rewrite tr_comb e4 h4 h4'.
case: (mask f); first by rewrite scaler0 addr0.
rewrite -flux_lin; have := eloc_lin c h2 h2'; rewrite -/(eig_loc _ _ _ _ _ _ _ _ _) => h5.
have h6 : loc eig (fun d => c *: q d + q' d) (c *: u + u') (tr nb (comb_trace c (2 * dim) nb x x')) 0.
  by apply: eloc_ext h5 => // [k|]; rewrite ?tr_comb // scaler0 addr0.
have [eq eu] := loc_unique_e hr e2 h6.
by apply: flux_ext => //; rewrite tr_comb.
Qed.
Lemma eigs_symmetric eig x x' out : reg eig -> is_tr x -> is_tr x' -> is_tr out -> van x -> van x' ->
  exists y y', [/\ ttf x out eig = Ok y, ttf x' out eig = Ok y' & pair x' y = pair x y'].
Proof.
move=> hr hx hx' ho vx vx'; have [y [q [u [h1 h2 [h3 h4]]]]] := eigs_flux dirs dim0 hP hg hr hx ho.
have [y' [q' [u' [h1' h2' [h3' h4']]]]] := eigs_flux dirs dim0 hP hg hr hx' ho.
exists y, y'; split=> //; rewrite (pairing_mask vx' h4) (pairing_mask vx h4').
have hok := edata_ok dim0 hP eig.
rewrite (eloc_pair hok h2 h2') (eloc_pair hok h2' h2) !dotv0r !addr0 (form_sym _ hok).
by rewrite dotvC.
Qed.
Lemma eigs_neg eig : 0 < tau -> eig <= 0 -> reg eig.
Proof.
move=> t0 he; apply: (ereg_neg (edata_ok dim0 hP eig) t0).
by rewrite mulr_le0_ge0 // ltW // (edata_area hP).
Qed.
Lemma eigs_negative eig x out : 0 < tau -> eig <= 0 -> is_tr x -> is_tr out -> van x ->
  exists y, ttf x out eig = Ok y /\ pair x y <= 0.
Proof.
move=> t0 he hx ho vx; have hr := eigs_neg t0 he.
have [y [q [u [h1 h2 [h3 h4]]]]] := eigs_flux dirs dim0 hP hg hr hx ho.
exists y; split=> //; rewrite (pairing_mask vx h4).
have hok := edata_ok dim0 hP eig.
rewrite (eloc_pair hok h2 h2) dotv0r addr0.
have f0 := form_ge0 hok q u (tr nb x) (ltW t0).
rewrite addrC subr_le0; apply: le_trans f0.
by rewrite mulr_le0_ge0 ?dotv_ge0 // mulr_le0_ge0 // ltW // (edata_area hP).
Qed.
Lemma reg_shift eig mu : time_free P -> reg eig <-> ereg (H mu) tau (eig * de_area P).
Proof. by move=> ht; rewrite /regular /eig_loc (time_freeH dim p eig ht) -(time_freeH dim p mu ht). Qed.
Lemma eigs_few (s : seq F) : time_free P -> 0 < tau -> uniq s -> (forall e, e \in s -> ~ reg e) -> (size s <= nf)%N.
Proof.
move=> ht t0 us hs; have r0 := eigs_neg t0 (lexx 0).
have := @irregular_few F _ _ _ _ (H 0) tau (0 * de_area P) _ r0 [seq e * de_area P | e <- s].
rewrite size_map; apply.
- by move=> x ru; exact: (eigs_exist dim0 hP hg _ _ r0).
- rewrite map_inj_uniq // => a b; apply: mulIf; rewrite gt_eqF //; exact: edata_area hP.
by move=> a /mapP[e he ->] hr; apply: (hs e he); apply/(reg_shift e 0 ht).
Qed.

(** ** Derivative *)
Lemma eigs_derivative mu e x eta out out' : time_free P -> reg mu -> is_tr x -> is_tr eta ->
  is_tr out -> is_tr out' -> exists K delta y0 j,
  [/\ 0 < delta, ttf x out mu = Ok y0, jac eta out' e x mu = Ok j & forall t, `|t| <= delta ->
   reg (mu + t * e) /\ exists yt, ttf (comb_trace t (2 * dim) nb eta x) out (mu + t * e) = Ok yt /\
    forall (f : 'I_(2 * dim)) (k : 'I_nb), `|tr nb yt f k 0 - tr nb y0 f k 0 - t * tr nb j f k 0| <= K * t ^+ 2].
Proof.
move=> ht hr hx he ho ho'.
have [y0 [q [u [f1 f2 [f3 f4]]]]] := eigs_flux dirs dim0 hP hg hr hx ho.
have [j [q0 [u0 [q1 [u1 [q2 [u2 [j1 j2 j3 j4 [j5 j6]]]]]]]]] := eigs_jac dirs dim0 hP hg e hr he ho' hx.
have hex (z : 'I_(2 * dim) -> 'cV[F]_nb) ru : exists q u, eloc (H mu) tau (mu * de_area P) q u z ru.
  exact: (eigs_exist dim0 hP hg _ _ hr).
have [K [delta [d0 n1 n2]]] := eloc_near hex hr j2 j3 j4.
have hc t : (mu + t * e) * de_area P = mu * de_area P + t * (e * de_area P) by rewrite mulrDl mulrA.
have rt t : `|t| <= delta -> reg (mu + t * e).
  by move=> h; apply/(reg_shift _ mu ht); rewrite hc; exact: n1.
exists (Num.max K 0), delta, y0, j; split=> // t htd; split; first exact: rt.
have [yt [qt [ut [t1 t2 [t3 t4]]]]] := eigs_flux dirs dim0 hP hg (rt t htd) (comb_is_trace _ _ t eta x) ho.
exists yt; split=> // f k; rewrite t4 f4 j6; case: (mask f).
  by rewrite !mxE mulr0 !subrr normr0 mulr_ge0 ?sqr_ge0 // le_maxr lexx orbT.
have [eq eu] := loc_unique_e hr f2 j2.
have -> : num_flux (H mu) tau q u (tr nb x) f = num_flux (H mu) tau q0 u0 (tr nb x) f by apply: flux_ext.
have hH : H (mu + t * e) = H mu by rewrite (time_freeH _ _ _ ht) -(time_freeH _ _ mu ht).
have l3 : eloc (H mu) tau (mu * de_area P + t * (e * de_area P)) qt ut (fun f => t *: tr nb eta f + tr nb x f) 0.
  move: t2; rewrite /eig_loc hH hc; apply: eloc_ext => // g; exact: tr_comb.
have := n2 t qt ut htd l3 f k.
have -> : num_flux (H mu) tau qt ut (fun f => t *: tr nb eta f + tr nb x f) f =
   num_flux (H (mu + t * e)) tau qt ut (tr nb (comb_trace t (2 * dim) nb eta x)) f.
  by rewrite hH; apply: flux_ext => //; rewrite tr_comb.
rewrite [(num_flux (H mu) tau q1 u1 _ f + _) k 0]mxE => hh; apply: (le_trans hh).
by rewrite ler_wpmul2r ?sqr_ge0 // le_maxr lexx.
Qed.
End Eigs.
