(** Bilaplacian: constants, conservation, mass fluxes, residual, failures, errors and values in the bulk. *)
From mathcomp Require Import all_ssreflect all_algebra zify ring.
From Verif Require Import M_Base L_Base M_Index L_Index M_Lapack S_Lapack M_DiffusionUniform M_Diffusion S_Hdg S_Tpp S_LocalSolver S_Diffusion S_TppGeo.
From Verif Require Import L_Hdg L_HdgSrc L_LocalBase L_LocalLink L_DiffusionUniform L_DiffusionUniform2 L_Diffusion L_TppGeo L_Diffusion2 L_Diffusion3.
From Verif Require Import M_Bilaplacian S_Bilaplacian L_Bilaplacian L_Bilaplacian2 L_Bilaplacian3 L_Bilaplacian4.
Set Implicit Arguments. Unset Strict Implicit. Unset Printing Implicit Defensive.
Import Order.TTheory GRing.Theory Num.Theory.
Local Open Scope ring_scope.

Section Bilaplacian.
Variable F : realFieldType.
Variables (gesv : nat -> nat -> seq F -> seq F -> sv_result F).
Variables (dim p : nat) (dirs laps : seq nat) (tau : F) (P : bl_data F).
Hypotheses (dim0 : (0 < dim)%N) (hD : diffusion_data dim p (bl_df P)) (hg : gesv_correct gesv) (tau0 : 0 < tau).
Notation H := (bl_hdg dim p P).
Notation W := (bl_coef dim p P).
Notation nf := ((p + 1) ^ dim)%N.
Notation nb := ((p + 1) ^ (dim - 1))%N.
Notation nF := (2 * dim)%N.
Notation mask := (face_dirichlet dirs (bl_df P)).
Notation mask2 := (face_dirichlet laps (bl_df P)).
Notation ttf := (bl_trace_to_flux gesv dim p dirs laps tau P).
Notation res := (bl_residual_flux gesv dim p dirs laps tau P).
Notation massf := (bl_trace_to_mass_flux gesv dim p dirs laps tau P).
Notation is_tr := (is_trace nF (2 * nb)).
Notation lo x := (tr nb (lower nb x)).
Notation hi x := (tr nb (upper nb x)).
Notation pair := (pairing nF (2 * nb)).
Notation off := (bi_vanishes dim p dirs laps P).
Notation hom := (bi_hom dim p tau P).
Notation full := (bi_full dim p dirs laps tau P).
Notation bloc := (bi_loc dim p tau P).
Notation bflux := (bi_flux dim p dirs laps tau P).
Notation zero := (fun _ : 'I_dim => 0 : 'cV[F]_nf).
Notation zt := (zero_trace F nF (2 * nb)).
Notation Ms := (df_mass_mx dim p (bl_df P)).
Implicit Types (x out : seq (seq F)) (q r : 'I_dim -> 'cV[F]_nf) (u w : 'cV[F]_nf).

Let hok := bl_ok dim0 hD.
Let hcst := bl_const dim0 hD.

Lemma zt_trace n : is_trace nF n (zero_trace F nF n).
Proof. by split; [exact: size_nseq | apply/allP => l /nseqP[-> _]; rewrite size_nseq]. Qed.
Lemma zt_lo (f : 'I_nF) : lo zt f = 0 :> 'cV[F]_nb.
Proof.
apply/colP => j; rewrite tr_lowerE mxE /lambda_at nth_nseq ltn_ord nth_nseq if_same //.
Qed.
Lemma zt_hi (f : 'I_nF) : hi zt f = 0 :> 'cV[F]_nb.
Proof.
apply/colP => j; rewrite tr_upperE mxE /lambda_at nth_nseq ltn_ord nth_nseq if_same //.
Qed.
Lemma zero_loc (x : 'I_nF -> 'cV[F]_nb) : (forall f, x f = 0) -> loc_src H tau zero 0 x zero 0.
Proof.
move=> hz; split=> [d|]; first by rewrite !mulmx0 subr0 big1 ?oppr0 ?addr0 // => f _; rewrite hz mulmx0 scaler0.
by rewrite !big1 ?mulmx0 ?scaler0 ?addr0 // => f _; rewrite ?hz mulmx0.
Qed.
Lemma zero_num_flux (x : 'I_nF -> 'cV[F]_nb) (f : 'I_nF) : x f = 0 -> num_flux H tau zero 0 x f = 0.
Proof. by move=> hz; rewrite /num_flux hz !mulmx0 !scaler0 addr0 subr0 big1 // => d _; rewrite scaler0. Qed.
Lemma const_tr c (f : 'I_nF) : tr nb (const_trace c nF nb) f = c *: unit_vec F nb :> 'cV[F]_nb.
Proof. by apply/colP => j; rewrite !mxE nth_nseq ltn_ord nth_mkseq //; case: eqP; rewrite ?mulr1 ?mulr0. Qed.
Lemma const_loc c (x : 'I_nF -> 'cV[F]_nb) : (forall f, x f = c *: unit_vec F nb) ->
  loc_src H tau zero (c *: cube_one F dim p) x zero 0.
Proof.
move=> hx; have /loc_src0 h1 := loc_const tau hok hcst.
apply: src_ext (src_lin c h1 (zero_loc (fun f => erefl))) => [d||f|d|]; rewrite ?scaler0 ?addr0 //.
Qed.
Lemma const_num_flux c (x : 'I_nF -> 'cV[F]_nb) (f : 'I_nF) : x f = c *: unit_vec F nb ->
  num_flux H tau zero (c *: cube_one F dim p) x f = 0.
Proof.
move=> hx; have := flux_lin H tau c zero (cube_one F dim p) (fun=> unit_vec F nb) zero 0 (fun=> 0) f.
rewrite (flux_const tau hcst) scaler0 add0r => h.
transitivity (num_flux H tau zero 0 (fun=> 0) f); last exact: zero_num_flux.
by rewrite -h; apply: flux_ext => [d||]; rewrite ?scaler0 ?addr0 ?hx.
Qed.

(** A constant trace of u without trace of w has no flux. *)
Lemma bilap_constant c out : is_tr out ->
  ttf (glue nF (const_trace c nF nb) (zero_trace F nF nb)) out = Ok zt.
Proof.
move=> ho; have sc := const_is_trace dim p c; have sz := zt_trace nb.
have hx := glue_trace sc sz.
have [y -> [q [u [r [w [l1 f1]]]]]] := bilap_flux dirs laps dim0 hD hg tau0 hx ho; congr Ok.
set x := glue _ _ _ in l1 f1.
have e1 (f : 'I_nF) : lo x f = c *: unit_vec F nb by rewrite lower_glue // const_tr.
have e2 (f : 'I_nF) : hi x f = 0 :> 'cV[F]_nb by rewrite upper_glue // tr_zerob.
have l2 : bloc zero (c *: cube_one F dim p) zero 0 (lo x) (hi x) zero 0 zero 0.
  by split; [exact: zero_loc | rewrite mulmx0 addr0; exact: const_loc].
have f2 : bflux zero (c *: cube_one F dim p) zero 0 (lo x) (hi x) zt.
  split=> [|f|f]; first exact: zt_trace.
    by rewrite zt_lo; case: ifP => // _; rewrite zero_num_flux.
  by rewrite zt_hi; case: ifP => // _; rewrite const_num_flux.
by apply: (flux_bi_unique _ _ _ f1 f2) => //; exact: (bi_unique dim0 hD tau0 l1 l2).
Qed.

(** ** Conservation *)
Lemma nf_gt0 : (0 < nf)%N. Proof. by rewrite expn_gt0 addn1. Qed.
Notation i0 := (Ordinal nf_gt0).
Lemma conserved q u (x : 'I_nF -> 'cV[F]_nb) ru (m : nat -> bool) o : loc_src H tau q u x zero ru ->
  (forall f, (f < nF)%N -> ~~ m f) ->
  (forall f : 'I_nF, tr nb o f = if m f then 0 else num_flux H tau q u x f :> 'cV[F]_nb) ->
  \sum_(f < nF) nth 0 (nth [::] o f) 0 = ru i0 0.
Proof.
move=> h1 nm f1.
have oc : vanishes m nF nb (const_trace (1 : F) nF nb) by move=> f j hf _ hm; move: (nm f hf); rewrite hm.
rewrite -(pairing_const dim p) (pairing_mask oc f1).
under eq_bigr => f _ do rewrite const_tr scale1r.
rewrite (dual_src hok h1 (loc_const tau hok hcst)).
rewrite big1 ?add0r; last by move=> f _; rewrite (flux_const tau hcst) dotv0r.
rewrite [X in _ - X]big1 ?subr0; last by move=> d _; rewrite dotv0r.
rewrite /dotv (sum_ord1 (i := i0)) => [|j hj]; first by rewrite !mxE /= mul1r.
by rewrite !mxE (negbTE hj) mul0r.
Qed.
Lemma lower0 o (f : nat) : nth 0 (nth [::] (lower nb o) f) 0 = nth 0 (nth [::] o f) 0 :> F.
Proof. by rewrite -!/(lambda_at _ _ _) lower_at // expn_gt0 addn1. Qed.
Lemma upper0 o (f : nat) : nth 0 (nth [::] (upper nb o) f) 0 = nth 0 (nth [::] o f) nb :> F.
Proof. by rewrite -!/(lambda_at _ _ _) upper_at addn0. Qed.
Lemma bilap_conserved x out : is_tr x -> is_tr out ->
  exists y q u r w, [/\ ttf x out = Ok y, hom x q u r w,
    (forall f, (f < nF)%N -> ~~ mask f) -> \sum_(f < nF) nth 0 (nth [::] y f) 0 = 0 &
    (forall f, (f < nF)%N -> ~~ mask2 f) -> \sum_(f < nF) nth 0 (nth [::] y f) nb = (W *m w) i0 0].
Proof.
move=> hx ho; have [y hy [q [u [r [w [l1 [sy f1 f2]]]]]]] := bilap_flux dirs laps dim0 hD hg tau0 hx ho.
exists y, q, u, r, w; split => // nm; case: l1 => l1 l2.
  by under eq_bigr => f _ do rewrite -lower0; rewrite (conserved l1 nm f1) mxE.
under eq_bigr => f _ do rewrite -upper0; rewrite addr0 in l2; by rewrite (conserved l2 nm f2).
Qed.
Lemma bilap_source out : is_tr out -> (forall f, (f < nF)%N -> ~~ mask f /\ ~~ mask2 f) ->
  exists2 y, res zt out = Ok y & \sum_(f < nF) nth 0 (nth [::] y f) 0 = df_src (bl_df P) 0.
Proof.
move=> ho nm.
have [y hy [q [u [r [w [[l1 _] [sy f1 _]]]]]]] := bilap_residual dirs laps dim0 hD hg tau0 (zt_trace _) ho.
exists y => //; under eq_bigr => f _ do rewrite -lower0.
have l2 : loc_src H tau r w (lo zt) zero (df_src_vec dim p (w_problem P)).
  have nb f : (f < nF)%N -> face_dirichlet laps (w_problem P) f = false by move=> hf; have [_ /negbTE] := nm f hf.
  apply: src_ext l1 => // [f|d|]; first by rewrite zt_hi zt_lo.
    by rewrite /df_rq big1 ?oppr0 // => f; rewrite nb.
  by rewrite /df_ru big1 ?scaler0 ?addr0 // => f; rewrite nb.
have nm1 f : (f < nF)%N -> ~~ mask f by move=> hf; case: (nm f hf).
by rewrite (conserved l2 nm1 f1) mxE.
Qed.

(** ** Mass fluxes *)
Lemma bilap_mass_tested x' q' u' r' w' (v : 'cV[F]_nf) y q2 u2 r2 w2 : off x' -> hom x' q' u' r' w' ->
  bloc q2 u2 r2 w2 (fun=> 0) (fun=> 0) zero 0 zero v -> bflux q2 u2 r2 w2 (fun=> 0) (fun=> 0) y ->
  pair x' y = dotv u' v.
Proof.
move=> [o1 o2] [l1 l2] [l3 l4] [sy fl fu]; rewrite pairing_halves (pairing_mask o1 fl) (pairing_mask o2 fu).
rewrite addr0 in l2; rewrite addr0 in l4.
have z (G : 'I_nF -> 'cV[F]_nb) : \sum_f dotv (0 : 'cV[F]_nb) (G f) = 0 by apply: big1 => f _; rewrite dotv0l.
have := two_src dim0 hD l3 l2; rewrite z sub0r => /eqP; rewrite subr_eq => /eqP ->.
have := two_src dim0 hD l4 l1; rewrite z sub0r dotv0r oppr0 => /eqP; rewrite subr_eq add0r => /eqP ->.
by rewrite (dotv_coef hD w' w2) addrAC addNr add0r.
Qed.
Lemma bilap_mass_form x x' out : is_tr x -> is_tr x' -> is_tr out -> off x' ->
  exists y q u r w q' u' r' w', [/\ massf x out = Ok y, hom x q u r w, hom x' q' u' r' w' & pair x' y = dotv u' (Ms *m u)].
Proof.
move=> hx hx' ho ox'.
have [y hy [q [u [r [w [q2 [u2 [r2 [w2 [l1 l2 f2]]]]]]]]]] := bilap_mass dirs laps dim0 hD hg tau0 hx ho.
have [X _ [_ l3]] := bilap_solve0 dirs laps dim0 hD hg tau0 hx'.
exists y, q, u, r, w; do 4 eexists; split; [by []|exact: l1|exact: l3|].
exact: (bilap_mass_tested ox' l3 l2 f2).
Qed.
Lemma bilap_mass_sym x x' out out' : is_tr x -> is_tr x' -> is_tr out -> is_tr out' -> off x -> off x' ->
  exists y y', [/\ massf x out = Ok y, massf x' out' = Ok y', pair x' y = pair x y' & 0 <= pair x y].
Proof.
move=> hx hx' ho ho' ox ox'; have [a a0 eM] := data_mass hD.
have [y hy [q [u [r [w [q2 [u2 [r2 [w2 [l1 l2 f2]]]]]]]]]] := bilap_mass dirs laps dim0 hD hg tau0 hx ho.
have [y' hy' [q' [u' [r' [w' [q3 [u3 [r3 [w3 [l3 l4 f4]]]]]]]]]] := bilap_mass dirs laps dim0 hD hg tau0 hx' ho'.
exists y, y'; split => //.
  by rewrite (bilap_mass_tested ox' l3 l2 f2) (bilap_mass_tested ox l1 l4 f4) eM !mul_scalar_mx !dotvZr dotvC.
by rewrite (bilap_mass_tested ox l1 l2 f2) eM mul_scalar_mx dotvZr mulr_ge0 ?dotv_ge0 // ltW.
Qed.

(** ** The residual *)
(** What residual_flux x computes: besides the flux of x and the data, the difference of the two traces. *)
Lemma bilap_residual_value x out out' out'' : is_tr x -> is_tr out -> is_tr out' -> is_tr out'' ->
  exists y y0 z, [/\ ttf x out = Ok y, res zt out' = Ok y0, res x out'' = Ok z, is_tr z &
    forall f j, (f < nF)%N -> (j < nb)%N ->
      nth 0 (nth [::] z f) j = nth 0 (nth [::] y f) j + nth 0 (nth [::] y0 f) j +
        (if mask f then 0 else tau * df_area (bl_df P) f * (nth 0 (nth [::] x f) (nb + j) - nth 0 (nth [::] x f) j)) /\
      nth 0 (nth [::] z f) (nb + j) = nth 0 (nth [::] y f) (nb + j) + nth 0 (nth [::] y0 f) (nb + j) +
        (if mask2 f then 0 else tau * df_area (bl_df P) f * (nth 0 (nth [::] x f) j - nth 0 (nth [::] x f) (nb + j)))].
Proof.
move=> hx ho ho' ho''.
have [y hy [q [u [r [w [l1 [s1 a1 b1]]]]]]] := bilap_flux dirs laps dim0 hD hg tau0 hx ho.
have [y0 hy0 [q0 [u0 [r0 [w0 [l2 [s2 a2 b2]]]]]]] := bilap_residual dirs laps dim0 hD hg tau0 (zt_trace _) ho'.
have [z hz [q' [u' [r' [w' [l3 [s3 a3 b3]]]]]]] := bilap_residual dirs laps dim0 hD hg tau0 hx ho''.
exists y, y0, z; split => // f j hf hj.
have l4 : bloc (fun d => 1 *: q d + q0 d) (1 *: u + u0) (fun d => 1 *: r d + r0 d) (1 *: w + w0) (lo x) (hi x)
    (df_rq p (u_problem P) (face_dirichlet dirs (u_problem P)))
    (df_ru dim p (u_problem P) tau (face_dirichlet dirs (u_problem P)))
    (df_rq p (w_problem P) (face_dirichlet laps (w_problem P)))
    (df_ru dim p (w_problem P) tau (face_dirichlet laps (w_problem P))).
  apply: bi_ext (bi_lin 1 l1 l2) => [g|g|d||d|]; rewrite ?scale1r ?zt_lo ?zt_hi ?add0r ?addr0 //.
have [eq eu er ew] := bi_unique dim0 hD tau0 l3 l4.
have key (q1 q2 qq : 'I_dim -> 'cV[F]_nf) u1 u2 (g : 'I_nF) (x1 x2 zz : 'I_nF -> 'cV[F]_nb) :
    (forall d, qq d = 1 *: q1 d + q2 d) -> zz g = 0 ->
    num_flux H tau qq (1 *: u1 + u2) x2 g =
    num_flux H tau q1 u1 x1 g + num_flux H tau q2 u2 zz g + (tau * ha H g) *: (x1 g - x2 g).
  move=> e0 z0; rewrite -[num_flux H tau q1 u1 x1 g]scale1r -flux_lin.
  rewrite /num_flux z0 addr0 [1 *: x1 g]scale1r scalerBr.
  under eq_bigr => d _ do rewrite e0.
  by rewrite -!addrA; congr (_ + (_ + _)); rewrite addKr.
split.
  have /colP/(_ (Ordinal hj)) := a3 (Ordinal hf); rewrite tr_lowerE /lambda_at /= => ->.
  have /colP/(_ (Ordinal hj)) := a1 (Ordinal hf); rewrite tr_lowerE /lambda_at /= => ->.
  have /colP/(_ (Ordinal hj)) := a2 (Ordinal hf); rewrite tr_lowerE /lambda_at /= => ->.
  case: ifP => _; first by rewrite mxE !addr0.
  rewrite ew (key _ _ _ w w0 (Ordinal hf) (hi x) (lo x) (lo zt) er (zt_lo _)) [LHS]mxE.
  congr (_ + _); first by rewrite mxE.
  by rewrite !mxE -!/(lambda_at _ _ _) lower_at // upper_at.
have /colP/(_ (Ordinal hj)) := b3 (Ordinal hf); rewrite tr_upperE /lambda_at /= => ->.
have /colP/(_ (Ordinal hj)) := b1 (Ordinal hf); rewrite tr_upperE /lambda_at /= => ->.
have /colP/(_ (Ordinal hj)) := b2 (Ordinal hf); rewrite tr_upperE /lambda_at /= => ->.
case: ifP => _; first by rewrite mxE !addr0.
rewrite eu (key _ _ _ u u0 (Ordinal hf) (lo x) (hi x) (hi zt) eq (zt_hi _)) [LHS]mxE.
congr (_ + _); first by rewrite mxE.
by rewrite !mxE -!/(lambda_at _ _ _) lower_at // upper_at.
Qed.
End Bilaplacian.
