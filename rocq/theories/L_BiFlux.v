(** Functions that compute the fluxes of the coupled problems with a reaction term: linearity, boundary conditions,
    symmetry, energy.  Used for BilaplacianParab and BilaplacianEigs. *)
From mathcomp Require Import all_ssreflect all_algebra zify ring.
From Verif Require Import M_Base L_Base M_Lapack S_Lapack M_DiffusionUniform M_Diffusion S_Hdg S_Tpp S_LocalSolver S_Diffusion S_TppGeo.
From Verif Require Import L_Hdg L_HdgSrc L_LocalBase L_LocalLink L_DiffusionUniform L_DiffusionUniform2 L_Diffusion L_TppGeo L_Diffusion2 L_Diffusion3.
From Verif Require Import M_Bilaplacian S_Bilaplacian L_Bilaplacian L_Bilaplacian2 L_Bilaplacian3 L_Bilaplacian4 L_Bilaplacian5.
From Verif Require Import S_BiReact L_BilapReact L_BiReg.
Set Implicit Arguments. Unset Strict Implicit. Unset Printing Implicit Defensive.
Import Order.TTheory GRing.Theory Num.Theory.
Local Open Scope ring_scope.

Section Flux.
Variable F : realFieldType.
Variables (dim p : nat) (dirs laps : seq nat) (tau : F) (P : bl_data F) (k : F).
Hypotheses (dim0 : (0 < dim)%N) (hD : diffusion_data dim p (bl_df P)) (tau0 : 0 < tau).
Notation H := (bl_hdg dim p P).
Notation W := (bl_coef dim p P).
Notation M := (df_mass_mx dim p (bl_df P)).
Notation nf := ((p + 1) ^ dim)%N.
Notation nb := ((p + 1) ^ (dim - 1))%N.
Notation nF := (2 * dim)%N.
Notation zero := (fun _ : 'I_dim => 0 : 'cV[F]_nf).
Notation is_tr := (is_trace nF (2 * nb)).
Notation lo x := (tr nb (lower nb x)).
Notation hi x := (tr nb (upper nb x)).
Notation pair := (pairing nF (2 * nb)).
Notation off := (bi_vanishes dim p dirs laps P).
Notation bflux := (bi_flux dim p dirs laps tau P).
Notation hom x q u r w := (bi_react dim p tau P k q u r w (lo x) (hi x) zero 0 zero 0).
Implicit Types (x out : seq (seq F)).
Variable ttf : seq (seq F) -> seq (seq F) -> outcome (seq (seq F)).
Hypothesis hreg : bi_regular dim p tau P k.
Hypothesis hf : forall x out, is_tr x -> is_tr out ->
  exists2 y, ttf x out = Ok y & exists q u r w, hom x q u r w /\ bflux q u r w (lo x) (hi x) y.

Lemma flux_linear c x x' out out' out'' : is_tr x -> is_tr x' -> is_tr out -> is_tr out' -> is_tr out'' ->
  exists y y', [/\ ttf x out = Ok y, ttf x' out' = Ok y' &
    ttf (comb_trace c nF (2 * nb) x x') out'' = Ok (comb_trace c nF (2 * nb) y y')].
Proof.
move=> hx hx' ho ho' ho''.
have [y hy [q [u [r [w [l1 f1]]]]]] := hf hx ho.
have [y' hy' [q' [u' [r' [w' [l2 f2]]]]]] := hf hx' ho'.
have [z hz [qz [uz [rz [wz [l3 f3]]]]]] := hf (comb_is_trace _ _ c x x') ho''.
exists y, y'; split => //; rewrite hz; congr Ok.
have l4 := react_lin c l1 l2; have f4 := flux_bi_lin c f1 f2.
apply: (flux_bi_unique _ _ _ f3 f4) => [|f|f]; last 2 first.
- exact: tr_lower_comb.
- exact: tr_upper_comb.
apply: (react_unique hreg l3); apply: react_ext l4 => [f|f|d||d|].
- by rewrite tr_lower_comb.
- by rewrite tr_upper_comb.
all: by rewrite scaler0 addr0.
Qed.
Lemma flux_dirichlet x out : is_tr x -> is_tr out -> exists2 y, ttf x out = Ok y & is_tr y /\ off y.
Proof.
move=> hx ho; have [y hy [q [u [r [w [l1 [sy fl fu]]]]]]] := hf hx ho.
by exists y => //; split => //; split; apply/vanishesP => f h; rewrite ?fl ?fu h.
Qed.
Lemma flux_tested x x' y q u r w q' u' r' w' : off x' -> hom x q u r w -> hom x' q' u' r' w' ->
  bflux q u r w (lo x) (hi x) y ->
  pair x' y = \sum_f dotv (lo x' f) (num_flux H tau r w (hi x) f) +
              \sum_f dotv (lo x f) (num_flux H tau r' w' (hi x') f) + dotv w' (W *m w) - k * dotv u (M *m u').
Proof.
move=> [o1 o2] l1 l2 [sy fl fu]; rewrite pairing_halves.
rewrite (pairing_mask o1 fl) (pairing_mask o2 fu).
have := react_green dim0 hD l2 l1; rewrite add0r dotvZr => /eqP; rewrite eq_sym subr_eq => /eqP ->.
by rewrite !addrA addrAC.
Qed.
Lemma flux_symmetric x x' out out' : is_tr x -> is_tr x' -> is_tr out -> is_tr out' -> off x -> off x' ->
  exists y y', [/\ ttf x out = Ok y, ttf x' out' = Ok y' & pair x' y = pair x y'].
Proof.
move=> hx hx' ho ho' ox ox'.
have [y hy [q [u [r [w [l1 f1]]]]]] := hf hx ho.
have [y' hy' [q' [u' [r' [w' [l2 f2]]]]]] := hf hx' ho'.
exists y, y'; split => //; rewrite (flux_tested ox' l1 l2 f1) (flux_tested ox l2 l1 f2).
by rewrite (dotv_coef hD) (dotv_mass hD) [in RHS](addrC (\sum_f _)).
Qed.
Lemma flux_energy x out : is_tr x -> is_tr out -> off x ->
  exists y q u r w, [/\ ttf x out = Ok y, hom x q u r w &
    pairing nF nb (lower nb x) (lower nb y) - pairing nF nb (upper nb x) (upper nb y) =
    k * dotv u (M *m u) - dotv w (W *m w)].
Proof.
move=> hx ho [o1 o2]; have [y hy [q [u [r [w [l1 [sy fl fu]]]]]]] := hf hx ho.
exists y, q, u, r, w; split => //.
by rewrite (pairing_mask o1 fl) (pairing_mask o2 fu) (react_energy dim0 hD l1) dotv0r add0r.
Qed.

(** Solutions with data, and functions that compute their fluxes with exchanged stabilisation. *)
Variables (rq rr : 'I_dim -> 'cV[F]_nf) (ru rw : 'cV[F]_nf).
Notation full x q u r w := (bi_react dim p tau P k q u r w (lo x) (hi x) rq ru rr rw).
Variable res : seq (seq F) -> seq (seq F) -> outcome (seq (seq F)).
Hypothesis hres : forall x out, is_tr x -> is_tr out ->
  exists2 y, res x out = Ok y & exists q u r w, full x q u r w /\ bflux q u r w (hi x) (lo x) y.
Notation zt := (zero_trace F nF (2 * nb)).
Notation mask := (face_dirichlet dirs (bl_df P)).
Notation mask2 := (face_dirichlet laps (bl_df P)).
Lemma flux_ext_ q u r w (x y : 'I_nF -> 'cV[F]_nb) o (x' y' : 'I_nF -> 'cV[F]_nb) : (forall f, x f = x' f) -> (forall f, y f = y' f) ->
  bflux q u r w x y o -> bflux q u r w x' y' o.
Proof.
move=> hx hy [s a b]; split=> // f; [rewrite a | rewrite b]; case: ifP => // _; exact: flux_ext.
Qed.
Lemma flux_superpose x out out' : is_tr x -> is_tr out -> is_tr out' ->
  exists y y0 q u r w, [/\ ttf x out = Ok y, res zt out' = Ok y0, full x q u r w &
    bflux q u r w (lo x) (hi x) (comb_trace 1 nF (2 * nb) y y0)].
Proof.
move=> hx ho ho'; have [y hy [q [u [r [w [l1 f1]]]]]] := hf hx ho.
have [y0 hy0 [q0 [u0 [r0 [w0 [l2 f2]]]]]] := hres (zt_trace F dim (2 * nb)) ho'.
exists y, y0; do 4 eexists; split=> //.
  apply: react_ext (react_lin 1 l1 l2) => [g|g|d||d|]; rewrite ?scale1r ?zt_lo ?zt_hi ?add0r ?addr0 //.
by apply: flux_ext_ (flux_bi_lin 1 f1 f2) => f; rewrite scale1r ?zt_lo ?zt_hi addr0.
Qed.
Lemma flux_residual_value x out out' out'' : is_tr x -> is_tr out -> is_tr out' -> is_tr out'' ->
  exists y y0 z, [/\ ttf x out = Ok y, res zt out' = Ok y0, res x out'' = Ok z, is_tr z &
    forall f j, (f < nF)%N -> (j < nb)%N ->
      nth 0 (nth [::] z f) j = nth 0 (nth [::] y f) j + nth 0 (nth [::] y0 f) j +
        (if mask f then 0 else tau * df_area (bl_df P) f * (nth 0 (nth [::] x f) (nb + j) - nth 0 (nth [::] x f) j)) /\
      nth 0 (nth [::] z f) (nb + j) = nth 0 (nth [::] y f) (nb + j) + nth 0 (nth [::] y0 f) (nb + j) +
        (if mask2 f then 0 else tau * df_area (bl_df P) f * (nth 0 (nth [::] x f) j - nth 0 (nth [::] x f) (nb + j)))].
Proof.
move=> hx ho ho' ho''.
have [y hy [q [u [r [w [l1 [s1 a1 b1]]]]]]] := hf hx ho.
have [y0 hy0 [q0 [u0 [r0 [w0 [l2 [s2 a2 b2]]]]]]] := hres (zt_trace F dim (2 * nb)) ho'.
have [z hz [q' [u' [r' [w' [l3 [s3 a3 b3]]]]]]] := hres hx ho''.
exists y, y0, z; split => // f j h1 hj.
have l4 : full x (fun d => 1 *: q d + q0 d) (1 *: u + u0) (fun d => 1 *: r d + r0 d) (1 *: w + w0).
  apply: react_ext (react_lin 1 l1 l2) => [g|g|d||d|]; rewrite ?scale1r ?zt_lo ?zt_hi ?add0r ?addr0 //.
have [eq eu er ew] := react_unique hreg l3 l4.
have key (q1 q2 qq : 'I_dim -> 'cV[F]_nf) u1 u2 (g : 'I_nF) (x1 x2 zz : 'I_nF -> 'cV[F]_nb) :
    (forall d, qq d = 1 *: q1 d + q2 d) -> zz g = 0 ->
    num_flux H tau qq (1 *: u1 + u2) x2 g =
    num_flux H tau q1 u1 x1 g + num_flux H tau q2 u2 zz g + (tau * ha H g) *: (x1 g - x2 g).
  move=> e0 z0; rewrite -[num_flux H tau q1 u1 x1 g]scale1r -flux_lin.
  rewrite /num_flux z0 addr0 [1 *: x1 g]scale1r scalerBr.
  under eq_bigr => d _ do rewrite e0.
  by rewrite -!addrA; congr (_ + (_ + _)); rewrite addKr.
split.
  have /colP/(_ (Ordinal hj)) := a3 (Ordinal h1); rewrite tr_lowerE /lambda_at /= => ->.
  have /colP/(_ (Ordinal hj)) := a1 (Ordinal h1); rewrite tr_lowerE /lambda_at /= => ->.
  have /colP/(_ (Ordinal hj)) := a2 (Ordinal h1); rewrite tr_lowerE /lambda_at /= => ->.
  case: ifP => _; first by rewrite mxE !addr0.
  rewrite ew (key _ _ _ w w0 (Ordinal h1) (hi x) (lo x) (lo zt) er (zt_lo _ _ _)) [LHS]mxE.
  congr (_ + _); first by rewrite mxE.
  by rewrite !mxE -!/(lambda_at _ _ _) lower_at // upper_at.
have /colP/(_ (Ordinal hj)) := b3 (Ordinal h1); rewrite tr_upperE /lambda_at /= => ->.
have /colP/(_ (Ordinal hj)) := b1 (Ordinal h1); rewrite tr_upperE /lambda_at /= => ->.
have /colP/(_ (Ordinal hj)) := b2 (Ordinal h1); rewrite tr_upperE /lambda_at /= => ->.
case: ifP => _; first by rewrite mxE !addr0.
rewrite eu (key _ _ _ u u0 (Ordinal h1) (lo x) (hi x) (hi zt) eq (zt_hi _ _ _)) [LHS]mxE.
congr (_ + _); first by rewrite mxE.
by rewrite !mxE -!/(lambda_at _ _ _) lower_at // upper_at.
Qed.
Lemma flux_not_affine x f j : is_tr x -> (f < nF)%N -> (j < nb)%N -> ~~ mask f ->
  nth 0 (nth [::] x f) j != nth 0 (nth [::] x f) (nb + j) ->
  forall out out' out'', is_tr out -> is_tr out' -> is_tr out'' ->
  exists y y0 z, [/\ ttf x out = Ok y, res zt out' = Ok y0, res x out'' = Ok z &
    nth 0 (nth [::] z f) j != nth 0 (nth [::] y f) j + nth 0 (nth [::] y0 f) j].
Proof.
move=> hx h1 hj nm hne out out' out'' ho ho' ho''.
have [y [y0 [z [g1 g2 g3 _ g4]]]] := flux_residual_value hx ho ho' ho''.
exists y, y0, z; split=> //; have [-> _] := g4 f j h1 hj.
rewrite (negbTE nm) -subr_eq0 [X in X != 0](_ : _ = tau * df_area (bl_df P) f * (nth 0 (nth [::] x f) (nb + j) - nth 0 (nth [::] x f) j)).
  have ha : 0 < df_area (bl_df P) f by case: (bl_ok dim0 hD) => _ _ _ /(_ (Ordinal h1))[].
  apply: mulf_neq0; last by rewrite subr_eq0 eq_sym.
  by apply: mulf_neq0; rewrite gt_eqF.
by rewrite addrAC subrr add0r.
Qed.
End Flux.
