(** The functions of AdvectionParab with the contract of the integrals. *)
From mathcomp Require Import all_ssreflect all_algebra zify ring.
From Verif Require Import M_Base L_Base M_Index L_Index M_DenseLA S_DenseLA L_DenseLA M_Lapack S_Lapack L_Lapack.
From Verif Require Import S_Hdg L_Hdg S_LocalSolver M_DiffusionUniform M_Diffusion S_Diffusion.
From Verif Require Import L_LocalBase L_LocalLink L_DiffusionUniform L_Diffusion L_DiffusionParab.
From Verif Require Import M_AdvectionParab S_AdvectionParab L_AdvectionParab L_AdvectionParab2.
Set Implicit Arguments. Unset Strict Implicit. Unset Printing Implicit Defensive.
Import Order.TTheory GRing.Theory Num.Theory.
Local Open Scope ring_scope.

Lemma ap_nbE dim p : ap_shape_bdr dim p = ((p + 1) ^ (dim - 1))%N.
Proof. exact: n_shape_bdrE. Qed.
Lemma ap_nfE dim p : ap_shape_fct dim p = ((p + 1) ^ (dim - 1) * (p + 1))%N.
Proof. by rewrite /ap_shape_fct ap_nbE. Qed.

Section Local.
Variable F : realFieldType.
Variable gesv : nat -> nat -> seq F -> seq F -> sv_result F.
Variables (dim p : nat) (dirs outs bnds : seq nat) (tau theta dt : F) (P : ap_data F).
Notation nb := ((p + 1) ^ (dim - 1))%N.
Notation nf := (nb * (p + 1))%N.
Notation nF := (2 * dim)%N.
Notation is_tr := (is_trace nF nb).
Notation ttf := (ap_trace_to_flux gesv dim p dirs outs bnds tau theta dt P).
Notation res := (ap_residual_flux gesv dim p dirs outs bnds tau theta dt P).
Notation set := (ap_set_data gesv dim p dirs outs bnds tau theta dt P).
Notation zt := (nseq nF (nseq nb (0 : F))).
Implicit Types (x y out : seq (seq F)) (S : ap_state F).

Lemma adv_okP x : ap_lambda_ok dim p x <-> is_tr x.
Proof. by rewrite ap_lambda_okP ap_nbE. Qed.
Lemma adv_checked S x out : ~ is_tr x \/ ~ is_tr out -> ttf S x out = Abort /\ res S x out = Abort.
Proof.
have h y : ~ is_tr y -> ap_lambda_ok dim p y = false by move=> hy; apply/negP => /adv_okP.
by rewrite /ap_trace_to_flux /ap_residual_flux => -[/h ->|/h ->] //; rewrite andbF.
Qed.
Lemma adv_set_checked S x : ~ is_tr x -> set x S = Abort.
Proof.
move=> hx; rewrite /ap_set_data /ap_solve_local_problem /ap_rhs_lambda.
by case e : (ap_lambda_ok dim p x) => //; move/adv_okP: e.
Qed.
Lemma adv_lapack S x out : (forall n nc (A b : seq F), sv_info (gesv n nc A b) = false) -> is_tr x -> is_tr out ->
  [/\ ttf S x out = Abort, res S x out = Abort & set x S = Abort].
Proof.
move=> hg hx ho; have h1 := iffRL (adv_okP x) hx; have h2 := iffRL (adv_okP out) ho.
rewrite /ap_set_data /ap_residual_flux /ap_trace_to_flux h1 h2 /=.
by rewrite /ap_solve_local_problem /= /ap_rhs_lambda h1 /= /ap_divide /solve_const /= !hg.
Qed.

Section Contract.
Hypotheses (hP : adv_data dim nb nf P) (hg : gesv_correct gesv).
Hypotheses (tau0 : 0 <= tau) (c0 : 0 <= theta * dt).

Lemma adv_kernel (v : 'cV[F]_(ap_shape_fct dim p)) : loc_mx dim p tau theta dt P *m v = 0 -> v = 0.
Proof.
case: hP => W; rewrite -ap_nbE => hW.
rewrite (loc_mxE tau theta dt (up_vol hW) [::]) => /eqP; rewrite big1; last first.
  by move=> f _; rewrite tr_nil mulmx0.
rewrite scaler0 subr0 subr_eq0 => /eqP; exact: (free_step0 hW).
Qed.
Lemma adv_solve0 S x : is_tr x -> exists X,
  [/\ ap_solve_local_problem gesv dim p dirs bnds tau theta dt P S 0 x = Ok X, size X = nf
    & hom_adv_step dim nb tau theta dt P x (col_of nf (nth 0 X))].
Proof.
move=> hx; have hv : mat_of (ap_shape_fct dim p) (ap_shape_fct dim p) (ap_vol P) = (ap_area P)%:M.
  by case: hP => W; rewrite -ap_nbE => hW; exact: up_vol hW.
have := ap_solve0 dirs bnds hg adv_kernel hv S (iffRL (adv_okP x) hx).
by rewrite /ap_shape_fct ap_nbE.
Qed.
Lemma adv_solve1 S x : is_tr x -> exists X,
  [/\ ap_solve_local_problem gesv dim p dirs bnds tau theta dt P S 1 x = Ok X, size X = nf
    & adv_step dim nb dirs bnds tau theta dt P S x (col_of nf (nth 0 X))].
Proof.
move=> hx; have hv : mat_of (ap_shape_fct dim p) (ap_shape_fct dim p) (ap_vol P) = (ap_area P)%:M.
  by case: hP => W; rewrite -ap_nbE => hW; exact: up_vol hW.
have := ap_solve1 dirs bnds hg adv_kernel hv S (iffRL (adv_okP x) hx).
by rewrite /ap_shape_fct ap_nbE.
Qed.
Lemma adv_write (G : nat -> nat -> F) (V : 'I_nF -> 'cV[F]_nb) out : is_tr out ->
  (forall (f : 'I_nF) (j : 'I_nb), G f j = V f j 0) ->
  is_tr (ap_write dirs bnds P G out) /\
  forall f : 'I_nF, tr nb (ap_write dirs bnds P G out) f = if inflow_face dirs bnds P f then 0 else V f :> 'cV[F]_nb.
Proof. have := @ap_write_tr F dim p dirs bnds P G; rewrite ap_nbE => h; exact: h. Qed.
Lemma adv_flux_entry S x X (r : bool) (f : 'I_nF) (j : 'I_nb) :
  nth 0 (ap_flux_at_boundary dim p outs bnds tau theta P S x X r) (f * nb + j) =
  (theta *: adv_flux dim nb outs bnds tau P x (col_of nf (nth 0 X)) f +
   (if r then (1 - theta) *: adv_old_flux nb S f else 0)) j 0.
Proof. have := @ap_flux_at F dim p outs bnds tau theta P x X S r f; rewrite /ap_shape_fct ap_nbE => h; exact: h. Qed.

Lemma adv_trace_to_flux S x out : is_tr x -> is_tr out -> exists y (u : 'cV[F]_nf),
  [/\ ttf S x out = Ok y, hom_adv_step dim nb tau theta dt P x u & adv_flux_of dim nb dirs outs bnds tau theta P x u y].
Proof.
move=> hx ho; have [X [hX sX hs]] := adv_solve0 S hx.
rewrite /ap_trace_to_flux (iffRL (adv_okP x) hx) (iffRL (adv_okP out) ho) /= hX /=.
eexists; exists (col_of nf (nth 0 X)); split => //.
apply: (adv_write (V := fun f => theta *: adv_flux dim nb outs bnds tau P x (col_of nf (nth 0 X)) f)) ho _ => f j.
by rewrite ap_nbE (adv_flux_entry S x X false) addr0.
Qed.
Lemma adv_residual S x out : is_tr x -> is_tr out -> exists y (u : 'cV[F]_nf),
  [/\ res S x out = Ok y, adv_step dim nb dirs bnds tau theta dt P S x u
    & adv_mixed_flux_of dim nb dirs outs bnds tau theta P S x u y].
Proof.
move=> hx ho; have [X [hX sX hs]] := adv_solve1 S hx.
rewrite /ap_residual_flux (iffRL (adv_okP x) hx) (iffRL (adv_okP out) ho) /= hX /=.
eexists; exists (col_of nf (nth 0 X)); split => //.
apply: (adv_write (V := fun f => theta *: adv_flux dim nb outs bnds tau P x (col_of nf (nth 0 X)) f +
  (1 - theta) *: adv_old_flux nb S f)) ho _ => f j.
by rewrite ap_nbE (adv_flux_entry S x X true).
Qed.
Lemma adv_unique S x (u v : 'cV[F]_nf) : adv_step dim nb dirs bnds tau theta dt P S x u ->
  adv_step dim nb dirs bnds tau theta dt P S x v -> u = v.
Proof. by case: hP => W hW; exact: (adv_step_unique hW). Qed.
Lemma adv_hom_unique x (u v : 'cV[F]_nf) : hom_adv_step dim nb tau theta dt P x u ->
  hom_adv_step dim nb tau theta dt P x v -> u = v.
Proof. by case: hP => W hW; exact: (hom_step_unique hW). Qed.
Lemma adv_linear S c x x' out out' out'' : is_tr x -> is_tr x' -> is_tr out -> is_tr out' -> is_tr out'' ->
  exists y y', [/\ ttf S x out = Ok y, ttf S x' out' = Ok y' &
    ttf S (comb_trace c nF nb x x') out'' = Ok (comb_trace c nF nb y y')].
Proof.
move=> hx hx' ho ho' ho''.
have [y [u [hy h1 [sy f1]]]] := adv_trace_to_flux S hx ho.
have [y' [u' [hy' h2 [sy' f2]]]] := adv_trace_to_flux S hx' ho'.
have [z [v [hz h3 [sz f3]]]] := adv_trace_to_flux S (comb_is_trace _ _ c x x') ho''.
exists y, y'; split=> //; rewrite hz; congr Ok.
apply: trace_ext sz (comb_is_trace _ _ _ _ _) _ => f; rewrite tr_comb f1 f2 f3.
case: ifP => _; first by rewrite scaler0 addr0.
have e (g : 'I_nF) : tr nb (comb_trace c nF nb x x') g = c *: tr nb x g + tr nb x' g :> 'cV[F]_nb  by exact: tr_comb.
rewrite (adv_hom_unique h3 (hom_step_lin e h1 h2)) (adv_flux_lin outs bnds tau P u u' f e).
by rewrite scalerDr !scalerA mulrC.
Qed.
Lemma zt_tr : is_tr zt.
Proof. by split; [exact: size_nseq | apply/allP => l /nseqP[-> _]; rewrite size_nseq]. Qed.
Lemma tr_z (f : 'I_nF) : tr nb zt f = 0 :> 'cV[F]_nb.
Proof. by apply/colP => j; rewrite !mxE nth_nseq ltn_ord nth_nseq ltn_ord. Qed.
Lemma adv_affine S x out out' out'' : is_tr x -> is_tr out -> is_tr out' -> is_tr out'' ->
  exists y y0, [/\ ttf S x out = Ok y, res S zt out' = Ok y0 & res S x out'' = Ok (comb_trace 1 nF nb y y0)].
Proof.
move=> hx ho ho' ho''.
have [y [u [hy h1 [sy f1]]]] := adv_trace_to_flux S hx ho.
have [y' [u' [hy' h2 [sy' f2]]]] := adv_residual S zt_tr ho'.
have [z [v [hz h3 [sz f3]]]] := adv_residual S hx ho''.
exists y, y'; split=> //; rewrite hz; congr Ok.
apply: trace_ext sz (comb_is_trace _ _ _ _ _) _ => f; rewrite tr_comb f1 f2 f3 scale1r.
case: ifP => _; first by rewrite addr0.
have e (g : 'I_nF) : tr nb x g = tr nb x g + tr nb zt g :> 'cV[F]_nb by rewrite tr_z addr0.
rewrite (adv_unique h3 (adv_step_add e h1 h2)) addrA -scalerDr; congr (_ *: _ + _).
have e1 (g : 'I_nF) : tr nb x g = 1 *: tr nb x g + tr nb zt g :> 'cV[F]_nb by rewrite scale1r -e.
by have := adv_flux_lin outs bnds tau P u u' f e1; rewrite !scale1r.
Qed.
Lemma adv_inflow S x out : is_tr x -> is_tr out -> exists y r,
  [/\ ttf S x out = Ok y, res S x out = Ok r, vanishes (inflow_face dirs bnds P) nF nb y
    & vanishes (inflow_face dirs bnds P) nF nb r].
Proof.
move=> hx ho.
have [y [u [hy h1 [sy f1]]]] := adv_trace_to_flux S hx ho.
have [r [v [hr h2 [sr f2]]]] := adv_residual S hx ho.
by exists y, r; split=> // f j hf hj hm; [have := f1 (Ordinal hf) | have := f2 (Ordinal hf)];
  rewrite /= hm => /colP/(_ (Ordinal hj)); rewrite !mxE.
Qed.

(** ** Stored states *)
Lemma adv_set S x : is_tr x -> adv_state_ok dim nb nf S -> exists S' (u : 'cV[F]_nf),
  [/\ set x S = Ok S', adv_step dim nb dirs bnds tau theta dt P S x u
  & [/\ adv_state_ok dim nb nf S', adv_u nf S' = u,
        adv_old_rate nf S' = adv_rate dim nb dirs bnds tau P x u + \sum_(f < nF | inflow_face dirs bnds P f)
          mat_of nf nb (fun i j => ap_bpn P i j f - tau * ap_bp P i j f) *m tr nb x f
      & forall f : 'I_nF, adv_old_flux nb S' f = adv_flux dim nb outs bnds tau P x u f]].
Proof.
move=> hx [s1 s2 s3]; have [X [hX sX hs]] := adv_solve1 S hx.
rewrite /ap_set_data hX /=; eexists; exists (col_of nf (nth 0 X)); split=> //.
have := @ap_fill_flux_ok F dim p dirs bnds tau P x X (ap_flux_old S).
have := @ap_fill_bdr_ok F dim p outs bnds tau P x X.
rewrite /inflow_terms /ap_shape_fct ap_nbE => -[b1 b2] /(_ s2) [f1 f2].
by split.
Qed.
Lemma adv_set_free S x : is_tr x -> in_free dim nb dirs bnds P x -> adv_state_ok dim nb nf S ->
  exists S' (u : 'cV[F]_nf), [/\ set x S = Ok S', adv_step dim nb dirs bnds tau theta dt P S x u
  & adv_stored dim nb dirs outs bnds tau P x u S'].
Proof.
move=> hx hfree hS; have [S' [u [h1 h2 [h3 h4 h5 h6]]]] := adv_set hx hS.
exists S', u; split=> //; split=> //; rewrite h5 big1 ?addr0 // => f hf.
rewrite (_ : tr nb x f = 0) ?mulmx0 //; apply/colP => j; rewrite !mxE; exact: hfree.
Qed.
Lemma adv_chain P0 x0 (u0 : 'cV[F]_nf) S x out : adv_stored dim nb dirs outs bnds tau P0 x0 u0 S -> is_tr x ->
  in_free dim nb dirs bnds P x -> is_tr out ->
  exists S' (u : 'cV[F]_nf) y, [/\ set x S = Ok S', adv_stored dim nb dirs outs bnds tau P x u S',
    ap_area P *: (u - u0) = dt *: (theta *: adv_rate dim nb dirs bnds tau P x u +
                                   (1 - theta) *: adv_rate dim nb dirs bnds tau P0 x0 u0),
    res S x out = Ok y
  & is_tr y /\ forall f : 'I_nF, tr nb y f = if inflow_face dirs bnds P f then 0 else
      theta *: adv_flux dim nb outs bnds tau P x u f + (1 - theta) *: adv_flux dim nb outs bnds tau P0 x0 u0 f].
Proof.
move=> [hS e1 e2 e3] hx hf ho.
have [S' [u [h1 h2 h3]]] := adv_set_free hx hf hS.
have [y [v [h4 h5 [h6 h7]]]] := adv_residual S hx ho.
exists S', u, y; split=> //; first by move: h2; rewrite /adv_step e1 e2.
by split=> // f; rewrite h7 (adv_unique h5 h2) e3.
Qed.
Lemma adv_steady P0 x (u : 'cV[F]_nf) S out : adv_stored dim nb dirs outs bnds tau P0 x u S ->
  adv_rate dim nb dirs bnds tau P x u = 0 -> adv_rate dim nb dirs bnds tau P0 x u = 0 ->
  is_tr x -> in_free dim nb dirs bnds P x -> is_tr out ->
  exists S', [/\ set x S = Ok S', adv_stored dim nb dirs outs bnds tau P x u S'
  & (forall f : 'I_nF, adv_flux dim nb outs bnds tau P0 x u f = adv_flux dim nb outs bnds tau P x u f) ->
    exists2 y, res S x out = Ok y & is_tr y /\ forall f : 'I_nF, tr nb y f =
      if inflow_face dirs bnds P f then 0 else adv_flux dim nb outs bnds tau P x u f].
Proof.
move=> hS r1 r0 hx hf ho; have [S' [v [y [h1 h2 h3 h4 [h5 h6]]]]] := adv_chain hS hx hf ho.
have ev : v = u.
  case: hS => hS e1 e2 e3; apply: (@adv_unique S x).
    by rewrite /adv_step e1 e2.
  by rewrite /adv_step e1 e2 subrr r1 r0 !scaler0 addr0 scaler0.
rewrite ev in h2 h6; exists S'; split=> // hfl; exists y => //; split=> // f; rewrite h6 hfl.
by case: ifP => // _; rewrite -scalerDl addrC subrK scale1r.
Qed.
Lemma adv_balance P0 x0 (u0 : 'cV[F]_nf) S x : adv_data dim nb nf P0 ->
  adv_stored dim nb dirs outs bnds tau P0 x0 u0 S -> is_tr x -> in_free dim nb dirs bnds P x ->
  exists S' (u : 'cV[F]_nf), [/\ set x S = Ok S', adv_u nf S' = u
  & forall (i0 : 'I_nf) (j0 : 'I_nb), i0 = 0%N :> nat -> j0 = 0%N :> nat ->
    ap_area P * (u i0 0 - u0 i0 0) = dt *
      (theta * (ap_src P 0 - \sum_(f < nF) full_flux dim nb tau P x u f j0 0 -
                \sum_(f < nF | inflow_face dirs bnds P f) ap_dirval P 0 f) +
       (1 - theta) * (ap_src P0 0 - \sum_(f < nF) full_flux dim nb tau P0 x0 u0 f j0 0 -
                \sum_(f < nF | inflow_face dirs bnds P0 f) ap_dirval P0 0 f))].
Proof.
move=> hP0 hS hx hf.
have [S' [u [y [h1 h2 h3 _ _]]]] := adv_chain hS hx hf zt_tr.
exists S', u; split=> //; first by case: h2.
move=> i0 j0 ei ej.
have n0 : (0 < nf)%N by case: (i0) => k; case: (nf).
have m0 : (0 < nb)%N by case: (j0) => k; case: (nb).
have -> : i0 = Ordinal n0 by apply: val_inj.
have -> : j0 = Ordinal m0 by apply: val_inj.
have R Q z w : adv_data dim nb nf Q -> adv_rate dim nb dirs bnds tau Q z w (Ordinal n0) 0 =
   ap_src Q 0 - \sum_(f < nF) full_flux dim nb tau Q z w f (Ordinal m0) 0 -
   \sum_(f < nF | inflow_face dirs bnds Q f) ap_dirval Q 0 f.
  case=> W hW; rewrite adv_rateE mxE (rate_mean _ hW _ _ n0 m0) !mxE summxE addrA [- _ + _]addrC.
  by congr (_ - _); apply: eq_bigr => f _; rewrite mxE.
rewrite -(R P x u hP) -(R P0 x0 u0 hP0).
move: h3; move: (adv_rate _ _ _ _ _ P _ _) (adv_rate _ _ _ _ _ P0 _ _) => a b /colP/(_ (Ordinal n0)).
by rewrite !mxE.
Qed.

(** Without stabilisation. *)
Lemma adv_outflow S x out : tau = 0 -> is_tr x -> is_tr out -> exists2 y, ttf S x out = Ok y &
  vanishes (outflow_face outs bnds P) nF nb y.
Proof.
move=> t0 hx ho; have [y [u [hy h1 [sy f1]]]] := adv_trace_to_flux S hx ho.
exists y => // f j hf hj hm; have := f1 (Ordinal hf); rewrite outflow_flux // scaler0 if_same => /colP/(_ (Ordinal hj)).
by rewrite !mxE.
Qed.
Lemma adv_unseen W S x x' out out' : upwind_contract dim nb nf W P -> tau = 0 -> is_tr x -> is_tr x' ->
  is_tr out -> is_tr out' ->
  (forall f : 'I_nF, tr nb x f = tr nb x' f \/
     outflow_face outs bnds P f /\ forall s, (s < up_n W f)%N -> 0 <= up_w W f s) ->
  exists2 y, ttf S x out = Ok y & ttf S x' out' = Ok y.
Proof.
move=> hW t0 hx hx' ho ho' h.
have [y [u [hy h1 [sy f1]]]] := adv_trace_to_flux S hx ho.
have [y' [u' [hy' h2 [sy' f2]]]] := adv_trace_to_flux S hx' ho'.
exists y => //; rewrite hy'; congr Ok; apply: trace_ext sy' sy _ => f; rewrite f1 f2.
have eu : u' = u.
  apply: (@adv_hom_unique x') => //; rewrite /hom_adv_step -(outwind_rate hW u t0 (x := x)) //.
  by move=> g; case: (h g) => [|[_]]; [left | right].
rewrite eu; case: ifP => // _; congr (_ *: _).
case: (h f) => [e|[hf _]]; last by rewrite !outflow_flux.
by rewrite /adv_flux /stab_flux /full_flux e.
Qed.
Lemma adv_explicit S x out : theta = 0 -> is_tr x -> is_tr out -> ttf S x out = Ok zt.
Proof.
move=> th0 hx ho; have [y [u [-> h1 [sy f1]]]] := adv_trace_to_flux S hx ho.
congr Ok; apply: trace_ext sy zt_tr _ => f; rewrite f1 tr_z th0 scale0r.
by case: ifP.
Qed.
Lemma coeffs_col n (v : seq F) : size v = n -> coeffs_of (col_of n (nth 0 v)) = v.
Proof.
move=> sv; apply: (@eq_from_nth _ 0); first by rewrite size_map size_enum_ord sv.
move=> i; rewrite size_map size_enum_ord => hi.
by rewrite (nth_map (Ordinal hi)) ?size_enum_ord // mxE nth_enum_ord.
Qed.
Lemma adv_shown S x x' Q absc : is_tr x -> adv_state_ok dim nb nf S -> exists S' (u : 'cV[F]_nf),
  [/\ set x S = Ok S', adv_step dim nb dirs bnds tau theta dt P S x u,
      ap_errors Q S' x' = [:: ap_diffsq Q (coeffs_of u)]
    & ap_bulk_values dim Q S' absc x' = [:: mkseq (ap_eval Q absc (coeffs_of u)) (hc_pow dim (size absc))]].
Proof.
move=> hx hS; have [S' [u [h1 h2 [[s1 _ _] h4 _ _]]]] := adv_set hx hS.
exists S', u; rewrite /ap_errors /ap_bulk_values /mkseq /=.
by rewrite -(coeffs_col s1) -/(adv_u nf S') h4.
Qed.
End Contract.

(** ** make_initial *)
Lemma adv_initial S x : is_tr x -> adv_state_ok dim nb nf S ->
  let: (x', S') := ap_make_initial dim p dirs outs bnds tau P S x in
  [/\ is_tr x', in_free dim nb dirs bnds P x',
      forall f : 'I_nF, tr nb x' f = if inflow_face dirs bnds P f then 0 else \col_j ap_init_psi P j f
    & adv_stored dim nb dirs outs bnds tau P x' (col_of nf (ap_init_phi P)) S'].
Proof.
move=> hx [s1 s2 s3]; rewrite /ap_make_initial.
set x' := ap_write _ _ _ _ _; set u' := for_ _ _ _.
have [h1 h2] : is_tr x' /\ forall f : 'I_nF, tr nb x' f = if inflow_face dirs bnds P f then 0 else \col_j ap_init_psi P j f.
  apply: (@adv_write (fun i j => ap_init_psi P j i) (fun f => \col_j ap_init_psi P j f)) => // f j.
  by rewrite mxE.
have hfree : in_free dim nb dirs bnds P x'.
  by move=> f j hf hj hm; have := h2 (Ordinal hf); rewrite /= hm => /colP/(_ (Ordinal hj)); rewrite !mxE.
have su : size u' = nf by rewrite /u' size_for_assign.
have eu : col_of nf (nth 0 u') = col_of nf (ap_init_phi P).
  by apply/colP => i; rewrite !mxE /u' ap_nfE (nth_for_upd 0 (ap_init_phi P)) ?s1.
have := @ap_fill_flux_ok F dim p dirs bnds tau P x' u' (ap_flux_old S).
have := @ap_fill_bdr_ok F dim p outs bnds tau P x' u'.
have := @inflow_terms0 F dim p dirs bnds tau P x'.
rewrite /inflow_terms /ap_shape_fct ap_nbE eu => /(_ hfree) hz -[b1 b2] /(_ s2) [f1 f2].
split=> //; split=> //; rewrite /adv_old_rate /= f2 hz addr0 //.
Qed.
Lemma adv_state0 : adv_state_ok dim nb nf (ap_state0 F dim p).
Proof. by rewrite /adv_state_ok /ap_state0 /= !size_nseq ap_nfE ap_nbE. Qed.

(** Kinds of faces. *)
Lemma adv_kinds f : let t := nth 0%N (ap_types P) f in
  [/\ t \in dirs -> ap_dirichlet dirs bnds P f, t \in outs -> ap_outflow outs bnds P f,
      t \in bnds -> t \notin dirs -> t \notin outs ->
        ap_dirichlet dirs bnds P f = (ap_wind P f <= 0) /\ ap_outflow outs bnds P f = ~~ ap_dirichlet dirs bnds P f
    & t \notin dirs -> t \notin outs -> t \notin bnds -> ~~ ap_dirichlet dirs bnds P f /\ ~~ ap_outflow outs bnds P f].
Proof.
rewrite /ap_dirichlet /ap_outflow /=; split=> [->|->|hb /negbTE hd /negbTE ho|/negbTE hd /negbTE ho hb] //.
  by rewrite hd ho hb /= ltNge.
by rewrite hd ho hb.
Qed.
Lemma adv_disjoint f : (forall t, t \in dirs -> (t \notin outs) && (t \notin bnds)) -> (forall t, t \in outs -> t \notin bnds) ->
  ~~ (ap_dirichlet dirs bnds P f && ap_outflow outs bnds P f).
Proof.
move=> h1 h2; rewrite /ap_dirichlet /ap_outflow; set t := nth _ _ _; have := h1 t; have := h2 t.
case: (t \in dirs) => /=; last case: (t \in outs) => /=; last by case: (t \in bnds) => //= _ _; rewrite ltNge; case: (_ <= _).
  by move=> _ /(_ isT) /andP[/negbTE -> /negbTE ->].
by move=> /(_ isT) /negbTE ->.
Qed.
End Local.
