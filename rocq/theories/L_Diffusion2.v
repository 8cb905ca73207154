(** Properties of the fluxes of Diffusion. *)
From mathcomp Require Import all_ssreflect all_algebra zify.
From Verif Require Import M_Base L_Base M_Lapack S_Lapack M_DiffusionUniform M_Diffusion S_Hdg S_Tpp S_LocalSolver S_Diffusion S_TppGeo.
From Verif Require Import L_Hdg L_HdgSrc L_LocalBase L_LocalLink L_DiffusionUniform L_DiffusionUniform2 L_Diffusion L_TppGeo.
Set Implicit Arguments. Unset Strict Implicit. Unset Printing Implicit Defensive.
Import Order.TTheory GRing.Theory Num.Theory.
Local Open Scope ring_scope.

Section Diffusion.
Variable F : realFieldType.
Variables (gesv : nat -> nat -> seq F -> seq F -> sv_result F).
Variables (dim p : nat) (dirs : seq nat) (tau : F) (D : df_data F).
Hypotheses (dim0 : (0 < dim)%N) (hD : diffusion_data dim p D) (hg : gesv_correct gesv) (tau0 : 0 < tau).
Notation H := (df_hdg dim p D).
Notation nf := ((p + 1) ^ dim)%N.
Notation nb := ((p + 1) ^ (dim - 1))%N.
Notation mask := (face_dirichlet dirs D).
Notation ttf := (df_trace_to_flux gesv dim p dirs tau D).
Notation res := (df_residual_flux gesv dim p dirs tau D).
Notation massf := (df_trace_to_mass_flux gesv dim p dirs tau D).
Notation is_tr := (is_trace (2 * dim) nb).
Notation pair := (pairing (2 * dim) nb).
Notation off := (vanishes mask (2 * dim) nb).
Notation zero := (fun _ : 'I_dim => 0 : 'cV[F]_nf).
Implicit Types (x y out : seq (seq F)).

Lemma data_ok : hdg_ok H.
Proof. by case: hD => b [Q [xs [ws [kappa [g [h1 h2 h3 h4 h5]]]]]]; exact: (df_hdg_ok dim0 h1 h2 h3 h4 h5). Qed.
Lemma data_const : hdg_const H (cube_one F dim p) (unit_vec F nb).
Proof. by case: hD => b [Q [xs [ws [kappa [g [h1 h2 h3 h4 h5]]]]]]; exact: (df_hdg_const dim0 h1 h5). Qed.
Lemma data_grad : hdg_grad H (cube_one F dim p).
Proof. by case: hD => b [Q [xs [ws [kappa [g [h1 h2 h3 h4 h5]]]]]]; exact (df_hdg_grad dim0 h1 h4 h5). Qed.
Lemma data_mass : exists2 a, 0 < a & df_mass_mx dim p D = a%:M.
Proof.
by case: hD => b [Q [xs [ws [kappa [g [h1 h2 h3 h4 h5]]]]]]; exists (eg_area g); [case: h4 | exact: (df_mass_mxE h1 h5)].
Qed.

Lemma tr_zerob (f : 'I_(2 * dim)) : tr nb (zero_trace F (2 * dim) nb) f = 0 :> 'cV[F]_nb.
Proof. by apply/colP => j; rewrite !mxE nth_nseq ltn_ord nth_nseq if_same. Qed.
Lemma diffusion_flux x out : is_tr x -> is_tr out ->
  exists2 y, ttf x out = Ok y & flux_src H tau mask x zero 0 y.
Proof.
move=> hx ho; have := @df_trace_to_flux_ok F gesv dim p dirs tau D x out hg.
rewrite (n_shape_fctE p dim0) n_shape_bdrE /=; apply => //; exact: data_ok.
Qed.
Lemma diffusion_residual x out : is_tr x -> is_tr out ->
  exists2 y, res x out = Ok y & flux_src H tau mask x (df_rq p D mask) (df_ru dim p D tau mask) y.
Proof.
move=> hx ho; have := @df_residual_flux_ok F gesv dim p dirs tau D x out hg.
rewrite /df_rq_ /df_ru_ (n_shape_fctE p dim0) n_shape_bdrE /=; apply => //; exact: data_ok.
Qed.
(** The local solution to a trace. *)
Lemma diffusion_solution x : is_tr x -> exists q u, loc_src H tau q u (tr nb x) zero 0.
Proof. by move=> hx; have [y _ [_ [q [u [h _]]]]] := diffusion_flux hx hx; exists q, u. Qed.

Lemma diffusion_linear c x x' out out' out'' : is_tr x -> is_tr x' ->
  is_tr out -> is_tr out' -> is_tr out'' ->
  exists y y', [/\ ttf x out = Ok y, ttf x' out' = Ok y' &
    ttf (comb_trace c (2 * dim) nb x x') out'' = Ok (comb_trace c (2 * dim) nb y y')].
Proof.
move=> hx hx' ho ho' ho''.
have [y hy fy] := diffusion_flux hx ho; have [y' hy' fy'] := diffusion_flux hx' ho'.
have [z hz fz] := diffusion_flux (comb_is_trace _ _ c x x') ho''.
exists y, y'; split => //; rewrite hz; congr Ok.
apply: (fs_unique data_ok tau0 _ _ fz (fs_lin c fy fy')) => [d|]; by rewrite scaler0 addr0.
Qed.
Lemma diffusion_dirichlet x out : is_tr x -> is_tr out ->
  exists2 y, ttf x out = Ok y & is_tr y /\ off y.
Proof.
move=> hx ho; have [y hy fy] := diffusion_flux hx ho; exists y => //.
by split; [case: fy | exact: fs_vanishes fy].
Qed.
Lemma diffusion_symmetric x x' out out' : is_tr x -> is_tr x' -> is_tr out -> is_tr out' ->
  off x -> off x' ->
  exists y y', [/\ ttf x out = Ok y, ttf x' out' = Ok y' & pair x' y = pair x y'].
Proof.
move=> hx hx' ho ho' ox ox'.
have [y hy fy] := diffusion_flux hx ho; have [y' hy' fy'] := diffusion_flux hx' ho'.
by exists y, y'; split => //; exact: (fs_sym data_ok ox ox' fy fy').
Qed.
Lemma diffusion_negative x out : is_tr x -> is_tr out -> off x ->
  exists2 y, ttf x out = Ok y &
    pair x y <= 0 /\ (pair x y = 0 -> exists c, x = const_trace c (2 * dim) nb).
Proof.
move=> hx ho ox; have [y hy fy] := diffusion_flux hx ho; exists y => //.
split; first exact: (fs_neg data_ok tau0 ox fy).
exact: (fs_kernel data_ok tau0 data_const data_grad hx ox fy).
Qed.
Lemma diffusion_constant c out : is_tr out ->
  ttf (const_trace c (2 * dim) nb) out = Ok (nseq (2 * dim) (nseq nb 0)).
Proof.
move=> ho; have [y -> fy] := diffusion_flux (const_is_trace _ _ c) ho; congr Ok.
have fz : flux_src H tau mask (const_trace c (2 * dim) nb) zero 0 (zero_trace F (2 * dim) nb).
  split; first by split; [exact: size_nseq | apply/allP => l /nseqP[-> _]; rewrite size_nseq].
  have e1 (f : 'I_(2 * dim)) : tr nb (const_trace c (2 * dim) nb) f = c *: unit_vec F nb.
    by apply/colP => j; rewrite !mxE nth_nseq ltn_ord nth_mkseq //; case: eqP; rewrite ?mulr1 ?mulr0.
  exists zero, (c *: cube_one F dim p); split.
    apply/loc_src0; have h1 := loc_const tau data_ok data_const.
    have h0 : loc_eq H tau zero 0 (fun=> 0).
      split=> [d|]; first by rewrite !mulmx0 subr0 big1 ?oppr0 // => f _; rewrite mulmx0 scaler0.
      by rewrite !big1 ?mulmx0 ?scaler0 ?addr0 // => f _; rewrite mulmx0.
    apply: loc_eq_ext (loc_lin c h1 h0) => [d||f]; by rewrite ?scaler0 ?addr0 ?e1.
  move=> f; rewrite tr_zerob; case: (mask f) => //.
  have := flux_lin H tau c zero (cube_one F dim p) (fun=> unit_vec F nb) zero 0 (fun=> 0) f.
  rewrite (flux_const tau data_const) scaler0 add0r => h.
  symmetry; transitivity (num_flux H tau zero 0 (fun=> 0) f); last first.
    by rewrite /num_flux !mulmx0 !scaler0 addr0 subr0 big1 // => d _; rewrite scaler0.
  by rewrite -h; apply: flux_ext => [d||]; rewrite ?scaler0 ?addr0 ?e1.
exact: (fs_unique data_ok tau0 _ _ fy fz).
Qed.

(** residual_flux x = trace_to_flux x + residual_flux 0. *)
Lemma diffusion_affine x out out' out'' : is_tr x -> is_tr out -> is_tr out' -> is_tr out'' ->
  exists y y0, [/\ ttf x out = Ok y, res (zero_trace F (2 * dim) nb) out' = Ok y0 &
    res x out'' = Ok (comb_trace 1 (2 * dim) nb y y0)].
Proof.
move=> hx ho ho' ho''.
have hz : is_tr (zero_trace F (2 * dim) nb).
  by split; [exact: size_nseq | apply/allP => l /nseqP[-> _]; rewrite size_nseq].
have [y hy fy] := diffusion_flux hx ho; have [y0 hy0 fy0] := diffusion_residual hz ho'.
have [w hw fw] := diffusion_residual hx ho''.
exists y, y0; split => //; rewrite hw; congr Ok.
have ex : comb_trace 1 (2 * dim) nb x (zero_trace F (2 * dim) nb) = x.
  apply: trace_ext (comb_is_trace _ _ _ _ _) hx _ => f; apply/colP => j; rewrite !mxE.
  by rewrite (nth_mkseq [::]) // nth_mkseq // nth_nseq ltn_ord nth_nseq ltn_ord mul1r addr0.
have := fs_lin 1 fy fy0; rewrite ex => fs1.
by apply: (fs_unique data_ok tau0 _ _ fw fs1) => [d|]; rewrite scaler0 add0r.
Qed.

(** Testing the residual: the operator, the source term and the boundary values. *)
Lemma diffusion_weak x x' out out' : is_tr x -> is_tr x' -> is_tr out -> is_tr out' -> off x -> off x' ->
  exists y y' q u, [/\ res x out = Ok y, ttf x' out' = Ok y', loc_src H tau q u (tr nb x') zero 0 &
    pair x' y = pair x y' + dotv u (df_ru dim p D tau mask) - \sum_d dotv (df_rq p D mask d) (q d)].
Proof.
move=> hx hx' ho ho' ox ox'.
have [y hy [sy [q [u [h1 f1]]]]] := diffusion_residual hx ho.
have [y' hy' [sy' [q' [u' [h2 f2]]]]] := diffusion_flux hx' ho'.
exists y, y', q', u'; split => //.
rewrite (pairing_mask ox' f1) (pairing_mask ox f2).
by apply: (dual_src data_ok h1); apply/loc_src0.
Qed.
(** Without Dirichlet faces the fluxes add up to the integral of the source. *)
Lemma diffusion_conserved x out : is_tr x -> is_tr out -> (forall f, (f < 2 * dim)%N -> ~~ mask f) ->
  exists2 y, res x out = Ok y & \sum_(f < 2 * dim) nth 0 (nth [::] y f) 0 = df_src D 0.
Proof.
move=> hx ho nm; have [y hy [sy [q [u [h1 f1]]]]] := diffusion_residual hx ho; exists y => //.
have e1 (f : 'I_(2 * dim)) : tr nb (const_trace 1 (2 * dim) nb) f = unit_vec F nb :> 'cV[F]_nb.
  by apply/colP => j; rewrite !mxE nth_nseq ltn_ord nth_mkseq //; case: eqP.
have oc : off (const_trace (1 : F) (2 * dim) nb).
  by move=> f j hf _ hm; move: (nm f hf); rewrite hm.
rewrite -(pairing_const dim p) (pairing_mask oc f1).
have -> : \sum_f dotv (tr nb (const_trace (1 : F) (2 * dim) nb) f) (num_flux H tau q u (tr nb x) f) =
          \sum_f dotv (unit_vec F nb) (num_flux H tau q u (tr nb x) f) :> F.
  by apply: eq_bigr => f _; rewrite e1.
rewrite (dual_src data_ok h1 (loc_const tau data_ok data_const)).
rewrite big1 ?add0r; last by move=> f _; rewrite (flux_const tau data_const) dotv0r.
rewrite [X in _ - X]big1 ?subr0; last by move=> d _; rewrite dotv0r.
rewrite /df_ru (big_pred0 _ _ _ _) => [|f]; last by rewrite (negbTE (nm _ (ltn_ord f))).
rewrite scaler0 addr0 /dotv; have nf0 : (0 < nf)%N by rewrite expn_gt0 p0.
rewrite (sum_ord1 (i := Ordinal nf0)) => [|j hj]; first by rewrite !mxE /= mul1r.
by rewrite !mxE (negbTE hj) mul0r.
Qed.

(** * Mass fluxes *)
Notation Ms := (df_mass_mx dim p D).
Lemma diffusion_mass x out : is_tr x -> is_tr out ->
  exists2 y, massf x out = Ok y & exists q u, loc_src H tau q u (tr nb x) zero 0 /\
    flux_src H tau mask (zero_trace F (2 * dim) nb) zero (Ms *m u) y.
Proof.
move=> hx ho; have := @df_trace_to_mass_flux_ok F gesv dim p dirs tau D x out hg.
rewrite /mass_src (n_shape_fctE p dim0) n_shape_bdrE /=; apply => //; exact: data_ok.
Qed.
Lemma diffusion_mass_total x out : is_tr x -> is_tr out ->
  exists2 y, df_total_numerical_flux_mass gesv dim p dirs tau D x out = Ok y & exists q u,
    loc_src H tau q u (tr nb x) (df_rq p D mask) (df_ru dim p D tau mask) /\
    flux_src H tau mask (zero_trace F (2 * dim) nb) zero (Ms *m u) y.
Proof.
move=> hx ho; have := @df_total_mass_ok F gesv dim p dirs tau D x out hg.
rewrite /mass_src /df_rq_ /df_ru_ (n_shape_fctE p dim0) n_shape_bdrE /=; apply => //; exact: data_ok.
Qed.
Lemma mass_pair x' q' u' v y : off x' -> loc_src H tau q' u' (tr nb x') zero 0 ->
  flux_src H tau mask (zero_trace F (2 * dim) nb) zero v y -> pair x' y = dotv u' v.
Proof.
move=> ox' h2 [_ [q [u [h1 f1]]]]; rewrite (pairing_mask ox' f1).
rewrite (dual_src data_ok h1 (q' := q') (u' := u') (y := tr nb x')); last by apply/loc_src0.
rewrite big1 ?add0r => [|f _]; last by rewrite tr_zerob dotv0l.
by rewrite big1 ?subr0 // => d _; rewrite dotv0l.
Qed.
(** The mass flux tested by a trace is the L2 product of the two local solutions. *)
Lemma diffusion_mass_form x x' out : is_tr x -> is_tr x' -> is_tr out -> off x' ->
  exists y q u q' u', [/\ massf x out = Ok y, loc_src H tau q u (tr nb x) zero 0,
    loc_src H tau q' u' (tr nb x') zero 0 & pair x' y = dotv u' (Ms *m u)].
Proof.
move=> hx hx' ho ox'; have [y hy [q [u [h1 f1]]]] := diffusion_mass hx ho.
have [q' [u' h2]] := diffusion_solution hx'.
by exists y, q, u, q', u'; split => //; exact: (mass_pair ox' h2 f1).
Qed.
Lemma diffusion_mass_sym x x' out out' : is_tr x -> is_tr x' -> is_tr out -> is_tr out' -> off x -> off x' ->
  exists y y', [/\ massf x out = Ok y, massf x' out' = Ok y', pair x' y = pair x y' & 0 <= pair x y].
Proof.
move=> hx hx' ho ho' ox ox'; have [y hy [q [u [h1 f1]]]] := diffusion_mass hx ho.
have [y' hy' [q' [u' [h2 f2]]]] := diffusion_mass hx' ho'; have [a a0 eM] := data_mass.
exists y, y'; split => //.
  by rewrite (mass_pair ox' h2 f1) (mass_pair ox h1 f2) eM !mul_scalar_mx !dotvZr dotvC.
by rewrite (mass_pair ox h1 f1) eM mul_scalar_mx dotvZr mulr_ge0 ?dotv_ge0 // ltW.
Qed.
Lemma diffusion_mass_linear c x x' out out' out'' : is_tr x -> is_tr x' ->
  is_tr out -> is_tr out' -> is_tr out'' ->
  exists y y', [/\ massf x out = Ok y, massf x' out' = Ok y' &
    massf (comb_trace c (2 * dim) nb x x') out'' = Ok (comb_trace c (2 * dim) nb y y')].
Proof.
move=> hx hx' ho ho' ho''.
have [y hy [q [u [h1 fy]]]] := diffusion_mass hx ho; have [y' hy' [q' [u' [h2 fy']]]] := diffusion_mass hx' ho'.
have [z hz [qz [uz [hz' fz]]]] := diffusion_mass (comb_is_trace _ _ c x x') ho''.
exists y, y'; split => //; rewrite hz; congr Ok.
have hz2 : loc_src H tau (fun d => c *: q d + q' d) (c *: u + u') (tr nb (comb_trace c (2 * dim) nb x x')) zero 0.
  by apply: src_ext (src_lin c h1 h2) => [||f|d|] //; rewrite ?tr_comb ?scaler0 ?addr0.
have [_ eu] := src_unique data_ok tau0 hz' hz2.
have ez : comb_trace c (2 * dim) nb (zero_trace F (2 * dim) nb) (zero_trace F (2 * dim) nb) = zero_trace F (2 * dim) nb.
  apply: trace_ext (comb_is_trace _ _ _ _ _) _ _ => [|f].
    by split; [exact: size_nseq | apply/allP => l /nseqP[-> _]; rewrite size_nseq].
  by apply/colP => j; rewrite tr_zerob !mxE (nth_mkseq [::]) // nth_mkseq // nth_nseq ltn_ord nth_nseq ltn_ord mulr0 addr0.
have := fs_lin c fy fy'; rewrite ez => fs1.
apply: (fs_unique data_ok tau0 _ _ fz fs1) => [d|]; first by rewrite scaler0 addr0.
by rewrite eu mulmxDr scalemxAr.
Qed.

Lemma diffusion_node_types : df_node_types dim dirs D =
  mkseq (fun f => if nth 0%N (df_types D) f \in dirs then 1%N else 0%N) (2 * dim).
Proof. by rewrite df_node_typesE; apply: eq_mkseq => f; rewrite /face_dirichlet /is_dirichlet; case: (_ \in _). Qed.
End Diffusion.
