(** Properties of the fluxes and time steps of DiffusionParab. *)
From mathcomp Require Import all_ssreflect all_algebra zify ring.
From Verif Require Import M_Base M_Index L_Base M_DenseLA M_Lapack S_Lapack S_Hdg L_Hdg S_Tpp S_TppGeo S_LocalSolver.
From Verif Require Import M_DiffusionUniform M_Diffusion S_Diffusion M_DiffusionParab S_DiffusionParab.
From Verif Require Import L_LocalBase L_LocalLink L_HdgSrc L_DiffusionUniform L_DiffusionUniform2 L_Diffusion2.
From Verif Require Import L_Theta L_DiffusionParab L_DiffusionParab2.
Set Implicit Arguments. Unset Strict Implicit. Unset Printing Implicit Defensive.
Import Order.TTheory GRing.Theory Num.Theory.
Local Open Scope ring_scope.

Section Parab.
Variable F : realFieldType.
Variables (gesv : nat -> nat -> seq F -> seq F -> sv_result F).
Variables (dim p : nat) (dirs : seq nat) (tau theta dt : F) (P : dp_data F).
Hypotheses (dim0 : (0 < dim)%N) (hP : parab_data dim p P) (hg : gesv_correct gesv).
Hypotheses (tau0 : 0 <= tau) (c0 : 0 <= theta * dt).
Notation H := (dp_hdg dim p P).
Notation nf := ((p + 1) ^ dim)%N.
Notation nb := ((p + 1) ^ (dim - 1))%N.
Notation mask := (dp_mask dirs P).
Notation ttf := (dp_trace_to_flux gesv dim p dirs tau theta dt P).
Notation res := (dp_residual_flux gesv dim p dirs tau theta dt P).
Notation set := (dp_set_data gesv dim p dirs tau theta dt P).
Notation is_tr := (is_trace (2 * dim) nb).
Notation pair := (pairing (2 * dim) nb).
Notation off := (vanishes mask (2 * dim) nb).
Notation zt := (zero_trace F (2 * dim) nb).
Notation m := ((dp_area P)%:M : 'M[F]_nf).
Implicit Types (x y out : seq (seq F)) (S : dp_state F).
Let hok := pdata_ok dim0 hP.
Let msym := area_sym dim p P.
Let mpos := area_pos hP.

Lemma pairing_scaled (V : 'I_(2 * dim) -> 'cV[F]_nb) x y : off x ->
  (forall f : 'I_(2 * dim), tr nb y f = if mask f then 0 else V f) ->
  pair x y = \sum_f dotv (tr nb x f) (V f).
Proof.
move=> /vanishesP hx hy; rewrite pairing_dotv; apply: eq_bigr => f _; rewrite hy.
by case: ifP => // hf; rewrite hx // !dotv0l.
Qed.
Lemma zt_is_trace : is_tr zt.
Proof. by split; [exact: size_nseq | apply/allP => l /nseqP[-> _]; rewrite size_nseq]. Qed.
Lemma tr_zt (f : 'I_(2 * dim)) : tr nb zt f = 0 :> 'cV[F]_nb.
Proof. exact: tr_zerob. Qed.

Lemma parab_linear S c x x' out out' out'' : is_tr x -> is_tr x' -> is_tr out -> is_tr out' -> is_tr out'' ->
  exists y y', [/\ ttf S x out = Ok y, ttf S x' out' = Ok y' &
    ttf S (comb_trace c (2 * dim) nb x x') out'' = Ok (comb_trace c (2 * dim) nb y y')].
Proof.
move=> hx hx' ho ho' ho''.
have [y [q [u [hy h1 [sy f1]]]]] := parab_flux dirs dim0 hP hg tau0 c0 S hx ho.
have [y' [q' [u' [hy' h2 [sy' f2]]]]] := parab_flux dirs dim0 hP hg tau0 c0 S hx' ho'.
have [z [q0 [u0 [hz h3 [sz f3]]]]] := parab_flux dirs dim0 hP hg tau0 c0 S (comb_is_trace _ _ c x x') ho''.
exists y, y'; split=> //; rewrite hz; congr Ok.
apply: trace_ext sz (comb_is_trace _ _ _ _ _) _ => f; rewrite tr_comb f1 f2 f3.
case: ifP => _; first by rewrite scaler0 addr0.
have h4 : theta_step H tau m theta dt (fun d => c *: q d + q' d) (c *: u + u')
    (tr nb (comb_trace c (2 * dim) nb x x')) (fun=> 0) 0 0 0.
  by apply: step_ext (step_lin c h1 h2) => // [g|d|||]; rewrite ?tr_comb // scaler0 addr0.
have [eq eu] := step_unique hok mpos c0 tau0 h3 h4.
rewrite scalerA [c * _]mulrC -scalerA -scalerDr -flux_lin; congr (_ *: _).
by apply: flux_ext => //; rewrite tr_comb.
Qed.
Lemma parab_affine S x out out' out'' : is_tr x -> is_tr out -> is_tr out' -> is_tr out'' ->
  exists y y0, [/\ ttf S x out = Ok y, res S zt out' = Ok y0 & res S x out'' = Ok (comb_trace 1 (2 * dim) nb y y0)].
Proof.
move=> hx ho ho' ho''.
have [y [q [u [hy h1 [sy f1]]]]] := parab_flux dirs dim0 hP hg tau0 c0 S hx ho.
have [y' [q' [u' [hy' h2 [sy' f2]]]]] := parab_residual dirs dim0 hP hg tau0 c0 S zt_is_trace ho'.
have [z [q0 [u0 [hz h3 [sz f3]]]]] := parab_residual dirs dim0 hP hg tau0 c0 S hx ho''.
exists y, y'; split=> //; rewrite hz; congr Ok.
apply: trace_ext sz (comb_is_trace _ _ _ _ _) _ => f; rewrite tr_comb f1 f2 f3 scale1r.
case: ifP => _; first by rewrite addr0.
have h4 : step_of dim p dirs tau theta dt P S x (fun d => 1 *: q d + q' d) (1 *: u + u').
  by apply: step_ext (step_lin 1 h1 h2) => // [g|d|||]; rewrite ?tr_zt scale1r ?addr0 ?add0r.
have [eq eu] := step_of_unique dim0 hP tau0 c0 h3 h4.
rewrite addrA -scalerDr -[num_flux _ _ q _ _ _]scale1r -flux_lin; congr (_ *: _ + _).
by apply: flux_ext => //; rewrite tr_zt scale1r addr0.
Qed.
Lemma parab_dirichlet S x out : is_tr x -> is_tr out ->
  exists y r, [/\ ttf S x out = Ok y, res S x out = Ok r, off y & off r].
Proof.
move=> hx ho.
have [y [q [u [hy h1 [sy f1]]]]] := parab_flux dirs dim0 hP hg tau0 c0 S hx ho.
have [y' [q' [u' [hy' h2 [sy' f2]]]]] := parab_residual dirs dim0 hP hg tau0 c0 S hx ho.
by exists y, y'; split=> //; apply/vanishesP => f hf; rewrite ?f1 ?f2 hf.
Qed.
(** theta = 0. *)
Lemma parab_explicit S x out : theta = 0 -> is_tr x -> is_tr out -> ttf S x out = Ok zt.
Proof.
move=> th0 hx ho; have [y [q [u [-> h1 [sy f1]]]]] := parab_flux dirs dim0 hP hg tau0 c0 S hx ho.
congr Ok; apply: trace_ext sy zt_is_trace _ => f; rewrite f1 tr_zt th0 scale0r.
by case: ifP.
Qed.

(** ** The step *)
(** The old rate belongs to the old time if the Dirichlet values do. *)
Lemma old_rate_full P0 x0 q0 u0 S : dp_mask dirs P0 =1 mask ->
  (forall i f, (i < nf)%N -> (f < 2 * dim)%N -> dp_dirold P i f = df_dirval (dp_df P0) i f) ->
  stored dim p dirs tau P0 x0 q0 u0 S ->
  old_rate dim p dirs tau P S =
  rate (dp_hdg dim p P0) tau q0 u0 (tr nb x0) (df_ru dim p (dp_df P0) tau (dp_mask dirs P0)).
Proof.
move=> hm hd [_ _ hf _]; rewrite /old_rate hf /rate /df_ru -!addrA; congr (_ + _).
rewrite addrA [LHS]addrC; congr (_ *: _ + _).
by apply: eq_big => [f|f _]; [rewrite hm | apply/colP => i; rewrite !mxE hd].
Qed.
Lemma parab_chain P0 x0 q0 u0 S x : dp_mask dirs P0 =1 mask ->
  (forall i f, (i < nf)%N -> (f < 2 * dim)%N -> dp_dirold P i f = df_dirval (dp_df P0) i f) ->
  stored dim p dirs tau P0 x0 q0 u0 S -> is_tr x ->
  exists S' q u, [/\ set x S = Ok S', stored dim p dirs tau P x q u S',
    grad_eq H q u (tr nb x) (df_rq p (dp_df P) mask)
  & dp_area P *: (u - u0) = dt *:
     (theta *: rate H tau q u (tr nb x) (df_ru dim p (dp_df P) tau mask) +
      (1 - theta) *: rate (dp_hdg dim p P0) tau q0 u0 (tr nb x0) (df_ru dim p (dp_df P0) tau (dp_mask dirs P0)))].
Proof.
move=> hm hd hs hx.
have [S' [q [u [hS' [h1 h2] hst]]]] := parab_set_data dirs dim0 hP hg tau0 c0 hx (let: And4 a _ _ _ := hs in a).
exists S', q, u; split => //; move: h2; rewrite (old_rate_full hm hd hs) mul_scalar_mx.
by have -> : old_u dim p S = u0 by case: hs.
Qed.

Lemma nfp : (0 < nf)%N. Proof. by rewrite expn_gt0 addn1. Qed.
Lemma dotv_one (v : 'cV[F]_nf) : dotv (cube_one F dim p) v = v (Ordinal nfp) 0.
Proof.
rewrite /dotv (sum_ord1 (i := Ordinal nfp)) => [|j hj]; first by rewrite !mxE /= mul1r.
by rewrite !mxE (negbTE hj) mul0r.
Qed.
Lemma dotv_unit (v : 'cV[F]_nb) (n0 : (0 < nb)%N) : dotv (unit_vec F nb) v = v (Ordinal n0) 0.
Proof.
rewrite /dotv (sum_ord1 (i := Ordinal n0)) => [|j hj]; first by rewrite !mxE /= mul1r.
by rewrite !mxE (negbTE hj) mul0r.
Qed.
Lemma nbp : (0 < nb)%N. Proof. by rewrite expn_gt0 addn1. Qed.
(** Conservation: what the residual says is what the mean value of u changes by. *)
Lemma parab_balance P0 x0 q0 u0 S x out : parab_data dim p P0 ->
  (forall f, (f < 2 * dim)%N -> ~~ dp_mask dirs P0 f) -> (forall f, (f < 2 * dim)%N -> ~~ mask f) ->
  stored dim p dirs tau P0 x0 q0 u0 S -> grad_eq (dp_hdg dim p P0) q0 u0 (tr nb x0) (df_rq p (dp_df P0) (dp_mask dirs P0)) ->
  is_tr x -> is_tr out -> exists S' y, [/\ set x S = Ok S', res S x out = Ok y
  & dp_area P * (nth 0 (dp_u_old S') 0 - nth 0 (dp_u_old S) 0) =
    dt * (theta * df_src (dp_df P) 0 + (1 - theta) * df_src (dp_df P0) 0 - \sum_(f < 2 * dim) nth 0 (nth [::] y f) 0)].
Proof.
move=> hP0 nm0 nm hs hq0 hx ho.
have [S' [q [u [hS' hst hs']]]] := parab_set_data dirs dim0 hP hg tau0 c0 hx (let: And4 a _ _ _ := hs in a).
have [y [q1 [u1 [hy h1 [sy f1]]]]] := parab_residual dirs dim0 hP hg tau0 c0 S hx ho.
have [eq eu] := step_of_unique dim0 hP tau0 c0 h1 hst.
exists S', y; split => //.
case: hst => hq; rewrite mul_scalar_mx => hu.
have ru0 PP : (forall f, (f < 2 * dim)%N -> ~~ dp_mask dirs PP f) ->
    df_ru dim p (dp_df PP) tau (dp_mask dirs PP) = df_src_vec dim p (dp_df PP).
  move=> hn; rewrite /df_ru (big_pred0 _ _ _ _) ?scaler0 ?addr0 // => f.
  by rewrite (negbTE (hn _ (ltn_ord f))).
have or0 : old_rate dim p dirs tau P S = rate (dp_hdg dim p P0) tau q0 u0 (tr nb x0) (df_src_vec dim p (dp_df P0)).
  rewrite /old_rate (big_pred0 _ _ _ _) => [|f]; last by rewrite (negbTE (nm _ (ltn_ord f))).
  by rewrite scaler0 addr0; case: hs.
have := congr1 (dotv (cube_one F dim p)) hu.
rewrite !dotvZr !dotvDr !dotvZr or0 ru0 //.
rewrite (balance _ hok _ (pdata_const dim0 hP) hq) (balance _ (pdata_ok dim0 hP0) _ (pdata_const dim0 hP0) hq0).
rewrite dotvNr !dotv_one.
have [_ eS _ hf0] := hs; have [_ eS' _ _] := hs'.
have val v : nth 0 v 0 = vec_of nf v (Ordinal nfp) 0 by rewrite mxE.
rewrite !val -[vec_of nf (dp_u_old S)]/(old_u dim p S) -[vec_of nf (dp_u_old S')]/(old_u dim p S') eS' => ->.
rewrite !mxE /=; congr (_ * _).
have -> : \sum_(f < 2 * dim) nth 0 (nth [::] y f) 0 =
  theta * (\sum_f dotv (unit_vec F nb) (num_flux H tau q u (tr nb x) f)) +
  (1 - theta) * \sum_f dotv (unit_vec F nb) (num_flux (dp_hdg dim p P0) tau q0 u0 (tr nb x0) f).
  rewrite !mulr_sumr -big_split /=; apply: eq_bigr => f _ /=.
  have -> : nth 0 (nth [::] y f) 0 = dotv (unit_vec F nb) (tr nb y f) by rewrite (dotv_unit _ nbp) mxE.
  rewrite f1 (negbTE (nm _ (ltn_ord f))) dotvDr !dotvZr hf0 (negbTE (nm0 _ (ltn_ord f))).
  by congr (_ * dotv _ _ + _); exact: flux_ext.
move: (\sum_f _) (\sum_f _) (df_src _ _) (df_src _ _) => a1 a2 a3 a4; rewrite !mulrBr opprD -!addrA; congr (_ + _); exact: addrCA.
Qed.

(** A steady state is kept. *)
Lemma parab_steady P0 x q u S : dp_df P0 = dp_df P ->
  (forall i f, (i < nf)%N -> (f < 2 * dim)%N -> dp_dirold P i f = df_dirval (dp_df P) i f) ->
  stored dim p dirs tau P0 x q u S -> is_tr x ->
  loc_src H tau q u (tr nb x) (df_rq p (dp_df P) mask) (df_ru dim p (dp_df P) tau mask) ->
  exists S', [/\ set x S = Ok S', stored dim p dirs tau P x q u S'
    & forall out, is_tr out -> exists2 y, res S x out = Ok y & is_tr y /\ forall f : 'I_(2 * dim),
        tr nb y f = if mask f then 0 else num_flux H tau q u (tr nb x) f].
Proof.
move=> eD hd hs hx [hq hu].
have em : dp_mask dirs P0 =1 mask by move=> f; rewrite /dp_mask eD.
have eH : dp_hdg dim p P0 = H by rewrite /dp_hdg eD.
have hs0 : stored dim p dirs tau P x q u S.
  case: hs => h1 h2 h3 h4; split=> //; first by rewrite h3 eH eD.
  by move=> f; rewrite h4 em eH.
have r0 : rate H tau q u (tr nb x) (df_ru dim p (dp_df P) tau mask) = 0.
  by rewrite /rate hu [df_ru _ _ _ _ _ + _]addrC subrr.
have hst : step_of dim p dirs tau theta dt P S x q u.
  split=> //; rewrite (old_rate_full _ _ hs0) // r0 !scaler0 addr0 scaler0.
  by case: hs0 => _ -> _ _; rewrite subrr mulmx0.
have [S' [q' [u' [hS' hst' [k1 k2 k3 k4]]]]] := parab_set_data dirs dim0 hP hg tau0 c0 hx (let: And4 a _ _ _ := hs in a).
have [eq eu] := step_of_unique dim0 hP tau0 c0 hst' hst; subst u'.
exists S'; split=> //.
  split=> //; first by rewrite k3; apply: rate_ext.
  by move=> f; rewrite k4; case: ifP => // _; apply: flux_ext.
move=> out ho; have [y [q1 [u1 [hy h1 [sy f1]]]]] := parab_residual dirs dim0 hP hg tau0 c0 S hx ho.
exists y => //; split=> // f; rewrite f1.
have [eq1 eu1] := step_of_unique dim0 hP tau0 c0 h1 hst.
case hm : (mask f) => //; have [_ _ _ ->] := hs0; rewrite hm.
have -> : num_flux H tau q1 u1 (tr nb x) f = num_flux H tau q u (tr nb x) f by apply: flux_ext.
by rewrite -scalerDl addrC subrK scale1r.
Qed.

(** What is shown after set_data: another step. *)
Lemma parab_bulk S x absc : is_tr x -> exists X, [/\
  dp_bulk_values gesv dim p dirs tau theta dt P S absc x = Ok (mkseq (fun d =>
    mkseq (df_eval (dp_df P) absc (mkseq (fun i => nth 0 X (d * nf + i)) nf)) (hc_pow dim (size absc))) (dim + 1)),
  size X = ((dim + 1) * nf)%N & step_of dim p dirs tau theta dt P S x
   (fun d => \col_(i < nf) nth 0 X (d * nf + i)) (\col_(i < nf) nth 0 X (dim * nf + i))].
Proof.
move=> hx; have [X [hX sX hs]] := parab_solve1 dirs dim0 hP hg tau0 c0 S hx.
by exists X; rewrite /dp_bulk_values hX /= sX /n_loc_dofs n_shape_fctE.
Qed.
End Parab.

Section Pos.
Variable F : realFieldType.
Variables (gesv : nat -> nat -> seq F -> seq F -> sv_result F).
Variables (dim p : nat) (dirs : seq nat) (tau theta dt : F) (P : dp_data F).
Hypotheses (dim0 : (0 < dim)%N) (hP : parab_data dim p P) (hg : gesv_correct gesv).
Hypotheses (tau0 : 0 < tau) (th0 : 0 < theta) (dt0 : 0 < dt).
Notation H := (dp_hdg dim p P).
Notation nf := ((p + 1) ^ dim)%N.
Notation nb := ((p + 1) ^ (dim - 1))%N.
Notation mask := (dp_mask dirs P).
Notation ttf := (dp_trace_to_flux gesv dim p dirs tau theta dt P).
Notation res := (dp_residual_flux gesv dim p dirs tau theta dt P).
Notation set := (dp_set_data gesv dim p dirs tau theta dt P).
Notation is_tr := (is_trace (2 * dim) nb).
Notation pair := (pairing (2 * dim) nb).
Notation off := (vanishes mask (2 * dim) nb).
Notation zt := (zero_trace F (2 * dim) nb).
Notation m := ((dp_area P)%:M : 'M[F]_nf).
Implicit Types (x y out : seq (seq F)) (S : dp_state F).
Let hok := pdata_ok dim0 hP.
Let msym := area_sym dim p P.
Let mpos := area_pos hP.
Let c0 : 0 <= theta * dt. Proof. by rewrite mulr_ge0 // ltW. Qed.

Lemma parab_symmetric S x x' out out' : is_tr x -> is_tr x' -> is_tr out -> is_tr out' -> off x -> off x' ->
  exists y y', [/\ ttf S x out = Ok y, ttf S x' out' = Ok y' & pair x' y = pair x y'].
Proof.
move=> hx hx' ho ho' ox ox'.
have [y [q [u [hy h1 [sy f1]]]]] := parab_flux dirs dim0 hP hg (ltW tau0) c0 S hx ho.
have [y' [q' [u' [hy' h2 [sy' f2]]]]] := parab_flux dirs dim0 hP hg (ltW tau0) c0 S hx' ho'.
exists y, y'; split=> //; rewrite (pairing_scaled ox' f1) (pairing_scaled ox f2).
under eq_bigr => f _ do rewrite dotvZr.
under [RHS]eq_bigr => f _ do rewrite dotvZr.
by rewrite -!mulr_sumr (hom_sym hok msym th0 dt0 h1 h2).
Qed.
Lemma parab_negative S x out : is_tr x -> is_tr out -> off x ->
  exists2 y, ttf S x out = Ok y & pair x y <= 0 /\ (pair x y = 0 -> x = zt).
Proof.
move=> hx ho ox.
have [y [q [u [hy h1 [sy f1]]]]] := parab_flux dirs dim0 hP hg (ltW tau0) c0 S hx ho.
exists y => //; rewrite (pairing_scaled ox f1).
under eq_bigr => f _ do rewrite dotvZr.
rewrite -mulr_sumr; have [k1 k2] := hom_neg hok mpos th0 dt0 tau0 h1; split.
  by rewrite pmulr_rle0.
move/eqP; rewrite mulf_eq0 gt_eqF //= => /eqP /k2 hz.
apply: trace_ext hx (zt_is_trace _ _ _) _ => f; rewrite tr_zt; exact: hz.
Qed.

(** After set_data, plotting with the same traces shows different values. *)
Lemma parab_plot_other S x : dirs = [::] -> (forall i, (i < nf)%N -> df_src (dp_df P) i = 0) -> theta = 1 -> x = zt ->
  state_ok dim p S -> old_u dim p S != 0 ->
  exists2 S', set x S = Ok S' & forall q u, step_of dim p dirs tau theta dt P S' x q u -> u != old_u dim p S'.
Proof.
move=> hd hs th1 -> hS hu.
have [S' [q' [u' [hS' hst hst']]]] := parab_set_data dirs dim0 hP hg (ltW tau0) c0 (zt_is_trace _ _ _) hS.
exists S' => // q u hst2; apply: contra_neq hu => eu.
have [_ eu' _ _] := hst'; rewrite eu' in eu.
have ru0 : df_ru dim p (dp_df P) tau mask = 0.
  rewrite /df_ru big_pred0 => [|f]; last by rewrite /dp_mask hd.
  by rewrite scaler0 addr0; apply/colP => i; rewrite !mxE hs.
have rq0 d : df_rq p (dp_df P) mask d = 0.
  by rewrite /df_rq big_pred0 ?oppr0 // => f; rewrite /dp_mask hd.
case: (hst2) => hq; rewrite eu' -eu subrr mulmx0 th1 scale1r subrr scale0r addr0 ru0 => /esym/eqP.
rewrite scaler_eq0 gt_eqF //= => /eqP hr.
have hl : loc_src H tau q u (tr nb zt) (df_rq p (dp_df P) mask) 0.
  by have := (rate_src H tau _ _ _ _ 0).1 hq; rewrite hr subrr.
have h0 : loc_src H tau (fun=> 0) 0 (tr nb zt) (df_rq p (dp_df P) mask) 0.
  split=> [d|]; first by rewrite rq0 !mulmx0 subr0 addr0 big1 ?oppr0 // => f _; rewrite tr_zt mulmx0 scaler0.
  rewrite !big1 ?mulmx0 ?scaler0 ?addr0 // => f _; rewrite ?tr_zt; exact: mulmx0.
have [q0 u0] := src_unique hok tau0 hl h0.
have eq d : q' d = q d.
  apply/eqP; rewrite -subr_eq0; apply/eqP/(mass_eq0 hok).
  have [hq' _] := hst; have := hq' d; rewrite -eu -(hq d) => /eqP; rewrite subr_eq subrK => /eqP e1.
  by rewrite mulmxBr e1 subrr dotv0r.
have := hst.2; rewrite th1 scale1r subrr scale0r addr0 ru0 -eu.
have -> : rate H tau q' u (tr nb zt) 0 = rate H tau q u (tr nb zt) 0 by apply: rate_ext.
rewrite hr scaler0 mul_scalar_mx => /eqP; rewrite scaler_eq0 gt_eqF ?(pdata_area hP) //= subr_eq0 => /eqP <-.
by rewrite u0.
Qed.
End Pos.
