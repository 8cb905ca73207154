(** DiffusionPostprocess: what [errors] measures. *)
From mathcomp Require Import all_ssreflect all_algebra zify ring.
From Verif Require Import M_Base L_Base M_Index L_Index M_DenseLA S_DenseLA L_DenseLA M_Lapack S_Lapack S_Hdg L_Hdg L_HdgSrc S_Tpp L_Tens.
From Verif Require Import M_DiffusionUniform M_Diffusion S_LocalSolver S_Diffusion S_TppGeo S_Gradient M_DiffusionPp S_DiffusionPp.
From Verif Require Import L_LocalBase L_LocalLink L_DiffusionUniform L_DiffusionUniform2 L_TppGeo L_Diffusion2 L_Diffusion3 L_Gradient L_DiffusionPp.
Set Implicit Arguments. Unset Strict Implicit. Unset Printing Implicit Defensive.
Import Order.TTheory GRing.Theory Num.Theory.
Local Open Scope ring_scope.

Section Errors.
Variable F : realFieldType.
Variables (gesv : nat -> nat -> seq F -> seq F -> sv_result F).
Variables (dim p : nat) (dirs : seq nat) (tau : F) (S : pp_setting F dim) (P : pp_data F).
Hypotheses (dim0 : (0 < dim)%N) (hS : setting_ok p S P).
Notation nf := ((p + 1) ^ dim)%N.
Notation npp := ((p + 1 + 1) ^ dim)%N.
Notation nb := ((p + 1) ^ (dim - 1))%N.
Notation is_tr := (is_trace (2 * dim) nb).
Implicit Types (q : 'I_dim -> 'cV[F]_nf) (u : 'cV[F]_nf) (v w : 'cV[F]_npp).
Notation one := (cube_one F dim (p + 1)).
Notation b := (st_b S).
Notation Qp := (st_Qp S).
Notation xp := (st_xp S).
Notation fn := (@fn_at F dim (p + 1 + 1) b Qp xp).
Notation fngrad := (@fn_grad F dim (p + 1 + 1) b Qp xp (st_geo S)).
Let npp0 : (0 < npp)%N. Proof. by rewrite expn_gt0 addn1. Qed.
Let nf0 : (0 < nf)%N. Proof. by rewrite expn_gt0 addn1. Qed.

Lemma pp_unique q u v v' : postprocessed P q u v -> postprocessed P q u v' -> v = v'.
Proof.
move=> /(post_system dim0 hS) h /(post_system dim0 hS); rewrite -h => e.
apply/eqP; rewrite -subr_eq0; apply/eqP; apply: (K_kernel dim0 hS).
by rewrite mulmxBr e subrr.
Qed.
Lemma pp_exists q u : exists v, postprocessed P q u v.
Proof.
exists (invmx (K p S) *m (- (\sum_d gradm p P d *m q d) + (eg_area (st_geo S) * u (Ordinal nf0) 0) *: one)).
by apply/(post_system dim0 hS); rewrite mulKVmx ?(K_unit dim0 hS) // (_ : Ordinal _ = Ordinal nf0) //; exact: val_inj.
Qed.
Lemma pp_post_ok X : gesv_correct gesv -> exists2 v : 'cV[F]_npp, pp_post gesv dim p P X = Ok (coeffs_of v)
  & postprocessed P (qpart nf X) (upart nf dim X) v.
Proof.
move=> hg; have [hm eK] := post_matrix dim0 hS; have [hv ev] := post_vector dim0 hS X.
have uK : mx_of npp npp (pp_matrix dim p P) \in unitmx by rewrite eK (K_unit dim0 hS).
have [hi [sx hx]] := hg npp 1%N _ _ hm hv uK.
pose Y := sv_rhs (gesv npp 1%N (pp_matrix dim p P) (pp_vector dim p P X)).
exists (mx_of npp 1 Y).
  rewrite /pp_post /solve_mut /= n_shape_ppE hi -/Y; congr Ok.
  have sY : size Y = npp by rewrite sx muln1.
  rewrite -[LHS](mkseq_nth 0) sY coeffs_mkseq; congr coeffs_of.
  by apply/colP => i; rewrite !mxE mul0n.
apply/(post_system dim0 hS); rewrite -eK hx ev; congr (_ + (_ * _) *: _); congr (upart _ _ _ _ _); exact: val_inj.
Qed.
Lemma pp_errors_ok x : gesv_correct gesv -> 0 < tau -> is_tr x -> exists q u v,
  [/\ full_solution dirs tau (pp_df P) x q u, postprocessed P q u v
    & pp_errors gesv dim p dirs tau P x = Ok [:: pp_diffsq P (coeffs_of v)]].
Proof.
move=> hg tau0 hx; have [X [h1 _ _ h3]] := full_solve dirs dim0 hg tau0 (setting_data dim0 hS) hx.
have [v hv1 hv2] := pp_post_ok X hg.
exists (qpart nf X), (upart nf dim X), v; split=> //.
by rewrite /pp_errors (iffRL (lambda_okP _ _ _)) ?n_shape_bdrE // h1 /= hv1.
Qed.
(** Failures. *)
Lemma pp_checked x : ~ is_tr x -> pp_errors gesv dim p dirs tau P x = Abort.
Proof.
by rewrite /pp_errors => hx; case: ifP => // /(iffLR (lambda_okP _ _ _)); rewrite n_shape_bdrE.
Qed.
Lemma pp_throw X x : is_tr x -> df_solve_local_problem gesv dim p dirs tau (pp_df P) 1 x = Ok X ->
  ~~ sv_info (gesv npp 1%N (pp_matrix dim p P) (pp_vector dim p P X)) ->
  pp_errors gesv dim p dirs tau P x = Throw.
Proof.
move=> hx h1 h2; rewrite /pp_errors (iffRL (lambda_okP _ _ _)) ?n_shape_bdrE // h1 /=.
by rewrite /pp_post /solve_mut /= n_shape_ppE (negbTE h2).
Qed.

(** The mean. *)
Lemma quad_sub : quad_ok (p + 1) b Qp xp (st_wp S).
Proof. by case: hS => _ _ _ [[h1 h2] _] _; split=> // i j hi hj; apply: h2; lia. Qed.
Lemma basis_sub : orthonormal_basis (p + 1) b.
Proof.
case: hS => -[b0 hs ho] _ _ _ _; split=> [//|i hi|i j hi hj].
  by apply: hs; lia.
by apply: ho; lia.
Qed.
Let W := quad_weight Qp (st_wp S) dim.
Lemma mean_coeff m (hb : orthonormal_basis (m + 1) b) (hq : quad_ok (m + 1) b Qp xp (st_wp S)) (v : 'cV[F]_((m + 1) ^ dim)) :
  \sum_(s < Qp ^ dim) W s * @fn_at F dim (m + 1) b Qp xp v s = nth 0 (coeffs_of v) 0.
Proof.
have m0 : (0 < (m + 1) ^ dim)%N by rewrite expn_gt0 addn1.
have s0 s : shape_at (m + 1) b Qp xp dim 0 s = 1.
  rewrite /shape_at big1 // => d _; rewrite /dig div0n mod0n; case: hb => -> _ _; exact: hornerC.
rewrite /coeffs_of (nth_map (Ordinal m0)) ?size_enum_ord // -[0%N in RHS]/(nat_of_ord (Ordinal m0)) nth_ord_enum.
under eq_bigr => s _ do rewrite /fn_at mulr_sumr.
rewrite exchange_big (sum_ord1 (i := Ordinal m0)) /= => [|i hi].
  have := quad_orthonormal hb hq (Ordinal m0) (Ordinal m0); rewrite eqxx => h; have h1 : _ = 1 := h.
  rewrite -[RHS]mulr1 -[X in _ = _ * X]h1 mulr_sumr; apply: eq_bigr => s _; rewrite /= !s0 /W.
  by move: (v _ _) (quad_weight _ _ _ _) => *; ring.
have := quad_orthonormal hb hq i (Ordinal m0); rewrite -val_eqE (negbTE hi) => h; have h1 : _ = 0 := h.
rewrite -[RHS](mulr0 (v i 0)) -[X in _ = _ * X]h1 mulr_sumr; apply: eq_bigr => s _; rewrite /= s0 /W.
by move: (v _ _) (quad_weight _ _ _ _) (shape_at _ _ _ _ _ _ _) => *; ring.
Qed.
Lemma pp_mean q u v : postprocessed P q u v ->
  \sum_(s < Qp ^ dim) W s * fn v s = \sum_(s < Qp ^ dim) W s * @fn_at F dim (p + 1) b Qp xp u s.
Proof.
case=> h _; rewrite (mean_coeff basis_sub quad_sub) -h; apply: mean_coeff.
  by case: hS.
by case: hS => _ _ _ [].
Qed.

(** Tested with the gradient of any polynomial w of degree p + 1. *)
Lemma pp_weak q u v w : postprocessed P q u v ->
  \sum_(s < Qp ^ dim) W s * (\sum_d st_coef S s * fngrad v d s * fngrad w d s) =
  - (\sum_(s < Qp ^ dim) W s * (\sum_d @fn_at F dim (p + 1) b Qp xp (q d) s * fngrad w d s)).
Proof.
move=> [_ h].
have hA : (stiff (p + 1) Qp b xp (st_wp S) (st_geo S) (st_coef S)) *m v = - (\sum_d gradm p P d *m q d).
  apply/colP => i; rewrite [RHS]mxE summxE.
  transitivity (\sum_(j < npp) pp_stiff P i j * v j 0).
    by rewrite mxE; apply: eq_bigr => j _; case: hS => _ _ _ _ [_ [-> _ _]]; rewrite mxE.
  rewrite h; congr (- _); apply: eq_bigr => d _; rewrite mxE; apply: eq_bigr => j _; by rewrite mxE.
have a0 : 0 < eg_area (st_geo S) by case: hS => _ [].
have := congr1 (dotv w) hA; rewrite stiff_form dotvNr dotv_sumr.
rewrite (eq_bigr _ (fun d _ => gradmE hS d w (q d))).
rewrite -mulr_sumr -mulrN => /(mulfI (lt0r_neq0 a0)) e.
transitivity (\sum_(s < Qp ^ dim) W s * st_coef S s * (\sum_d fngrad w d s * fngrad v d s)).
  apply: eq_bigr => s _; rewrite -[RHS]mulrA; congr (_ * _); rewrite mulr_sumr; apply: eq_bigr => d _.
  by rewrite -mulrA [fngrad v d s * _]mulrC.
rewrite e exchange_big /=; congr (- _); apply: eq_bigr => s _; rewrite mulr_sumr; apply: eq_bigr => d _.
by rewrite [fngrad w d s * _]mulrC.
Qed.

(** When q is the flux of a polynomial w of degree p + 1, the post-processing finds w up to its mean. *)
Lemma pp_exact q u v w : postprocessed P q u v ->
  (forall d s, (s < Qp ^ dim)%N -> @fn_at F dim (p + 1) b Qp xp (q d) s = - (st_coef S s * fngrad w d s)) ->
  v = w + const_fn npp (nth 0 (coeffs_of u) 0 - nth 0 (coeffs_of w) 0).
Proof.
move=> hv hq0; have hm := hv.1.
have hz : dotv (v - w) (stiff (p + 1) Qp b xp (st_wp S) (st_geo S) (st_coef S) *m (v - w)) = 0.
  rewrite stiff_form; have h := pp_weak (v - w) hv.
  suff -> : \sum_(s < Qp ^ dim) W s * st_coef S s * (\sum_d fngrad (v - w) d s * fngrad (v - w) d s) = 0 by rewrite mulr0.
  have e : \sum_(s < Qp ^ dim) W s * (\sum_d @fn_at F dim (p + 1) b Qp xp (q d) s * fngrad (v - w) d s) =
      - (\sum_(s < Qp ^ dim) W s * (\sum_d st_coef S s * fngrad w d s * fngrad (v - w) d s)).
    rewrite -sumrN; apply: eq_bigr => s _; rewrite -mulrN -sumrN; congr (_ * _); apply: eq_bigr => d _.
    by rewrite hq0 // mulNr.
  move: h; rewrite e opprK => /eqP; rewrite -subr_eq0 => /eqP h; rewrite -[RHS]h -sumrB; apply: eq_bigr => s _.
  rewrite -mulrBr -sumrB -[LHS]mulrA; congr (_ * _); rewrite mulr_sumr; apply: eq_bigr => d _.
  have -> : fngrad (v - w) d s = fngrad v d s - fngrad w d s.
    by case: hS => hb _ _ _ _; rewrite -scaleN1r (fngradD _ _ _ hb) (fngradZ _ _ _ hb) mulN1r.
  by move: (fngrad v d s) (fngrad w d s) (st_coef S s) => *; ring.
have [c hc] : exists c, v - w = c *: one.
  by case: hS => hb hgeo _ [hq hc] _; apply: (stiff_eq0 dim0 hb hq hgeo hc hz).
apply/eqP; rewrite addrC -subr_eq; apply/eqP; rewrite hc.
have c0 n (x : 'cV[F]_n) (k : 'I_n) : nth 0 (coeffs_of x) k = x k 0.
  by rewrite /coeffs_of (nth_map k) ?size_enum_ord // nth_ord_enum.
have -> : c = nth 0 (coeffs_of u) 0 - nth 0 (coeffs_of w) 0.
  rewrite -hm -[0%N]/(nat_of_ord (Ordinal npp0)) !c0.
  have /colP/(_ (Ordinal npp0)) := hc; by rewrite !mxE mulr1 => ->.
by apply/colP => i; rewrite !mxE; case: ifP => _; rewrite ?mulr1 ?mulr0.
Qed.

(** Constants. *)
Lemma pp_constant c : gesv_correct gesv -> 0 < tau ->
  (forall i, (i < nf)%N -> df_src (pp_df P) i = 0) ->
  (forall f, (f < 2 * dim)%N -> ~~ (nth 0%N (df_types (pp_df P)) f \in dirs)) ->
  pp_errors gesv dim p dirs tau P (const_trace c (2 * dim) nb) = Ok [:: pp_diffsq P (coeffs_of (const_fn npp c))].
Proof.
move=> hg tau0 hs hm; have hD := setting_data dim0 hS.
have [q [u [v [h1 h2 ->]]]] := pp_errors_ok hg tau0 (const_is_trace dim p c).
congr (Ok [:: pp_diffsq P (coeffs_of _)]).
have : full_solution dirs tau (pp_df P) (const_trace c (2 * dim) nb) (fun _ => 0) (c *: cube_one F dim p).
  rewrite /full_solution /df_rq /df_ru.
  have hn (f : 'I_(2 * dim)) : face_dirichlet dirs (pp_df P) f = false by apply: negbTE; exact: hm.
  have -> : df_src_vec dim p (pp_df P) = 0 by apply/colP => i; rewrite !mxE hs.
  rewrite big_pred0 // scaler0 addr0.
  have e1 (f : 'I_(2 * dim)) : tr nb (const_trace c (2 * dim) nb) f = c *: unit_vec F nb.
    by apply/colP => j; rewrite !mxE nth_nseq ltn_ord nth_mkseq //; case: eqP; rewrite ?mulr1 ?mulr0.
  have hl1 := loc_const tau (data_ok dim0 hD) (data_const dim0 hD).
  have h0 : loc_eq (df_hdg dim p (pp_df P)) tau (fun=> 0) 0 (fun=> 0).
    split=> [d|]; first by rewrite !mulmx0 subr0 big1 ?oppr0 // => f _; rewrite mulmx0 scaler0.
    by rewrite !big1 ?mulmx0 ?scaler0 ?addr0 // => f _; rewrite mulmx0.
  have /loc_src0 hs0 := loc_lin c hl1 h0.
  apply: (src_ext _ _ _ _ _ hs0) => [d||f|d|//]; rewrite ?scaler0 ?addr0 ?e1 //.
  by rewrite big_pred0 ?oppr0.
move=> hfs; have [hq hu] := full_unique dim0 tau0 hD h1 hfs.
have -> : v = 0 + const_fn npp (nth 0 (coeffs_of u) 0 - nth 0 (coeffs_of (0 : 'cV[F]_npp)) 0).
  apply: (pp_exact h2) => d s hs'; rewrite hq.
  rewrite /fn_at big1 => [|i _]; last by rewrite mxE mul0r.
  by rewrite /fn_grad big1 ?mulr0 ?oppr0 // => i _; rewrite mxE mul0r.
have c0 n (x : 'cV[F]_n) (k : 'I_n) : nth 0 (coeffs_of x) k = x k 0.
  by rewrite /coeffs_of (nth_map k) ?size_enum_ord // nth_ord_enum.
rewrite add0r hu -[0%N in X in X - _]/(nat_of_ord (Ordinal nf0)) c0.
rewrite -[0%N]/(nat_of_ord (Ordinal npp0)) c0 !mxE mulr1 subr0 //.
Qed.
End Errors.
