(** BilaplacianParab: fluxes, steps, errors and values in the bulk in the terms of the specification. *)
From mathcomp Require Import all_ssreflect all_algebra zify ring.
From Verif Require Import M_Base L_Base M_Index L_Index M_Lapack S_Lapack M_DiffusionUniform M_Diffusion S_Hdg S_Tpp S_LocalSolver S_Diffusion S_TppGeo.
From Verif Require Import L_Hdg L_HdgSrc L_LocalBase L_LocalLink L_DiffusionUniform L_DiffusionUniform2 L_Diffusion L_TppGeo L_Diffusion2 L_Diffusion3.
From Verif Require Import M_Bilaplacian S_Bilaplacian L_Bilaplacian L_Bilaplacian2 L_Bilaplacian3 L_Bilaplacian4 L_Bilaplacian5 L_Bilaplacian6.
From Verif Require Import S_BiReact L_BilapReact L_BiReg L_BiFlux M_BilapParab S_BilapParab L_BilapParab.
Set Implicit Arguments. Unset Strict Implicit. Unset Printing Implicit Defensive.
Import Order.TTheory GRing.Theory Num.Theory.
Local Open Scope ring_scope.

Section Failures.
Variables (F : realFieldType) (gesv : nat -> nat -> seq F -> seq F -> sv_result F).
Variables (dim p : nat) (dirs laps : seq nat) (tau theta dt : F) (P : bp_data F) (old : seq F).
Notation nb := ((p + 1) ^ (dim - 1))%N.
Implicit Types (x out : seq (seq F)).
Notation ttf := (bp_trace_to_flux gesv dim p dirs laps tau theta dt P old).
Notation res := (bp_residual_flux gesv dim p dirs laps tau theta dt P old).
Notation set := (bp_set_data gesv dim p dirs laps tau theta dt P).
Notation solve st x := (bp_solve_local_problem gesv dim p dirs laps tau theta dt P old st x).
Lemma bp_checked x out : ~ is_trace (2 * dim) (2 * nb) x \/ ~ is_trace (2 * dim) (2 * nb) out ->
  ttf x out = Abort /\ res x out = Abort.
Proof.
by rewrite /bp_trace_to_flux /bp_residual_flux => -[/bl_not_trace ->|/bl_not_trace ->] //; rewrite andbF.
Qed.
Lemma bp_set_checked x : ~ is_trace (2 * dim) (2 * nb) x -> set x old = Abort.
Proof.
by move=> /bl_not_trace h; rewrite /bp_set_data /bp_solve_local_problem /bp_rhs_lambda h.
Qed.
Lemma bp_lapack x out : (forall n nc A b, ~~ sv_info (gesv n nc A b)) ->
  [/\ ttf x out = Abort, res x out = Abort & set x old = Abort].
Proof.
move=> hf; have hd A r : bl_divide gesv dim p A r = Abort.
  by rewrite /bl_divide /solve_const /solve_mut /= (negbTE (hf _ _ _ _)).
have hs st : solve st x = Abort.
  rewrite /bp_solve_local_problem /bp_rhs_lambda.
  by case: eqP => // _; case: bl_lambda_ok; rewrite //= ?hd //; case: eqP => //= _; rewrite hd.
by rewrite /bp_trace_to_flux /bp_residual_flux /bp_set_data !hs /=; case: (_ && _).
Qed.
End Failures.

Section Parab.
Variables (F : realFieldType) (gesv : nat -> nat -> seq F -> seq F -> sv_result F).
Variables (dim p : nat) (dirs laps : seq nat) (tau theta dt : F) (P : bp_data F).
Hypotheses (dim0 : (0 < dim)%N) (hD : diffusion_data dim p (bl_df (bp_bl P))) (hg : gesv_correct gesv).
Hypotheses (tau0 : 0 < tau) (k0 : 0 < theta * dt).
Notation B := (bp_bl P).
Notation D := (bl_df B).
Notation H := (bl_hdg dim p B).
Notation W := (bl_coef dim p B).
Notation M := (df_mass_mx dim p D).
Notation nf := ((p + 1) ^ dim)%N.
Notation nb := ((p + 1) ^ (dim - 1))%N.
Notation nF := (2 * dim)%N.
Notation is_tr := (is_trace nF (2 * nb)).
Notation lo x := (tr nb (lower nb x)).
Notation hi x := (tr nb (upper nb x)).
Notation kap := (theta * dt).
Notation hom := (step_hom dim p tau theta dt P).
Notation full := (step_full dim p dirs laps tau theta dt P).
Notation bflux := (bi_flux dim p dirs laps tau B).
Notation ttf old := (bp_trace_to_flux gesv dim p dirs laps tau theta dt P old).
Notation res old := (bp_residual_flux gesv dim p dirs laps tau theta dt P old).
Notation set := (bp_set_data gesv dim p dirs laps tau theta dt P).
Notation solve st old x := (bp_solve_local_problem gesv dim p dirs laps tau theta dt P old st x).
Notation zt := (zero_trace F nF (2 * nb)).
Notation mask := (face_dirichlet dirs D).
Notation mask2 := (face_dirichlet laps D).
Notation Q := (bp_eff theta P).
Notation rq := (df_rq p (u_problem Q) mask).
Notation ru := (df_ru dim p (u_problem Q) tau mask).
Notation rr := (df_rq p (w_problem Q) mask2).
Notation rw := (df_ru dim p (w_problem Q) tau mask2).
Notation second X := (drop ((dim + 1) * nf) X).
Notation zero := (fun _ : 'I_dim => 0 : 'cV[F]_nf).
Implicit Types (x out : seq (seq F)) (old : seq F).

Lemma step_regular : bi_regular dim p tau B (- kap^-1).
Proof. by apply: regular_neg => //; rewrite oppr_le0 invr_ge0 ltW. Qed.
Let hr : reg dim p tau kap 1 B.
Proof. by apply: regP => //; rewrite mulr1; exact: step_regular. Qed.
Let kn : kap != 0. Proof. exact: lt0r_neq0. Qed.
Lemma step_solve0 old x : is_tr x -> exists2 X, solve 0%N old x = Ok X &
  size X = ((dim + 1 + (dim + 1)) * nf)%N /\
  hom x (qpart nf X) (upart nf dim X) (qpart nf (second X)) (upart nf dim (second X)).
Proof.
move=> hx; have := @bp_solve0 F gesv dim p dirs laps tau theta dt P dim0 hg kn hr.
rewrite (n_shape_fctE p dim0) n_shape_bdrE => /(_ x hx old)[X [h1 h2 h3 h4]].
by exists X.
Qed.
(** The step as a problem with reaction term. *)
Lemma step_react uo x q u r w : full uo x q u r w <->
  bi_react dim p tau B (- kap^-1) q u r w (lo x) (hi x) rq ru rr (rw + kap^-1 *: (M *m uo)).
Proof.
rewrite /step_full /bi_react.
suff -> : rw + kap^-1 *: (M *m (uo - u)) = rw + kap^-1 *: (M *m uo) + - kap^-1 *: (M *m u) by [].
by rewrite -addrA; congr (_ + _); rewrite mulmxBr scalerBr scaleNr.
Qed.
Lemma step_solve1 old x : is_tr x -> exists2 X, solve 1%N old x = Ok X &
  size X = ((dim + 1 + (dim + 1)) * nf)%N /\
  full (upart nf dim old) x (qpart nf X) (upart nf dim X) (qpart nf (second X)) (upart nf dim (second X)).
Proof.
move=> hx; have := @bp_solve1 F gesv dim p dirs laps tau theta dt P dim0 hg kn hr.
rewrite /df_rq_ /df_ru_ (n_shape_fctE p dim0) n_shape_bdrE => /(_ x hx old)[X [h1 h2 h3 h4]].
by exists X => //; split=> //; apply/step_react; split.
Qed.
Lemma parab_flux_ old x out : is_tr x -> is_tr out ->
  exists2 y, ttf old x out = Ok y & exists q u r w, hom x q u r w /\ bflux q u r w (lo x) (hi x) y.
Proof.
move=> hx ho; have [X hX [sX lX]] := step_solve0 old hx.
rewrite /bp_trace_to_flux !(iffRL (is_trP _ _ _)) // hX /=; eexists => //.
eexists; eexists; eexists; eexists; split; first exact: lX.
apply: (bilap_write dirs laps dim0 X ho) => f j.
  rewrite [bl_shape_bdr _ _]n_shape_bdrE ltn_ord addnC tr_upperE //.
rewrite [bl_shape_bdr _ _]n_shape_bdrE ltnNge leq_addr /= addKn tr_lowerE //.
Qed.
Lemma parab_residual_ old x out : is_tr x -> is_tr out ->
  exists2 y, res old x out = Ok y & exists q u r w,
    full (upart nf dim old) x q u r w /\ bflux q u r w (hi x) (lo x) y.
Proof.
move=> hx ho; have [X hX [sX lX]] := step_solve1 old hx.
rewrite /bp_residual_flux !(iffRL (is_trP _ _ _)) // hX /=; eexists => //.
eexists; eexists; eexists; eexists; split; first exact: lX.
by apply: (bilap_write dirs laps dim0 X ho) => f j; rewrite ?tr_upperE ?tr_lowerE.
Qed.
Lemma parab_residual_react old x out : is_tr x -> is_tr out ->
  exists2 y, res old x out = Ok y & exists q u r w,
    bi_react dim p tau B (- kap^-1) q u r w (lo x) (hi x) rq ru rr (rw + kap^-1 *: (M *m upart nf dim old)) /\
    bflux q u r w (hi x) (lo x) y.
Proof.
move=> hx ho; have [y h1 [q [u [r [w [/step_react h2 h3]]]]]] := parab_residual_ old hx ho.
by exists y => //; exists q, u, r, w.
Qed.
Lemma parab_unique (uo : 'cV[F]_nf) x q u r w q' u' r' w' : full uo x q u r w -> full uo x q' u' r' w' ->
  [/\ forall d, q d = q' d, u = u', forall d, r d = r' d & w = w'].
Proof. by move=> /step_react h1 /step_react h2; exact: (react_unique step_regular h1 h2). Qed.
Lemma parab_superpose old x out out' : is_tr x -> is_tr out -> is_tr out' ->
  exists y y0 q u r w, [/\ ttf old x out = Ok y, res old zt out' = Ok y0, full (upart nf dim old) x q u r w &
    bflux q u r w (lo x) (hi x) (comb_trace 1 nF (2 * nb) y y0)].
Proof.
move=> hx ho ho'.
have [y [y0 [q [u [r [w [h1 h2 h3 h4]]]]]]] := flux_superpose (@parab_flux_ old) (@parab_residual_react old) hx ho ho'.
by exists y, y0, q, u, r, w; split=> //; apply/step_react.
Qed.
Lemma parab_residual_value old x out out' out'' : is_tr x -> is_tr out -> is_tr out' -> is_tr out'' ->
  exists y y0 z, [/\ ttf old x out = Ok y, res old zt out' = Ok y0, res old x out'' = Ok z, is_tr z &
    forall f j, (f < nF)%N -> (j < nb)%N ->
      nth 0 (nth [::] z f) j = nth 0 (nth [::] y f) j + nth 0 (nth [::] y0 f) j +
        (if mask f then 0 else tau * df_area D f * (nth 0 (nth [::] x f) (nb + j) - nth 0 (nth [::] x f) j)) /\
      nth 0 (nth [::] z f) (nb + j) = nth 0 (nth [::] y f) (nb + j) + nth 0 (nth [::] y0 f) (nb + j) +
        (if mask2 f then 0 else tau * df_area D f * (nth 0 (nth [::] x f) j - nth 0 (nth [::] x f) (nb + j)))].
Proof.
move=> hx ho ho' ho''.
exact: (flux_residual_value step_regular (@parab_flux_ old) (@parab_residual_react old) hx ho ho' ho'').
Qed.
Lemma parab_not_affine old x f j : is_tr x -> (f < nF)%N -> (j < nb)%N -> ~~ mask f ->
  nth 0 (nth [::] x f) j != nth 0 (nth [::] x f) (nb + j) ->
  forall out out' out'', is_tr out -> is_tr out' -> is_tr out'' ->
  exists y y0 z, [/\ ttf old x out = Ok y, res old zt out' = Ok y0, res old x out'' = Ok z &
    nth 0 (nth [::] z f) j != nth 0 (nth [::] y f) j + nth 0 (nth [::] y0 f) j].
Proof.
move=> hx hf hj' hm hn out out' out'' ho ho' ho''.
exact: (flux_not_affine dim0 hD tau0 step_regular (@parab_flux_ old) (@parab_residual_react old) hx hf hj' hm hn ho ho' ho'').
Qed.

(** ** Stored coefficients *)
Lemma second_block (X : seq F) k : bp_block dim p X (dim + 1 + k) = \col_i nth 0 (second X) (k * nf + i).
Proof. by apply/colP => i; rewrite !mxE nth_drop addnA -mulnDl. Qed.
Lemma parab_set_data_ old x : is_tr x ->
  exists2 X, set x old = Ok X & size X = (2 * (dim + 1) * nf)%N /\ bp_step dim p dirs laps tau theta dt P old x X.
Proof.
move=> hx; have [X h1 [sX l]] := step_solve1 old hx; exists X => //; split; first by rewrite sX; congr (_ * _)%N; lia.
case: l => l1 l2; rewrite /bp_step second_block; split.
  by apply: src_ext l1 => // d; rewrite second_block.
exact: l2.
Qed.

Lemma parab_errors_ old x : is_tr x ->
  exists q u r w, full (bp_block dim p old dim) x q u r w /\
    bp_errors gesv dim p dirs laps tau theta dt P old x =
    if 0 <= df_diffsq D (coeffs_of u) then Ok [:: df_diffsq D (coeffs_of u)] else Abort.
Proof.
move=> hx; have [X hX [_ l]] := step_solve1 old hx.
do 4 eexists; split; first exact: l.
by rewrite /bp_errors hX /= bl_u_coeffsE.
Qed.
Lemma parab_bulk_ old x absc : is_tr x ->
  exists q u r w, full (bp_block dim p old dim) x q u r w /\
    bp_bulk_values gesv dim p dirs laps tau theta dt P old absc x =
    Ok (rcons [seq mkseq (df_eval D absc (coeffs_of (q d))) (size absc ^ dim) | d <- enum 'I_dim]
              (mkseq (df_eval D absc (coeffs_of u)) (size absc ^ dim))).
Proof.
move=> hx; have [X h1 [_ l]] := step_solve1 old hx.
do 4 eexists; split; first exact: l.
rewrite /bp_bulk_values h1 /= hc_powE; congr Ok.
have hc d : mkseq (fun i => nth 0 X (d * bl_shape_fct dim p + i)) (bl_shape_fct dim p) =
    coeffs_of (\col_(i < nf) nth 0 X (d * nf + i)) by rewrite (bl_nf p dim0) (n_shape_fctE p dim0) coeffs_mkseq.
rewrite {1}/mkseq iotaD map_cat cats1; congr rcons; last by rewrite hc.
by rewrite -(val_enum_ord dim) -map_comp; apply: eq_map => d /=; rewrite hc.
Qed.
(** make_initial stores the moments of the initial value. *)
Lemma parab_initial_ old x : is_tr x -> size old = (2 * (dim + 1) * nf)%N ->
  exists x' X, [/\ bp_make_initial dim p dirs P x old = (x', X), size X = size old,
    x' = mkseq (fun f => mkseq (fun j => if nth 0%N (df_types D) f \in dirs then 0
                                  else if (j < nb)%N then df_initial D f j else bl_initlap B f j)
                    (2 * nb)) nF,
    bp_block dim p X dim = \col_i bp_init_phi P i & forall k, k != dim -> bp_block dim p X k = bp_block dim p old k].
Proof.
move=> hx so; do 2 eexists; rewrite /bp_make_initial (bilap_initial _ _ hx) bl_nf // n_shape_fctE //.
have hs : (dim * nf + nf <= size old)%N by rewrite so; nia.
split; [by [] | exact: size_row | by [] | |].
  apply/colP => i; rewrite !mxE nth_row // leq_addr ltn_add2l ltn_ord /= addKn //.
move=> k hk; apply/colP => i; rewrite !mxE nth_row //; case: ifP => // /andP[h1 h2].
by have := ltn_ord i; nia.
Qed.

(** ** The same as implicit Euler *)
Lemma problem_eq q u r w q' u' r' w' x (ra rb : 'cV[F]_nf) (a b : F) :
  bi_loc dim p tau B q u r w (lo x) (hi x) rq ru rr (ra + a *: (M *m u)) ->
  bi_loc dim p tau B q' u' r' w' (lo x) (hi x) rq ru rr (rb + b *: (M *m u')) -> u = u' ->
  ra + a *: (M *m u) = rb + b *: (M *m u).
Proof.
move=> [l1 l2] [l3 l4] eu; rewrite -eu in l3 l4.
have [eq ew] : (forall d, q d = q' d) /\ w = w'.
  have hq : forall d, q d = q' d.
    move=> d; have [m1 m2 _ _ _] := bl_ok dim0 hD.
    apply/eqP; rewrite -subr_eq0; apply: contraT => /m2; rewrite mulmxBr.
    case: l2 => /(_ d) e1 _; case: l4 => /(_ d) e2 _.
    have -> : S_Hdg.hM H *m q d = S_Hdg.hM H *m q' d by apply: (@addIr _ (- (S_Hdg.hD H d *m u))); rewrite e1 e2.
    by rewrite subrr dotv0r ltxx.
  split=> //; case: l2 => _ e1; case: l4 => _ e2.
  apply/eqP; rewrite -subr_eq0; apply: contraT => /(bl_coef_pos hD); rewrite mulmxBr.
  have -> : W *m w = W *m w'; last by rewrite subrr dotv0r ltxx.
  apply: (@addIr _ ru); apply: (@addrI _ (tau *: \sum_f (hE H f *m lo x f))).
  rewrite -e1 -e2; congr (_ + _); by apply: eq_bigr => d _; rewrite hq.
have er d : r d = r' d.
  have [m1 m2 _ _ _] := bl_ok dim0 hD; apply/eqP; rewrite -subr_eq0; apply: contraT => /m2; rewrite mulmxBr.
  case: l1 => /(_ d) e1 _; case: l3 => /(_ d) e2 _.
  have -> : S_Hdg.hM H *m r d = S_Hdg.hM H *m r' d by apply: (@addIr _ (- (S_Hdg.hD H d *m w))); rewrite e1 ew e2.
  by rewrite subrr dotv0r ltxx.
case: l1 => _ e1; case: l3 => _ e2.
apply: (@addrI _ (tau *: \sum_f (hE H f *m hi x f))).
rewrite -e1 -e2 ew; congr (_ + _); by apply: eq_bigr => d _; rewrite er.
Qed.
End Parab.
