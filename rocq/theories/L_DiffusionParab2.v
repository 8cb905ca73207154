(** Fluxes and time steps of DiffusionParab. *)
From mathcomp Require Import all_ssreflect all_algebra zify ring.
From Verif Require Import M_Base L_Base M_DenseLA M_Lapack S_Lapack S_Hdg L_Hdg S_Tpp S_TppGeo S_LocalSolver.
From Verif Require Import M_DiffusionUniform M_Diffusion S_Diffusion M_DiffusionParab S_DiffusionParab.
From Verif Require Import L_LocalBase L_LocalLink L_HdgSrc L_DiffusionUniform L_DiffusionUniform2 L_Diffusion L_TppGeo.
From Verif Require Import L_Theta L_DiffusionParab.
Set Implicit Arguments. Unset Strict Implicit. Unset Printing Implicit Defensive.
Import Order.TTheory GRing.Theory Num.Theory.
Local Open Scope ring_scope.

Section Data.
Variables (F : realFieldType) (dim p : nat) (P : dp_data F).
Hypotheses (dim0 : (0 < dim)%N) (hP : parab_data dim p P).
Notation H := (dp_hdg dim p P).
Notation nf := ((p + 1) ^ dim)%N.
Notation nb := ((p + 1) ^ (dim - 1))%N.
Lemma pdata_ok : hdg_ok H.
Proof. by case: hP => b [Q [xs [ws [kappa [g [h1 h2 h3 h4 [h5 _]]]]]]]; exact: (df_hdg_ok dim0 h1 h2 h3 h4 h5). Qed.
Lemma pdata_const : hdg_const H (cube_one F dim p) (unit_vec F nb).
Proof. by case: hP => b [Q [xs [ws [kappa [g [h1 h2 h3 h4 [h5 _]]]]]]]; exact: (df_hdg_const dim0 h1 h5). Qed.
Lemma pdata_mass : df_mass_mx dim p (dp_df P) = (dp_area P)%:M.
Proof. by case: hP => b [Q [xs [ws [kappa [g [h1 h2 h3 h4 [h5 ->]]]]]]]; exact: (df_mass_mxE h1 h5). Qed.
Lemma pdata_area : 0 < dp_area P.
Proof. by case: hP => b [Q [xs [ws [kappa [g [h1 h2 h3 [_ h4 _ _] [h5 ->]]]]]]]. Qed.
Lemma area_sym : ((dp_area P)%:M : 'M[F]_nf)^T = (dp_area P)%:M.
Proof. exact: tr_scalar_mx. Qed.
Lemma area_pos (u : 'cV[F]_nf) : u != 0 -> 0 < dotv u ((dp_area P)%:M *m u).
Proof. by move=> hu; rewrite mul_scalar_mx dotvZr mulr_gt0 ?pdata_area // lt_def dotv_ge0 dotv_eq0 hu. Qed.
End Data.

Section Parab.
Variable F : realFieldType.
Variables (gesv : nat -> nat -> seq F -> seq F -> sv_result F).
Variables (dim p : nat) (dirs : seq nat) (tau theta dt : F) (P : dp_data F).
Hypotheses (dim0 : (0 < dim)%N) (hP : parab_data dim p P) (hg : gesv_correct gesv).
Hypotheses (tau0 : 0 <= tau) (c0 : 0 <= theta * dt).
Notation H := (dp_hdg dim p P).
Notation nf := ((p + 1) ^ dim)%N.
Notation nb := ((p + 1) ^ (dim - 1))%N.
Notation mask := (dp_mask dirs P).
Notation ttf := (dp_trace_to_flux gesv dim p dirs tau theta dt P).
Notation res := (dp_residual_flux gesv dim p dirs tau theta dt P).
Notation set := (dp_set_data gesv dim p dirs tau theta dt P).
Notation is_tr := (is_trace (2 * dim) nb).
Implicit Types (x y out : seq (seq F)) (S : dp_state F).

Lemma parab_solve0 S x : is_tr x -> exists X,
  [/\ dp_solve_local_problem gesv dim p dirs tau theta dt P S 0 x = Ok X,
      size X = n_loc_dofs dim p & hom_step dim p tau theta dt P x (qpart nf X) (upart nf dim X)].
Proof.
move=> hx; have := @dp_solve0 F gesv dim p dirs tau theta dt P hg.
rewrite (n_shape_fctE p dim0) n_shape_bdrE => hs.
have := hs (pdata_ok dim0 hP) tau0 c0 _ (pdata_mass hP) (pdata_area hP) S x.
rewrite /hom_step -(pdata_mass hP); apply.
by apply/lambda_okP; rewrite n_shape_bdrE.
Qed.
Lemma parab_solve1 S x : is_tr x -> exists X,
  [/\ dp_solve_local_problem gesv dim p dirs tau theta dt P S 1 x = Ok X,
      size X = n_loc_dofs dim p & step_of dim p dirs tau theta dt P S x (qpart nf X) (upart nf dim X)].
Proof.
move=> hx; have := @dp_solve1 F gesv dim p dirs tau theta dt P hg.
rewrite /df_rq_ /df_ru_ /old_rate_ (n_shape_fctE p dim0) n_shape_bdrE => hs.
have := hs (pdata_ok dim0 hP) tau0 c0 _ (pdata_mass hP) (pdata_area hP) S x erefl.
rewrite /step_of -(pdata_mass hP); apply.
by apply/lambda_okP; rewrite n_shape_bdrE.
Qed.
Lemma parab_num_flux X x (f : 'I_(2 * dim)) (j : 'I_nb) :
  dp_num_flux dim p tau P X x f j = num_flux H tau (qpart nf X) (upart nf dim X) (tr nb x) f j 0.
Proof.
have := @dp_num_fluxE F dim p tau P X x f; rewrite (n_shape_fctE p dim0) n_shape_bdrE => hs; exact: hs.
Qed.
Lemma parab_write (G : nat -> nat -> F) (V : 'I_(2 * dim) -> 'cV[F]_nb) out : is_tr out ->
  (forall (f : 'I_(2 * dim)) (j : 'I_nb), G f j = V f j 0) ->
  is_tr (df_write dirs (dp_df P) G out) /\
  forall f : 'I_(2 * dim), tr nb (df_write dirs (dp_df P) G out) f = if mask f then 0 else V f :> 'cV[F]_nb.
Proof.
have := @dp_writeE F dim p dirs P G; rewrite n_shape_bdrE => hs; exact: hs.
Qed.

Lemma parab_flux S x out : is_tr x -> is_tr out -> exists y q u,
  [/\ ttf S x out = Ok y, hom_step dim p tau theta dt P x q u & flux_of dim p dirs tau theta P x q u y].
Proof.
move=> hx ho; have [X [hX sX hs]] := parab_solve0 S hx.
rewrite /dp_trace_to_flux !(iffRL (lambda_okP _ _ _)) ?n_shape_bdrE // hX /=.
eexists; exists (qpart nf X), (upart nf dim X); split => //.
apply: (parab_write (V := fun f => theta *: num_flux H tau (qpart nf X) (upart nf dim X) (tr nb x) f)) ho _ => f j.
by rewrite parab_num_flux mulrC [RHS]mxE.
Qed.
Lemma parab_residual S x out : is_tr x -> is_tr out -> exists y q u,
  [/\ res S x out = Ok y, step_of dim p dirs tau theta dt P S x q u & mixed_flux_of dim p dirs tau theta P S x q u y].
Proof.
move=> hx ho; have [X [hX sX hs]] := parab_solve1 S hx.
rewrite /dp_residual_flux !(iffRL (lambda_okP _ _ _)) ?n_shape_bdrE // hX /=.
eexists; exists (qpart nf X), (upart nf dim X); split => //.
apply: (parab_write (V := fun f => theta *: num_flux H tau (qpart nf X) (upart nf dim X) (tr nb x) f +
  (1 - theta) *: old_flux dim p S f)) ho _ => f j.
by rewrite parab_num_flux [_ * theta]mulrC [RHS]mxE [X in _ = X + _]mxE [X in _ = _ + X]mxE /old_flux [X in _ = _ + _ * X]mxE.
Qed.
Lemma step_of_unique S x q u q' u' : step_of dim p dirs tau theta dt P S x q u ->
  step_of dim p dirs tau theta dt P S x q' u' -> (forall d, q d = q' d) /\ u = u'.
Proof. exact: (step_unique (pdata_ok dim0 hP) (area_pos hP) c0 tau0). Qed.

(** set_data *)
Lemma parab_set_data S x : is_tr x -> state_ok dim p S -> exists S' q u,
  [/\ set x S = Ok S', step_of dim p dirs tau theta dt P S x q u & stored dim p dirs tau P x q u S'].
Proof.
move=> hx [s1 s2 s3]; have [X [hX sX hs]] := parab_solve1 S hx.
rewrite /dp_set_data hX /=.
set u' := for_ _ _ (dp_u_old S).
have su : size u' = nf by rewrite /u' size_for_assign.
have eu : vec_of nf u' = upart nf dim X.
  apply/colP => i; rewrite !mxE /u' n_shape_fctE // (nth_for_upd 0 (fun i => nth 0 X (dim * nf + i))) ?s1 //.
have := @dp_fill_flux_ok F dim p tau P X u' x (dp_flux_old S).
have := @dp_fill_bdr_ok F dim p dirs tau P X x (dp_bdr_old S).
rewrite (n_shape_fctE p dim0) n_shape_bdrE => /(_ s3 hx) [hb1 hb2] /(_ s2) [hf1 hf2].
eexists; exists (qpart nf X), (upart nf dim X); split=> //.
split=> //=.
  by rewrite hf2 eu.
move=> f; apply/colP => j; rewrite mxE hb2; have -> : face_dirichlet dirs (dp_df P) f = mask f by []. by case: (mask f) => //; rewrite mxE.
Qed.
Lemma state0_ok : state_ok dim p (dp_state0 F dim p).
Proof. by rewrite /state_ok /dp_state0 /= !size_nseq n_shape_fctE // n_shape_bdrE. Qed.
End Parab.
