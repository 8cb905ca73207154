(** Fluxes and Jacobian of DiffusionEigs. *)
From mathcomp Require Import all_ssreflect all_algebra zify ring.
From Verif Require Import M_Base L_Base M_DenseLA S_DenseLA M_Lapack S_Lapack S_Hdg L_Hdg S_Tpp S_TppGeo S_LocalSolver.
From Verif Require Import M_DiffusionUniform M_Diffusion S_Diffusion S_DiffusionParab M_DiffusionEigs S_DiffusionEigs.
From Verif Require Import L_LocalBase L_LocalLink L_HdgSrc L_DiffusionUniform L_DiffusionUniform2 L_Diffusion L_TppGeo.
From Verif Require Import L_Theta L_BlockLink L_DiffusionParab L_EigHdg L_DiffusionEigs.
Set Implicit Arguments. Unset Strict Implicit. Unset Printing Implicit Defensive.
Import Order.TTheory GRing.Theory Num.Theory.
Local Open Scope ring_scope.

Section Data.
Variables (F : realFieldType) (dim p : nat) (P : de_data F).
Hypotheses (dim0 : (0 < dim)%N) (hP : eigs_data dim p P).
Notation H := (de_hdg dim p P).
Notation nf := ((p + 1) ^ dim)%N.
Notation nb := ((p + 1) ^ (dim - 1))%N.
Lemma edata_ok eig : hdg_ok (H eig).
Proof.
by case: hP => b [Q [xs [ws [kappa [g [h1 h2 h3 h4 [h5 _]]]]]]]; exact: (df_hdg_ok dim0 h1 h2 (h3 eig) h4 (h5 eig)).
Qed.
Lemma edata_const eig : hdg_const (H eig) (cube_one F dim p) (unit_vec F nb).
Proof. by case: hP => b [Q [xs [ws [kappa [g [h1 h2 h3 h4 [h5 _]]]]]]]; exact: (df_hdg_const dim0 h1 (h5 eig)). Qed.
Lemma edata_grad eig : hdg_grad (H eig) (cube_one F dim p).
Proof.
case: hP => b [Q [xs [ws [kappa [g [h1 h2 h3 h4 [h5 _]]]]]]].
have := df_hdg_grad; move=> hh; exact: (hh _ _ _ _ _ _ _ _ _ _ dim0 h1 h4 (h5 eig)).
Qed.
Lemma edata_mass eig : df_mass_mx dim p (de_at P eig) = (de_area P)%:M.
Proof. by case: hP => b [Q [xs [ws [kappa [g [h1 h2 h3 h4 [h5 ->]]]]]]]; exact: (df_mass_mxE h1 (h5 eig)). Qed.
Lemma edata_area : 0 < de_area P.
Proof. by case: hP => b [Q [xs [ws [kappa [g [h1 h2 h3 [_ h4 _ _] [h5 ->]]]]]]]. Qed.
Lemma time_freeH eig : time_free P -> H eig = H 0.
Proof.
move=> ht; rewrite /de_hdg /df_hdg /hdg_of /=; congr Hdg.
by apply/matrixP => i j; rewrite !mxE ht.
Qed.
End Data.

Section Eigs.
Variable F : realFieldType.
Variables (gesv : nat -> nat -> seq F -> seq F -> sv_result F).
Variables (dim p : nat) (dirs : seq nat) (tau : F) (P : de_data F).
Hypotheses (dim0 : (0 < dim)%N) (hP : eigs_data dim p P) (hg : gesv_correct gesv).
Notation H := (de_hdg dim p P).
Notation nf := ((p + 1) ^ dim)%N.
Notation nb := ((p + 1) ^ (dim - 1))%N.
Notation mask := (de_mask dirs P).
Notation ttf := (de_trace_to_flux gesv dim p dirs tau P).
Notation jac := (de_jacobian gesv dim p dirs tau P).
Notation is_tr := (is_trace (2 * dim) nb).
Notation reg := (regular dim p tau P).
Notation loc := (eig_loc dim p tau P).
Implicit Types (x y out : seq (seq F)).

Lemma eigs_divide eig rhs : reg eig -> size rhs = n_loc_dofs dim p ->
  exists X, [/\ de_divide gesv dim p tau (de_at P eig) eig rhs = Ok X, size X = n_loc_dofs dim p,
    forall d, op_q (H eig) (qpart nf X) (upart nf dim X) d = qpart nf rhs d
  & op_u (H eig) tau (qpart nf X) (upart nf dim X) - (eig * de_area P) *: upart nf dim X = upart nf dim rhs].
Proof.
move=> hr; have := @de_divide_ok F gesv dim p tau eig (de_at P eig) (de_area P).
rewrite (n_shape_fctE p dim0) n_shape_bdrE => hs; exact: hs (edata_mass hP eig) hg hr rhs.
Qed.
Lemma lam_ok x : is_tr x -> lambda_ok dim p x.
Proof. by move=> hx; apply/lambda_okP; rewrite n_shape_bdrE. Qed.
Lemma eigs_solve eig x : reg eig -> is_tr x -> exists X,
  [/\ de_solve_local_problem gesv dim p tau P x eig = Ok X, size X = n_loc_dofs dim p
    & loc eig (qpart nf X) (upart nf dim X) (tr nb x) 0].
Proof.
move=> hr hx; have := @de_solve_ok F gesv dim p tau eig (de_at P eig) (de_area P).
rewrite (n_shape_fctE p dim0) n_shape_bdrE => hs.
have [rhs [X [h1 h2 h3 h4]]] := hs (edata_mass hP eig) hg hr x (lam_ok hx).
by exists X; rewrite /de_solve_local_problem h1 /= h2.
Qed.
Lemma eigs_exist eig (x : 'I_(2 * dim) -> 'cV[F]_nb) (ru : 'cV[F]_nf) : reg eig ->
  exists q u, loc eig q u x ru.
Proof.
move=> hr.
have hnl : n_loc_dofs dim p = ((dim + 1) * nf)%N by rewrite /n_loc_dofs n_shape_fctE.
have nf0 : (0 < nf)%N by rewrite expn_gt0 addn1.
pose V (k : nat) : 'cV[F]_nf := if insub k : option 'I_dim is Some d
  then - (\sum_f hnu (H eig) f d *: (hE (H eig) f *m x f)) else tau *: (\sum_f (hE (H eig) f *m x f)) + ru.
pose rhs := mkseq (fun k => if insub (k %% nf)%N is Some i then V (k %/ nf)%N i 0 else 0) (n_loc_dofs dim p).
have hrhs (k : nat) (i : 'I_nf) : (k < dim + 1)%N -> nth 0 rhs (k * nf + i) = V k i 0.
  move=> hk; rewrite nth_mkseq; last by rewrite hnl block_lt.
  rewrite divnMDl // modnMDl divn_small // addn0 modn_small //.
  by rewrite (_ : insub _ = Some i) //; exact: valK.
have [X [_ _ hq hu]] := eigs_divide hr (size_mkseq _ _ : size rhs = _).
exists (qpart nf X), (upart nf dim X); apply/op_src; split=> [d|].
  rewrite hq; apply/colP => i; rewrite [LHS]mxE hrhs; last by have := ltn_ord d; lia.
  by rewrite /V (_ : insub _ = Some d) //; exact: valK.
rewrite hu; apply/colP => i; rewrite [LHS]mxE hrhs; last by lia.
by rewrite /V insubF ?ltnn.
Qed.
Lemma eigs_write eig (G : nat -> nat -> F) (V : 'I_(2 * dim) -> 'cV[F]_nb) out : is_tr out ->
  (forall (f : 'I_(2 * dim)) (j : 'I_nb), G f j = V f j 0) ->
  is_tr (df_write dirs (de_at P eig) G out) /\
  forall f : 'I_(2 * dim), tr nb (df_write dirs (de_at P eig) G out) f = if mask f then 0 else V f :> 'cV[F]_nb.
Proof. have := @de_writeE F dim p dirs (de_at P eig) G; rewrite n_shape_bdrE => hs; exact: hs. Qed.
Lemma eigs_num_flux eig X x (f : 'I_(2 * dim)) (j : 'I_nb) :
  de_num_flux dim p tau (de_at P eig) X x f j =
  num_flux (H eig) tau (qpart nf X) (upart nf dim X) (tr nb x) f j 0.
Proof.
have := @de_num_fluxE F dim p tau (de_at P eig) X x f; rewrite (n_shape_fctE p dim0) n_shape_bdrE => hs; exact: hs.
Qed.
Lemma eigs_flux eig x out : reg eig -> is_tr x -> is_tr out -> exists y q u,
  [/\ ttf x out eig = Ok y, loc eig q u (tr nb x) 0 & eig_flux_of dim p dirs tau P eig x q u y].
Proof.
move=> hr hx ho; have [X [hX sX hs]] := eigs_solve hr hx.
rewrite /de_trace_to_flux !lam_ok // hX /=.
eexists; exists (qpart nf X), (upart nf dim X); split => //.
apply: eigs_write ho _ => f j; exact: eigs_num_flux.
Qed.
Lemma eigs_jac mu e x out vals : reg mu -> is_tr x -> is_tr out -> is_tr vals -> exists y q0 u0 q1 u1 q2 u2,
  [/\ jac x out e vals mu = Ok y, loc mu q0 u0 (tr nb vals) 0, loc mu q1 u1 (tr nb x) 0,
      loc mu q2 u2 (fun=> 0) ((e * de_area P) *: u0) & is_tr y /\ forall f : 'I_(2 * dim), tr nb y f =
    if mask f then 0 else num_flux (H mu) tau q1 u1 (tr nb x) f + num_flux (H mu) tau q2 u2 (fun=> 0) f].
Proof.
move=> hr hx ho hv; have [X1 [hX1 sX1 hs1]] := eigs_solve hr hx.
have [X0 [hX0 sX0 hs0]] := eigs_solve hr hv.
rewrite /de_jacobian !lam_ok // hX1 /= hX0 /=; set rhs := for_ _ _ _.
have := @de_rhs_ok F dim p X0 (e * de_area P) sX0; cbv zeta; rewrite -/rhs (n_shape_fctE p dim0) => -[sr r1 r2].
have [X2 [hX2 sX2 q2 u2]] := eigs_divide hr sr.
rewrite hX2 /=; eexists; exists (qpart nf X0), (upart nf dim X0), (qpart nf X1), (upart nf dim X1), (qpart nf X2), (upart nf dim X2).
split=> //.
  apply/op_src; split=> [d|]; first by rewrite q2 r1 big1 ?oppr0 // => f _; rewrite mulmx0 scaler0.
  by rewrite u2 r2 big1 ?scaler0 ?add0r // => f _; rewrite mulmx0.
have [w1 w2] := eigs_write (V := fun f => num_flux (H mu) tau (qpart nf X1) (upart nf dim X1) (tr nb x) f) mu ho
  (eigs_num_flux mu X1 x).
have := @de_addE F dim p dirs tau (de_at P mu) X2.
have := @de_bdr_fluxE F dim p tau (de_at P mu) X2.
rewrite (n_shape_fctE p dim0) n_shape_bdrE => hb /(_ _ _ w1 hb) [a1 a2].
split=> // f; rewrite a2 w2; have -> : face_dirichlet dirs (de_at P mu) f = mask f by [].
by case: (mask f); rewrite ?addr0.
Qed.
Lemma loc_unique_e eig q u q' u' xt ru : reg eig -> loc eig q u xt ru -> loc eig q' u' xt ru ->
  (forall d, q d = q' d) /\ u = u'.
Proof. move=> hr; exact: eloc_unique. Qed.

Lemma eigs_irregular eig x out : gesv_detects gesv -> ~ reg eig -> is_tr x -> is_tr out -> ttf x out eig = Abort.
Proof.
move=> hd hr hx ho; rewrite /de_trace_to_flux !lam_ok //= /de_solve_local_problem /df_rhs_lambda lam_ok //=.
have := @de_irregular F gesv dim p tau eig (de_at P eig) (de_area P).
rewrite (n_shape_fctE p dim0) n_shape_bdrE => hs.
by rewrite (hs (edata_mass hP eig) _ (df_size_rhs _ _ tau (de_at P eig) x) hd hr).
Qed.
End Eigs.
