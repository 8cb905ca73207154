(** Stability of DiffusionAdvectionReaction on a hyperedge. *)
From mathcomp Require Import all_ssreflect all_algebra zify ring.
From Verif Require Import M_Base L_Base M_Lapack S_Lapack M_DiffusionUniform M_Diffusion S_Hdg S_Tpp S_LocalSolver S_Diffusion S_TppGeo.
From Verif Require Import L_Hdg L_HdgSrc L_LocalBase L_LocalLink L_DiffusionUniform L_DiffusionUniform2 L_Diffusion L_TppGeo L_Diffusion2.
From Verif Require Import S_DiffusionEigs M_AdvReact S_AdvReact L_ArHdg L_AdvReact2 L_AdvReact3.
Set Implicit Arguments. Unset Strict Implicit. Unset Printing Implicit Defensive.
Import Order.TTheory GRing.Theory Num.Theory.
Local Open Scope ring_scope.

Section Stable.
Variable F : realFieldType.
Variables (dim p : nat) (tau : F) (P : ar_data F) (t : F).
Hypothesis dim0 : (0 < dim)%N.
Notation D := (ar_df P t).
Notation H := (ar_hdg dim p P t).
Notation nf := ((p + 1) ^ dim)%N.
Notation nb := ((p + 1) ^ (dim - 1))%N.
Notation is_tr := (is_trace (2 * dim) nb).
Notation pair := (pairing (2 * dim) nb).

Lemma ar_small_data : ar_small dim p P t -> diffusion_data dim p D.
Proof. by case=> b [Q [xs [ws [kappa [rho [vel [g [h1 h2 h3 h4 [h5 _]]]]]]]]]; exact: integrals_data h1 h2 h3 h4 h5. Qed.
Lemma ar_wind_data w : ar_wind dim p tau w P t -> diffusion_data dim p D.
Proof. by case=> b [Q [xs [ws [kappa [rho [vel [g [h1 h2 h3 h4 [h5 _]]]]]]]]]; exact: integrals_data h1 h2 h3 h4 h5. Qed.
Lemma ar_stable_data w : ar_stable dim p tau w P t -> diffusion_data dim p D.
Proof. by case=> [[_ _]|]; [exact: ar_small_data | exact: ar_wind_data]. Qed.
Lemma ar_small_dom : ar_small dim p P t ->
  forall q u, 0 <= bulk_form H (@ar_A F dim p P) (ar_R dim p P t) q u /\
  (bulk_form H (@ar_A F dim p P) (ar_R dim p P t) q u = 0 ->
     (forall d, q d = 0) /\ forall d, ar_A p P d *m u = 0).
Proof.
by case=> b [Q [xs [ws [kappa [rho [vel [g [h1 h2 h3 h4 [h5 h6]]]]]]]]]; exact: (small_dom dim0 h1 h2 h3 h4 h5 h6).
Qed.
Lemma ar_windE w : ar_wind dim p tau w P t ->
  [/\ forall d : 'I_dim, ar_A p P d = w d *: hM H, forall u, 0 <= dotv u (ar_R dim p P t *m u) &
      forall f, 0 < tau + outflow H (fun d : 'I_dim => w d) f / 2%:R].
Proof.
case=> b [Q [xs [ws [kappa [rho [vel [g [h1 h2 h3 h4 [h5 h6]]]]]]]]]; split.
- exact: (wind_A h5 h6).
- exact: (wind_R h2 h4 h5 h6).
- exact: (wind_stab h5 h6).
Qed.
Lemma ar_stable_regular w : ar_stable dim p tau w P t -> ar_regular dim p tau P t.
Proof.
move=> hs; have hok := data_ok dim0 (ar_stable_data hs).
case: hs => [[tau0 _ hs]|/ar_windE[h1 h2 h3]]; last exact: (wind_regular hok h1 h2 h3).
exact: (dom_regular hok tau0 (ar_small_dom hs)).
Qed.
Lemma react_00 : dotv (cube_one F dim p) (ar_R dim p P t *m cube_one F dim p) = ar_react P t 0 0.
Proof.
have nf0 : (0 < nf)%N by rewrite expn_gt0 addn1.
rewrite (@dot_one F dim p (ar_R dim p P t *m cube_one F dim p) (Ordinal nf0)) // mxE (sum_ord1 (i := Ordinal nf0)).
  by rewrite !mxE /= mulr1.
by move=> j hj; move: hj; rewrite !mxE /= => /negbTE ->; rewrite mulr0.
Qed.
Lemma outE (w : nat -> F) (f : 'I_(2 * dim)) : outflow H (fun d : 'I_dim => w d) f * ha H f = face_outflow dim w P t f.
Proof. by rewrite mulrC. Qed.
Lemma dot_sqr (x : seq (seq F)) (f : 'I_(2 * dim)) :
  dotv (tr nb x f) (tr nb x f) = \sum_(j < nb) nth 0 (nth [::] x f) j ^+ 2.
Proof. by apply: eq_bigr => j _; rewrite !mxE expr2. Qed.

Variables (gesv : nat -> nat -> seq F -> seq F -> sv_result F) (dirs : seq nat).
Hypothesis hg : gesv_correct gesv.
Notation mask := (ar_mask dirs P t).
Notation off := (vanishes mask (2 * dim) nb).
Notation ttf x out := (ar_trace_to_flux gesv dim p dirs tau P x out t).
Notation zero := (fun _ : 'I_dim => 0 : 'cV[F]_nf).
(** The work of the fluxes on the traces. *)
Lemma ar_energy x out : ar_regular dim p tau P t -> diffusion_data dim p D -> is_tr x -> is_tr out -> off x ->
  exists y q u, [/\ ttf x out = Ok y, ar_loc dim p tau P t q u (tr nb x) zero 0 &
    pair x y = - (bulk_form H (@ar_A F dim p P) (ar_R dim p P t) q u + tau * trace_jump H u (tr nb x))].
Proof.
move=> hr hD hx ho ox; have [y [q [u [hy h1 f1]]]] := ar_fluxP dirs dim0 hg hr hx ho; exists y, q, u; split=> //.
rewrite (ar_pair ox f1) (adv_energy (data_ok dim0 hD) h1) dotv0r addr0 big1 ?addr0 // => d _.
by rewrite dotv0l.
Qed.
Lemma ar_stableP w x out : ar_stable dim p tau w P t -> is_tr x -> is_tr out -> off x ->
  exists2 y, ttf x out = Ok y &
    pair x y <= (\sum_(f < 2 * dim) face_outflow dim w P t f * (\sum_(j < nb) nth 0 (nth [::] x f) j ^+ 2)) / 2%:R /\
    (pair x y = (\sum_(f < 2 * dim) face_outflow dim w P t f * (\sum_(j < nb) nth 0 (nth [::] x f) j ^+ 2)) / 2%:R ->
     exists c, x = const_trace c (2 * dim) nb /\ (ar_react P t 0 0 != 0 -> c = 0)).
Proof.
move=> hs hx ho ox; have hr := ar_stable_regular hs; have hD := ar_stable_data hs.
have [y [q [u [hy h1 f1]]]] := ar_fluxP dirs dim0 hg hr hx ho; exists y => //.
have tc c : (forall f : 'I_(2 * dim), tr nb x f = c *: unit_vec F nb) -> x = const_trace c (2 * dim) nb.
  move=> h; apply: trace_ext hx (const_is_trace _ _ c) _ => f.
  by rewrite h tr_const.
rewrite (ar_pair ox f1).
have hok := data_ok dim0 hD; have hcst := data_const dim0 hD; have hgr := data_grad dim0 hD.
case: hs => [[tau0 w0 hs]|/ar_windE[hA hR hst]].
  have -> : \sum_(f < 2 * dim) face_outflow dim w P t f * (\sum_(j < nb) nth 0 (nth [::] x f) j ^+ 2) = 0.
    rewrite big1 // => f _; rewrite /face_outflow big1 ?mulr0 ?mul0r // => d _; by rewrite w0 mulr0.
  rewrite mul0r; split; first exact: (dom_neg hok tau0 (ar_small_dom hs) h1).
  move=> h0; have [c [_ hc hR]] := dom_kernel hok tau0 (ar_small_dom hs) hcst hgr h1 h0.
  exists c; split; first exact: tc.
  move=> r0; move: (congr1 (dotv (cube_one F dim p)) hR); rewrite dotvZr react_00 dotv0r => /eqP.
  by rewrite mulf_eq0 (negbTE r0) orbF => /eqP.
have -> : \sum_(f < 2 * dim) face_outflow dim w P t f * (\sum_(j < nb) nth 0 (nth [::] x f) j ^+ 2) =
   \sum_f outflow H (fun d : 'I_dim => w d) f * ha H f * dotv (tr nb x f) (tr nb x f).
  by apply: eq_bigr => f _; rewrite outE dot_sqr.
split; first exact: (wind_bound hok hA hR hst h1).
move=> h0; have [c [hc hc2]] := wind_kernel hok hA hR hst hcst hgr h1 h0.
exists c; split; first exact: tc.
by move=> r0; move/eqP: hc2; rewrite react_00 mulf_eq0 (negbTE r0) orbF sqrf_eq0 => /eqP.
Qed.
End Stable.

(** Without velocity and reaction. *)
Section Reduced.
Variable F : realFieldType.
Variables (gesv : nat -> nat -> seq F -> seq F -> sv_result F).
Variables (dim p : nat) (dirs : seq nat) (tau : F) (P : ar_data F) (t : F).
Notation nf := ((p + 1) ^ dim)%N.
Notation nb := ((p + 1) ^ (dim - 1))%N.
Hypotheses (dim0 : (0 < dim)%N) (hg : gesv_correct gesv) (tau0 : 0 < tau) (hD : diffusion_data dim p (ar_df P t)).
Hypothesis hR : forall i j, (i < nf)%N -> (j < nf)%N -> ar_react P t i j = 0.
Hypothesis hA : forall i j d, (i < nf)%N -> (j < nf)%N -> (d < dim)%N -> ar_adv P 0 i j d = 0.
Notation H := (ar_hdg dim p P t).
Notation is_tr := (is_trace (2 * dim) nb).
Lemma R0 : ar_R dim p P t = 0. Proof. by apply/matrixP => i j; rewrite !mxE hR. Qed.
Lemma A0 d : ar_A p P d = 0 :> 'M[F]_nf. Proof. by apply/matrixP => i j; rewrite !mxE hA. Qed.
Lemma red_loc q u (x : 'I_(2 * dim) -> 'cV[F]_nb) rq ru : ar_loc dim p tau P t q u x rq ru <-> loc_src H tau q u x rq ru.
Proof.
split=> h; first move/aloc_src: h => h; last apply/aloc_src.
  by apply: src_ext h => // [d|]; rewrite ?A0 ?R0 mul0mx ?addr0 ?subr0.
by apply: src_ext h => // [d|]; rewrite ?A0 ?R0 mul0mx ?addr0 ?subr0.
Qed.
Lemma red_regular : ar_regular dim p tau P t.
Proof.
move=> q u /red_loc h1.
have h0 : loc_src H tau (fun=> 0) 0 (fun=> 0) (fun=> 0) 0.
  split=> [d|]; first by rewrite !mulmx0 subr0 big1 ?oppr0 ?addr0 // => f _; rewrite mulmx0 scaler0.
  by rewrite !big1 ?scaler0 ?addr0 // => f _; rewrite mulmx0.
exact: (src_unique (data_ok dim0 hD) tau0 h1 h0).
Qed.
Lemma ar_reduces x out : is_tr x -> is_tr out ->
  ar_trace_to_flux gesv dim p dirs tau P x out t = df_trace_to_flux gesv dim p dirs tau (ar_df P t) x out /\
  ar_residual_flux gesv dim p dirs tau P x out t = df_residual_flux gesv dim p dirs tau (ar_df P t) x out.
Proof.
move=> hx ho; split.
  have [y [q [u [-> /red_loc h1 f1]]]] := ar_fluxP dirs dim0 hg red_regular hx ho.
  have [y' -> [s2 [q' [u' [h2 f2]]]]] := diffusion_flux dirs dim0 hD hg tau0 hx ho.
  have [eq eu] := src_unique (data_ok dim0 hD) tau0 h1 h2.
  congr Ok; apply: (fof_ext (q := q) (u := u) (q' := q') (u' := u')) => //; [exact: f1 | by split].
have [y [q [u [-> /red_loc h1 f1]]]] := ar_residualP dirs dim0 hg red_regular hx ho.
have [y' -> [s2 [q' [u' [h2 f2]]]]] := diffusion_residual dirs dim0 hD hg tau0 hx ho.
have [eq eu] := src_unique (data_ok dim0 hD) tau0 h1 h2.
congr Ok; apply: (fof_ext (q := q) (u := u) (q' := q') (u' := u')) => //; [exact: f1 | by split].
Qed.
End Reduced.

(** The velocity at times other than 0 is not used. *)
Section Velocity.
Variable F : realFieldType.
Variables (gesv : nat -> nat -> seq F -> seq F -> sv_result F).
Variables (dim p : nat) (dirs : seq nat) (tau : F) (P P' : ar_data F).
Hypotheses (h1 : ar_df P = ar_df P') (h2 : ar_react P = ar_react P') (h3 : ar_adv P 0 = ar_adv P' 0).
Lemma velocity_assemble t : ar_assemble_loc_matrix dim p tau P t = ar_assemble_loc_matrix dim p tau P' t.
Proof. by rewrite /ar_assemble_loc_matrix h1 h2 h3. Qed.
Lemma velocity_solve st x t : ar_solve_local_problem gesv dim p dirs tau P st x t = ar_solve_local_problem gesv dim p dirs tau P' st x t.
Proof. by rewrite /ar_solve_local_problem /ar_divide velocity_assemble h1. Qed.
Lemma velocity_flux st x out t : ar_flux gesv dim p dirs tau P st x out t = ar_flux gesv dim p dirs tau P' st x out t.
Proof. by rewrite /ar_flux velocity_solve h1. Qed.
Lemma velocity_errors x absc t : ar_errors gesv dim p dirs tau P x t = ar_errors gesv dim p dirs tau P' x t /\
  ar_bulk_values gesv dim p dirs tau P absc x t = ar_bulk_values gesv dim p dirs tau P' absc x t.
Proof. by rewrite /ar_errors /ar_bulk_values velocity_solve h1. Qed.
End Velocity.
