(** The coupled local problems with a reaction term: linearity, uniqueness, Green's formula, regular values. *)
From mathcomp Require Import all_ssreflect all_algebra zify ring.
From Verif Require Import M_Base L_Base M_Lapack S_Lapack M_DiffusionUniform M_Diffusion S_Hdg S_Tpp S_LocalSolver S_Diffusion S_TppGeo.
From Verif Require Import L_Hdg L_HdgSrc L_LocalBase L_LocalLink L_DiffusionUniform L_DiffusionUniform2 L_Diffusion L_TppGeo L_Diffusion2.
From Verif Require Import M_Bilaplacian S_Bilaplacian L_Bilaplacian L_Bilaplacian2 L_Bilaplacian3 L_Bilaplacian4 L_Bilaplacian5.
From Verif Require Import S_BiReact L_BilapReact.
Set Implicit Arguments. Unset Strict Implicit. Unset Printing Implicit Defensive.
Import Order.TTheory GRing.Theory Num.Theory.
Local Open Scope ring_scope.

Section React.
Variable F : realFieldType.
Variables (dim p : nat) (tau : F) (P : bl_data F).
Hypotheses (dim0 : (0 < dim)%N) (hD : diffusion_data dim p (bl_df P)) (tau0 : 0 < tau).
Notation H := (bl_hdg dim p P).
Notation W := (bl_coef dim p P).
Notation M := (df_mass_mx dim p (bl_df P)).
Notation nf := ((p + 1) ^ dim)%N.
Notation nb := ((p + 1) ^ (dim - 1))%N.
Notation nF := (2 * dim)%N.
Notation zero := (fun _ : 'I_dim => 0 : 'cV[F]_nf).
Notation react c := (bi_react dim p tau P c).
Implicit Types (q r rq rr : 'I_dim -> 'cV[F]_nf) (u w ru rw : 'cV[F]_nf) (x y : 'I_nF -> 'cV[F]_nb).
Let hok := bl_ok dim0 hD.
Lemma massE : exists2 a, 0 < a & M = a%:M. Proof. exact: data_mass hD. Qed.
Lemma dotv_mass u w : dotv u (M *m w) = dotv w (M *m u).
Proof. by have [a _ ->] := massE; rewrite !mul_scalar_mx !dotvZr dotvC. Qed.
Lemma mass_pos u : 0 <= dotv u (M *m u).
Proof. by have [a a0 ->] := massE; rewrite mul_scalar_mx dotvZr mulr_ge0 ?dotv_ge0 // ltW. Qed.
Lemma mass_zero u : dotv u (M *m u) = 0 -> u = 0.
Proof.
have [a a0 ->] := massE; rewrite mul_scalar_mx dotvZr => /eqP; rewrite mulf_eq0 (gt_eqF a0) /= dotv_eq0.
by move=> /eqP.
Qed.
Lemma coef_zero w : dotv w (W *m w) = 0 -> w = 0.
Proof. by apply: contra_eq => /(bl_coef_pos hD)/lt0r_neq0. Qed.

Lemma react_lin k c q u r w x y rq ru rr rw q' u' r' w' x' y' rq' ru' rr' rw' :
  react k q u r w x y rq ru rr rw -> react k q' u' r' w' x' y' rq' ru' rr' rw' ->
  react k (fun d => c *: q d + q' d) (c *: u + u') (fun d => c *: r d + r' d) (c *: w + w')
    (fun f => c *: x f + x' f) (fun f => c *: y f + y' f)
    (fun d => c *: rq d + rq' d) (c *: ru + ru') (fun d => c *: rr d + rr' d) (c *: rw + rw').
Proof.
move=> h1 h2; apply: bi_ext (bi_lin c h1 h2) => //.
by rewrite mulmxDr -scalemxAr !scalerDr !scalerA [k * c]mulrC addrACA.
Qed.
Lemma react_ext k q u r w x y rq ru rr rw x' y' rq' ru' rr' rw' :
  (forall f, x f = x' f) -> (forall f, y f = y' f) -> (forall d, rq d = rq' d) -> ru = ru' ->
  (forall d, rr d = rr' d) -> rw = rw' ->
  react k q u r w x y rq ru rr rw -> react k q u r w x' y' rq' ru' rr' rw'.
Proof. by move=> hx hy h1 h2 h3 h4; apply: bi_ext => //; rewrite h4. Qed.
Lemma react_unique k q u r w q' u' r' w' x y rq ru rr rw : bi_regular dim p tau P k ->
  react k q u r w x y rq ru rr rw -> react k q' u' r' w' x y rq ru rr rw ->
  [/\ forall d, q d = q' d, u = u', forall d, r d = r' d & w = w'].
Proof.
move=> hr h1 h2; have h3 := react_lin (-1) h2 h1.
have [|q0 u0 r0 w0] := hr (fun d => -1 *: q' d + q d) (-1 *: u' + u) (fun d => -1 *: r' d + r d) (-1 *: w' + w).
  by apply: react_ext h3 => [f|f|d||d|]; rewrite scaleN1r addNr.
have e (a b : 'cV[F]_nf) : -1 *: b + a = 0 -> a = b.
  by move=> h; apply/eqP; rewrite -subr_eq0 addrC -scaleN1r h.
by split=> [d||d|]; apply: e.
Qed.
(** Green's formula for two problems. *)
Lemma react_green k q u r w x y rw q' u' r' w' x' y' rw' :
  react k q u r w x y zero 0 zero rw -> react k q' u' r' w' x' y' zero 0 zero rw' ->
  \sum_f dotv (x' f) (num_flux H tau r w y f) - dotv u' (rw + k *: (M *m u)) =
  \sum_f dotv (y f) (num_flux H tau q' u' x' f) - dotv w (W *m w').
Proof. by move=> [h1 _] [_ h2]; rewrite addr0 in h2; exact: two_src. Qed.
Lemma react_energy k q u r w x y rw : react k q u r w x y zero 0 zero rw ->
  \sum_f dotv (x f) (num_flux H tau r w y f) - \sum_f dotv (y f) (num_flux H tau q u x f) =
  dotv u rw + k * dotv u (M *m u) - dotv w (W *m w).
Proof.
move=> h; have := react_green h h; rewrite dotvDr dotvZr.
move: (\sum_f _) (\sum_f _) (dotv u rw) (dotv u _) (dotv w _) => a b c d e h1.
apply/eqP; rewrite subr_eq addrAC -addrA -h1 addrC subrK //.
Qed.
(** No irregular value on the negative axis. *)
Lemma regular_neg k : k <= 0 -> bi_regular dim p tau P k.
Proof.
move=> k0 q u r w h; have := react_energy h.
have z (G : 'I_nF -> 'cV[F]_nb) : \sum_f dotv (0 : 'cV[F]_nb) (G f) = 0 by apply: big1 => f _; rewrite dotv0l.
rewrite !z subr0 dotv0r add0r => /eqP; rewrite eq_sym subr_eq0 => /eqP e.
have w0 : w = 0.
  apply: coef_zero; apply/eqP; rewrite eq_le (bl_coef_ge0 hD) andbT -e.
  by rewrite mulr_le0_ge0 // mass_pos.
case: h => h1 h2; rewrite w0 mulmx0 addr0 in h2.
have [q0 u0] := src_unique hok tau0 h2 (@zero_loc F dim p tau P (fun=> 0) (fun=> erefl)).
rewrite w0 u0 mulmx0 scaler0 addr0 in h1.
have [r0 _] := src_unique hok tau0 h1 (@zero_loc F dim p tau P (fun=> 0) (fun=> erefl)).
by split.
Qed.
(** The array-level notion of regularity. *)
Lemma regP kap nu : bi_regular dim p tau P (- (kap^-1 * nu)) -> reg dim p tau kap nu P.
Proof.
rewrite /reg; move: (- _) => c; rewrite (n_shape_fctE p dim0) n_shape_bdrE => h q r u w h1 h2.
by apply: h; split; rewrite ?add0r ?addr0.
Qed.
Lemma regN kap nu : ~ bi_regular dim p tau P (- (kap^-1 * nu)) -> ~ reg dim p tau kap nu P.
Proof.
rewrite /reg; move: (- _) => c; rewrite (n_shape_fctE p dim0) n_shape_bdrE => h hr; apply: h => q u r w [h1 h2].
by apply: hr; move: h1 h2; rewrite ?add0r ?addr0.
Qed.
End React.
