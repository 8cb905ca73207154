(** BilaplacianUniform on the unit hypercube: linearity, constants, conservation, exchanged symmetry. *)
From mathcomp Require Import all_ssreflect all_algebra zify.
From Verif Require Import M_Base L_Base M_Index L_Index M_Lapack S_Lapack L_Lapack M_DenseLA M_DiffusionUniform M_Diffusion S_Hdg S_Tpp S_LocalSolver S_Diffusion.
From Verif Require Import L_Hdg L_HdgSrc L_LocalBase L_LocalLink L_Tens L_DiffusionUniform L_DiffusionUniform2 L_Diffusion L_TppGeo L_Diffusion2 L_Diffusion3.
From Verif Require Import M_Bilaplacian S_Bilaplacian L_Bilaplacian L_Bilaplacian3 L_Bilaplacian4 M_BilaplacianUniform S_BilaplacianUniform L_BilaplacianUniform.
Set Implicit Arguments. Unset Strict Implicit. Unset Printing Implicit Defensive.
Import Order.TTheory GRing.Theory Num.Theory.
Local Open Scope ring_scope.

Section Uniform.
Variables (F : realFieldType) (gesv : nat -> nat -> seq F -> seq F -> sv_result F).
Variables (dim p : nat) (b : nat -> {poly F}) (tau : F).
Hypotheses (dim0 : (0 < dim)%N) (hb : orthonormal_basis (p + 1) b) (hg : gesv_correct gesv) (tau0 : 0 < tau).
Notation H := (cube_hdg b dim p).
Notation nf := ((p + 1) ^ dim)%N.
Notation nb := ((p + 1) ^ (dim - 1))%N.
Notation nF := (2 * dim)%N.
Notation ig := (tpp_integrator b dim p).
Notation ttf := (bu_trace_to_flux gesv dim p ig tau).
Notation is_tr := (is_trace nF (2 * nb)).
Notation lo x := (tr nb (lower nb x)).
Notation hi x := (tr nb (upper nb x)).
Notation sol := (bu_solution b dim p tau).
Notation flx := (bu_fluxes b dim p tau).
Notation pair := (pairing nF (2 * nb)).
Implicit Types (x y out : seq (seq F)).
Let hok : hdg_ok H := cube_ok dim0 hb.
Let hcst := cube_const dim0 hb.

Lemma bu_flux x out : is_tr x -> is_tr out ->
  exists2 y, ttf x out = Ok y & exists q u r w, sol x q u r w /\ flx x q u r w y.
Proof.
move=> hx ho.
have := @bu_flux_ok F gesv dim p ig tau dim0 x out hg.
rewrite (n_shape_fctE p dim0) n_shape_bdrE => /(_ hok tau0 hx ho) [y [q [u [r [w [h1 h2 [h3 h4] h5 h6]]]]]].
by exists y => //; exists q, u, r, w; split; split.
Qed.
Lemma bu_uniq x q u r w q' u' r' w' : sol x q u r w -> sol x q' u' r' w' ->
  [/\ forall d, q d = q' d, u = u', forall d, r d = r' d & w = w'].
Proof.
move=> [/loc_src0 h1 h2] [/loc_src0 h3 h4]; have [er ew] := src_unique hok tau0 h1 h3.
by rewrite -ew in h4; have [eq eu] := src_unique hok tau0 h2 h4.
Qed.
Lemma bu_flx_uniq x q u r w y q' u' r' w' y' : sol x q u r w -> sol x q' u' r' w' ->
  flx x q u r w y -> flx x q' u' r' w' y' -> y = y'.
Proof.
move=> s1 s2; have [eq eu er ew] := bu_uniq s1 s2 => -[t1 a1 b1] [t2 a2 b2].
by apply: (halves_ext t1 t2) => f; rewrite ?a1 ?a2 ?b1 ?b2; apply: flux_ext.
Qed.
Lemma bu_linear c x x' out out' out'' : is_tr x -> is_tr x' -> is_tr out -> is_tr out' -> is_tr out'' ->
  exists y y', [/\ ttf x out = Ok y, ttf x' out' = Ok y' &
    ttf (comb_trace c nF (2 * nb) x x') out'' = Ok (comb_trace c nF (2 * nb) y y')].
Proof.
move=> hx hx' ho ho' ho''.
have [y hy [q [u [r [w [[/loc_src0 l1 l2] [s1 a1 b1]]]]]]] := bu_flux hx ho.
have [y' hy' [q' [u' [r' [w' [[/loc_src0 l1' l2'] [s2 a2 b2]]]]]]] := bu_flux hx' ho'.
have [z hz [q2 [u2 [r2 [w2 [s3 f3]]]]]] := bu_flux (comb_is_trace (2 * nb) nF c x x') ho''.
exists y, y'; split => //; rewrite hz; congr Ok.
pose qc d := c *: q d + q' d; pose rc d := c *: r d + r' d.
have s4 : sol (comb_trace c nF (2 * nb) x x') qc (c *: u + u') rc (c *: w + w').
  split; first apply/loc_src0.
    apply: src_ext (src_lin c l1 l1') => //; last by rewrite scaler0 addr0.
      by move=> f; rewrite tr_upper_comb.
    by move=> d; rewrite scaler0 addr0.
  apply: src_ext (src_lin c l2 l2') => //; last by rewrite mulmxDr -scalemxAr.
    by move=> f; rewrite tr_lower_comb.
  by move=> d; rewrite scaler0 addr0.
apply: (bu_flx_uniq s3 s4 f3); split=> [|f|f]; first exact: comb_is_trace.
  rewrite tr_lower_comb a1 a2 -flux_lin; apply: flux_ext => //; by rewrite tr_lower_comb.
rewrite tr_upper_comb b1 b2 -flux_lin; apply: flux_ext => //; by rewrite tr_upper_comb.
Qed.

(** ** Comparison with DiffusionUniform *)
Notation one := (trace_to_flux gesv dim p ig tau).
Lemma flux_ofE x q u y : is_trace nF nb y -> loc_eq H tau q u (tr nb x) ->
  (forall f, tr nb y f = num_flux H tau q u (tr nb x) f) -> flux_of H tau x y.
Proof. by move=> sy l e; split=> //; exists q, u. Qed.
Lemma bu_second x out out' : is_tr x -> is_tr out -> is_trace nF nb out' ->
  exists2 y, ttf x out = Ok y & one (upper nb x) out' = Ok (upper nb y).
Proof.
move=> hx ho ho'; have [y hy [q [u [r [w [[l1 l2] [s1 a1 b1]]]]]]] := bu_flux hx ho.
exists y => //; have [z hz fz] := uniform_flux dim0 hb hg tau0 (upper_trace hx) ho'.
by rewrite hz; congr Ok; apply: (flux_unique hok tau0 fz (flux_ofE (upper_trace s1) l1 b1)).
Qed.
Lemma bu_first x out out' : is_tr x -> is_tr out -> is_trace nF nb out' ->
  (forall f j, (f < nF)%N -> (j < nb)%N -> nth 0 (nth [::] x f) (nb + j) = 0) ->
  exists2 y, ttf x out = Ok y & one (lower nb x) out' = Ok (lower nb y).
Proof.
move=> hx ho ho' h0; have [y hy [q [u [r [w [[l1 l2] [s1 a1 b1]]]]]]] := bu_flux hx ho.
exists y => //; have [z hz fz] := uniform_flux dim0 hb hg tau0 (lower_trace hx) ho'.
have hz0 (f : 'I_nF) : hi x f = 0 :> 'cV[F]_nb by apply/colP => j; rewrite tr_upperE mxE; exact: h0.
have z1 : loc_eq H tau (fun=> 0) 0 (hi x).
  split=> [d|]; first by rewrite !mulmx0 subr0 big1 ?oppr0 // => f _; rewrite hz0 mulmx0 scaler0.
  rewrite big1 ?add0r => [|d _]; last by rewrite mulmx0.
  by rewrite !big1 // => f _; rewrite ?mulmx0 // hz0 mulmx0.
have [_ w0] := src_unique hok tau0 (iffRL (loc_src0 _ _ _ _ _) l1) (iffRL (loc_src0 _ _ _ _ _) z1).
have l3 : loc_eq H tau q u (lo x) by apply/loc_src0; rewrite w0 mulmx0 in l2.
by rewrite hz; congr Ok; apply: (flux_unique hok tau0 fz (flux_ofE (lower_trace s1) l3 a1)).
Qed.

(** ** Sums of the fluxes *)
Lemma nf1 : (0 < nf)%N. Proof. by rewrite expn_gt0 addn1. Qed.
Notation i0 := (Ordinal nf1).
Lemma cube_mass : hM H = 1%:M.
Proof.
apply/matrixP => i j; rewrite !mxE; exact: volE.
Qed.
Lemma sum_flux q u (z : seq (seq F)) ru o : loc_src H tau q u (tr nb z) (fun=> 0) ru ->
  (forall f : 'I_nF, tr nb o f = num_flux H tau q u (tr nb z) f :> 'cV[F]_nb) ->
  \sum_(f < nF) nth 0 (nth [::] o f) 0 = ru i0 0.
Proof.
move=> h1 f1.
have oc : vanishes xpred0 nF nb (const_trace (1 : F) nF nb) by [].
rewrite -(pairing_const dim p) (@pairing_mask _ _ _ _ _ _ _ _ _ _ _ _ _ oc f1).
under eq_bigr => f _ do rewrite tr_const scale1r.
rewrite (dual_src hok h1 (loc_const tau hok hcst)).
rewrite big1 ?add0r; last by move=> f _; rewrite (flux_const tau hcst) dotv0r.
rewrite [X in _ - X]big1 ?subr0; last by move=> d _; rewrite dotv0l.
rewrite /dotv (sum_ord1 (i := i0)) => [|j hj]; first by rewrite !mxE /= mul1r.
by rewrite !mxE (negbTE hj) mul0r.
Qed.
Lemma bu_conserved x out : is_tr x -> is_tr out ->
  exists y q u r w, [/\ ttf x out = Ok y, sol x q u r w,
    \sum_(f < nF) nth 0 (nth [::] y f) nb = 0 & \sum_(f < nF) nth 0 (nth [::] y f) 0 = w i0 0].
Proof.
move=> hx ho; have [y hy [q [u [r [w [s1 [t1 a1 b1]]]]]]] := bu_flux hx ho.
exists y, q, u, r, w; split => //; case: s1 => /loc_src0 l1 l2.
  have e := sum_flux l1 b1; rewrite mxE in e; rewrite -[RHS]e; apply: eq_bigr => f _.
  by rewrite -!/(lambda_at _ _ _) upper_at addn0.
have e := sum_flux l2 a1; rewrite cube_mass mul1mx in e; rewrite -[RHS]e; apply: eq_bigr => f _.
by rewrite -!/(lambda_at _ _ _) lower_at // expn_gt0 addn1.
Qed.

(** ** Symmetry *)
Lemma exchange_trace x : is_tr x -> is_tr (exchange dim p x).
Proof.
move=> [h1 /allP h2]; split; rewrite ?size_map //; apply/allP => l /mapP[k /h2/eqP hk ->].
by rewrite size_cat addnC -size_cat cat_take_drop hk.
Qed.
Lemma exchange_halves x : is_tr x -> lower nb (exchange dim p x) = upper nb x /\ upper nb (exchange dim p x) = lower nb x.
Proof.
move=> [h1 /allP h2]; split; rewrite /lower /upper /exchange -map_comp; apply/eq_in_map => l /h2/eqP hl /=.
  by rewrite take_size_cat // size_drop hl; lia.
by rewrite drop_size_cat // size_drop hl; lia.
Qed.
Lemma tested q u z ru q' u' z' ru' : loc_src H tau q u (tr nb z) (fun=> 0) ru -> loc_src H tau q' u' (tr nb z') (fun=> 0) ru' ->
  \sum_f dotv (tr nb z' f) (num_flux H tau q u (tr nb z) f) - dotv u' ru =
  \sum_f dotv (tr nb z f) (num_flux H tau q' u' (tr nb z') f) - dotv u ru'.
Proof.
move=> e1 e2; rewrite (energy_src hok e1 e2) (energy_src hok e2 e1) (form_sym _ hok).
have z0 (v : 'I_dim -> 'cV[F]_nf) : \sum_d dotv 0 (v d) = 0 by apply: big1 => d _; rewrite dotv0l.
by rewrite !z0 !addr0 !addrK.
Qed.
Lemma pair_exchange x' x q u r w y : is_tr x' -> flx x q u r w y ->
  pair (exchange dim p x') y = \sum_f dotv (hi x' f) (num_flux H tau q u (lo x) f) +
    \sum_f dotv (lo x' f) (num_flux H tau r w (hi x) f).
Proof.
move=> hx' [_ a1 b1]; rewrite pairing_halves; have [-> ->] := exchange_halves hx'.
by rewrite !pairing_dotv; congr (_ + _); apply: eq_bigr => f _; rewrite ?a1 ?b1.
Qed.
Lemma bu_symmetric x x' out out' : is_tr x -> is_tr x' -> is_tr out -> is_tr out' ->
  exists y y', [/\ ttf x out = Ok y, ttf x' out' = Ok y' & pair (exchange dim p x') y = pair (exchange dim p x) y'].
Proof.
move=> hx hx' ho ho'.
have [y hy [q [u [r [w [[/loc_src0 l1 l2] f1]]]]]] := bu_flux hx ho.
have [y' hy' [q' [u' [r' [w' [[/loc_src0 l1' l2'] f2]]]]]] := bu_flux hx' ho'.
exists y, y'; split => //; rewrite (pair_exchange hx' f1) (pair_exchange hx f2).
have e1 := tested l2 l1'; have e2 := tested l1 l2'.
move: e1 e2; rewrite !dotv0r !subr0 !cube_mass !mul1mx => /eqP; rewrite subr_eq => /eqP -> ->.
by rewrite (dotvC w' w) addrACA subrr addr0 addrC.
Qed.
(** The operator itself is not symmetric. *)
Definition z1 : seq (seq F) := const_trace 0 nF nb.
Definition c1 : seq (seq F) := const_trace 1 nF nb.
Lemma bu_not_symmetric : exists x x', [/\ is_tr x, is_tr x' & forall out out', is_tr out -> is_tr out' ->
  exists y y', [/\ ttf x out = Ok y, ttf x' out' = Ok y' & pair x' y <> pair x y']].
Proof.
have tz : is_trace nF nb z1 := const_is_trace dim p 0.
have tc : is_trace nF nb c1 := const_is_trace dim p 1.
exists (glue nF z1 c1), (glue nF c1 z1); split; try exact: glue_trace.
move=> out out' ho ho'.
have [y hy [q [u [r [w [[l1 l2] f1]]]]]] := bu_flux (glue_trace tz tc) ho.
have h0 f j : (f < nF)%N -> (j < nb)%N -> nth 0 (nth [::] (glue nF c1 z1) f) (nb + j) = 0.
  move=> hf hj; rewrite -/(lambda_at _ _ _) -upper_at (upper_glue tc tz) /lambda_at nth_nseq hf nth_mkseq //.
  by case: eqP.
have [y' hy' h2] := bu_first (glue_trace tc tz) ho' tc h0.
rewrite (lower_glue _ tc) in h2.
have e0 : lower nb y' = nseq nF (nseq nb 0).
  by have := uniform_const dim0 hb hg tau0 1 tc; rewrite h2 => -[].
have e1 : upper nb y' = nseq nF (nseq nb 0).
  have [y2 hy2 h3] := bu_second (glue_trace tc tz) ho' tc.
  move: hy2; rewrite hy' => -[e]; rewrite -e (upper_glue tc tz) in h3.
  by have := uniform_const dim0 hb hg tau0 0 tc; rewrite h3 => -[].
exists y, y'; split => //.
rewrite !pairing_halves !(lower_glue _ tc) !(lower_glue _ tz) !(upper_glue tc tz) !(upper_glue tz tc) e0 e1.
have p0 z : pairing nF nb z (nseq nF (nseq nb 0)) = 0 :> F.
  by apply: big1 => f _; apply: big1 => j _; rewrite nth_nseq ltn_ord nth_nseq if_same mulr0.
rewrite !p0 addr0 (pairing_const dim p).
have -> : pairing nF nb z1 (upper nb y) = 0.
  by apply: big1 => f _; apply: big1 => j _; rewrite nth_nseq ltn_ord nth_mkseq //; case: eqP => _; rewrite mul0r.
rewrite addr0; case: f1 => t1 a1 b1.
rewrite (sum_flux l2 a1) cube_mass mul1mx.
have lw : loc_src H tau (fun=> 0) (cube_one F dim p) (hi (glue nF z1 c1)) (fun=> 0) 0.
  apply: src_ext (iffRL (loc_src0 _ _ _ _ _) (loc_const tau hok hcst)) => //.
  by move=> f; rewrite (upper_glue tz tc) tr_const scale1r.
have [_ ->] := src_unique hok tau0 (iffRL (loc_src0 _ _ _ _ _) l1) lw.
by rewrite mxE /=; apply/eqP; rewrite oner_eq0.
Qed.

(** ** Values in the bulk, size checks, failures *)
Lemma bu_solution_exists x : is_tr x -> exists X, bu_solve_local_problem gesv dim p ig tau x = Ok X /\
  exists r w, sol x (qpart nf X) (upart nf dim X) r w.
Proof.
move=> hx; have := @bu_solve F gesv dim p ig tau dim0 x hg.
rewrite (n_shape_fctE p dim0) n_shape_bdrE => /(_ hok tau0 hx) [X [h1 h2 h3 h4]].
by exists X; split => //; do 2 eexists; split; [exact: h3 | exact: h4].
Qed.
Lemma bu_bulk x eval absc : is_tr x -> exists q u r w, sol x q u r w /\
  bu_bulk_values gesv dim p ig tau eval absc x =
  Ok (rcons [seq mkseq (eval absc (coeffs_of (q d))) (size absc ^ dim) | d <- enum 'I_dim]
            (mkseq (eval absc (coeffs_of u)) (size absc ^ dim))).
Proof.
move=> hx; have [X [hX [r [w s]]]] := bu_solution_exists hx; do 4 eexists; split; first exact: s.
rewrite /bu_bulk_values hX /= hc_powE; congr Ok.
have hc d : mkseq (fun i => nth 0 X (d * bu_shape_fct dim p + i)) (bu_shape_fct dim p) =
    coeffs_of (\col_(i < nf) nth 0 X (d * nf + i)) by rewrite (bu_nf p dim0) (n_shape_fctE p dim0) coeffs_mkseq.
rewrite {1}/mkseq iotaD map_cat cats1; congr rcons; last by rewrite hc.
by rewrite -(val_enum_ord dim) -map_comp; apply: eq_map => d /=; rewrite hc.
Qed.
End Uniform.

Section Checks.
Variables (F : realFieldType) (gesv : nat -> nat -> seq F -> seq F -> sv_result F).
Variables (dim p : nat) (ig : integrator F) (tau : F).
Notation nb := ((p + 1) ^ (dim - 1))%N.
Lemma bu_okP (x : seq (seq F)) : bu_lambda_ok dim p x <-> is_trace (2 * dim) (2 * nb) x.
Proof. by rewrite bu_lambda_okP n_shape_bdrE. Qed.
Lemma bu_checked (x out : seq (seq F)) : ~ is_trace (2 * dim) (2 * nb) x \/ ~ is_trace (2 * dim) (2 * nb) out ->
  bu_trace_to_flux gesv dim p ig tau x out = Abort.
Proof.
move=> h; rewrite /bu_trace_to_flux; case: ifP => // /andP[/bu_okP h1 /bu_okP h2]; by case: h.
Qed.
Lemma bu_lapack (x out : seq (seq F)) : (forall n nc A b, ~~ sv_info (gesv n nc A b)) ->
  bu_trace_to_flux gesv dim p ig tau x out = Abort.
Proof.
move=> hf; rewrite /bu_trace_to_flux; case: ifP => // /andP[h1 h2].
by rewrite /bu_solve_local_problem /bu_rhs h1 /= /solve_const /solve_mut /= (negbTE (hf _ _ _ _)).
Qed.
End Checks.
