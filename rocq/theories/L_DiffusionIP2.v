(** The fluxes of DiffusionIP: failures, local solutions, linearity, post-processing. *)
From mathcomp Require Import all_ssreflect all_algebra zify ring.
From Verif Require Import M_Base L_Base M_Index L_Index M_DenseLA M_Lapack S_Lapack M_DiffusionUniform S_Hdg S_Tpp S_LocalSolver S_Diffusion S_TppGeo.
From Verif Require Import L_Hdg L_HdgSrc L_LocalBase L_LocalLink L_DiffusionUniform L_DiffusionUniform2 L_Diffusion L_Diffusion2 L_Diffusion3.
From Verif Require Import S_DiffusionEigs M_DiffusionIP S_DiffusionIP L_DiffusionIP.
Set Implicit Arguments. Unset Strict Implicit. Unset Printing Implicit Defensive.
Import Order.TTheory GRing.Theory Num.Theory.
Local Open Scope ring_scope.

Section IP.
Variable F : realFieldType.
Variables (gesv : nat -> nat -> seq F -> seq F -> sv_result F).
Variables (dim p : nat) (dirs : seq nat) (tau : F) (P : ip_data F).
Notation nf := ((p + 1) ^ dim)%N.
Notation nb := ((p + 1) ^ (dim - 1))%N.
Notation is_tr := (is_trace (2 * dim) nb).
Notation zt := (zero_trace F (2 * dim) nb).
Notation mask := (ip_mask dirs P).
Notation fof := (ip_flux_of dim p dirs tau P).
Implicit Types (x y out : seq (seq F)) (u r : 'cV[F]_nf).

(** ** Failures *)
Lemma ip_checked st x out t : ~ is_tr x \/ ~ is_tr out -> ip_flux gesv dim p dirs tau P st x out t = Abort.
Proof. by rewrite /ip_flux => -[/not_trace ->|/not_trace ->] //; rewrite andbF. Qed.
Lemma ip_checked_errors x absc t : ~ is_tr x ->
  ip_errors gesv dim p dirs tau P x t = Abort /\ ip_bulk_values gesv dim p dirs tau P absc x t = Abort.
Proof.
by move=> /not_trace h; rewrite /ip_errors /ip_bulk_values /ip_solve_local_problem /ip_rhs_lambda h.
Qed.
Lemma ip_failed st x out t : ip_solve_local_problem gesv dim p dirs tau P st x t = Abort ->
  ip_flux gesv dim p dirs tau P st x out t = Abort.
Proof. by rewrite /ip_flux => ->; case: (_ && _). Qed.
Lemma ip_all_abort st x t : (forall r : seq F, size r = n_shape_fct dim p -> ip_divide gesv dim p tau P t r = Abort) ->
  ip_solve_local_problem gesv dim p dirs tau P st x t = Abort.
Proof.
move=> hd; have sl := ip_size_rhs dim p tau P x.
rewrite /ip_solve_local_problem /ip_rhs_lambda; case: lambda_ok; last by case: eqP => //= _; case: eqP.
case: eqP => /= [_|_]; first exact: hd.
by case: eqP => //= _; apply: hd; rewrite /mat_add eqxx L_DenseLA.size_add_eq.
Qed.
Lemma ip_lapack st x out t : (forall n nc A b, ~~ sv_info (gesv n nc A b)) -> ip_flux gesv dim p dirs tau P st x out t = Abort.
Proof.
move=> hf; apply: ip_failed; apply: ip_all_abort => r _.
by rewrite /ip_divide /solve_const /solve_mut /= (negbTE (hf _ _ _ _)).
Qed.
Lemma ip_other st x out t : (1 < st)%N -> ip_flux gesv dim p dirs tau P st x out t = Abort.
Proof. by move=> h; apply: ip_failed; rewrite /ip_solve_local_problem; case: st h => [|[]]. Qed.

Hypothesis dim0 : (0 < dim)%N.
Section Time.
Variable t : F.
Notation loc u := (ip_loc dim p tau P t u).
Definition ipKp : 'M[F]_nf := \matrix_(i, j) (ip_stiff P t i j + \sum_(f < 2 * dim) (tau * ip_bb P i j f - ip_nbb P 0 j i f)).
Lemma ipKp_mul u : ipKp *m u = ip_S dim p P t *m u - \sum_f ip_N dim p P f *m u + tau *: (\sum_f ip_B dim p P f *m u).
Proof.
rewrite -!mulmx_suml scalemxAl -mulmxBl -mulmxDl; congr (_ *m _); apply/matrixP => i j.
rewrite !mxE !summxE mulr_sumr sumrB [\sum_f _ - _]addrC addrA; congr (_ - _ + _).
  by apply: eq_bigr => f _; rewrite mxE.
by apply: eq_bigr => f _; rewrite mxE.
Qed.
Lemma ip_locE u (x : 'I_(2 * dim) -> 'cV[F]_nb) r : loc u x r <-> ipKp *m u = tau *: (\sum_f ip_E dim p P f *m x f) + r.
Proof. by rewrite ipKp_mul. Qed.
Lemma ip_kernel : ip_regular dim p tau P t <-> forall u, ipKp *m u = 0 -> u = 0.
Proof.
split=> h u hu; apply: h; first apply/ip_locE; move: hu; rewrite ?ip_locE big1 ?scaler0 ?addr0 // => f _; exact: mulmx0.
Qed.
Lemma ip_singular st x out : gesv_detects gesv -> ~ ip_regular dim p tau P t ->
  ip_flux gesv dim p dirs tau P st x out t = Abort.
Proof.
move=> hd hr; apply: ip_failed; apply: ip_all_abort => rhs sr.
have hk : ~ forall u, ipKp *m u = 0 -> u = 0 by move/ip_kernel.
have := @ip_divide_sing F gesv dim p tau P t rhs hd.
by rewrite /ipK; move: sr; rewrite (n_shape_fctE p dim0) => sr h; apply: h.
Qed.

Hypotheses (hg : gesv_correct gesv) (hreg : ip_regular dim p tau P t).
Lemma iplam_ok x : is_tr x -> lambda_ok dim p x.
Proof. by move=> hx; apply/lambda_okP; rewrite n_shape_bdrE. Qed.
Lemma ipzt_tr : is_tr zt.
Proof. by split; [exact: size_nseq | apply/allP => l /nseqP[-> _]; rewrite size_nseq]. Qed.
Definition icol (X : seq F) : 'cV[F]_nf := \col_i nth 0 X i.
Lemma ip_div rhs : size rhs = nf -> exists X, [/\ ip_divide gesv dim p tau P t rhs = Ok X, size X = nf & ipKp *m icol X = icol rhs].
Proof.
move=> sr; have := @ip_divide_ok F gesv dim p tau P t rhs hg.
by rewrite /ipK /ipcol (n_shape_fctE p dim0); apply => //; exact/ip_kernel.
Qed.
Lemma ip_rhsP x : icol (ip_rhs_lambda_loop dim p tau P x) = tau *: (\sum_f ip_E dim p P f *m tr nb x f).
Proof.
have := @ip_rhs_col F dim p tau P x; rewrite /ipcol /ip_lam (n_shape_fctE p dim0) n_shape_bdrE => h.
transitivity (\col_(i < nf) (tau * (\sum_(f < 2 * dim) \sum_(j < nb) ip_bp P i j f * nth 0 (nth [::] x f) j))).
  exact: h.
apply/colP => i; rewrite !mxE summxE; congr (_ * _); apply: eq_bigr => f _; rewrite mxE; apply: eq_bigr => j _.
by rewrite !mxE.
Qed.
Lemma ip_globP : icol (ip_rhs_global dim p dirs tau P t) = ip_rhs dim p dirs tau P t.
Proof.
have := @ip_glob_col F dim p dirs tau P t; rewrite /ipcol /ip_glob (n_shape_fctE p dim0); exact.
Qed.
Lemma ip_addP (r s : seq F) : size r = nf -> icol (mat_add (n_shape_fct dim p) 1 1 r s) = icol r + icol s.
Proof.
by have := @ip_col_add F dim p r s; rewrite /ipcol (n_shape_fctE p dim0).
Qed.
Lemma ip_srhs x : size (ip_rhs_lambda_loop dim p tau P x) = nf.
Proof. by rewrite ip_size_rhs (n_shape_fctE p dim0). Qed.
Lemma ip_sol0 x : is_tr x -> exists X, [/\ ip_solve_local_problem gesv dim p dirs tau P 0 x t = Ok X,
  size X = nf & loc (icol X) (tr nb x) 0].
Proof.
move=> hx; rewrite /ip_solve_local_problem /ip_rhs_lambda iplam_ok //=.
have [X [h1 h2 h3]] := ip_div (ip_srhs x); exists X; split=> //.
by apply/ip_locE; rewrite addr0 h3 ip_rhsP.
Qed.
Lemma ip_sol1 x : is_tr x -> exists X, [/\ ip_solve_local_problem gesv dim p dirs tau P 1 x t = Ok X,
  size X = nf & loc (icol X) (tr nb x) (ip_rhs dim p dirs tau P t)].
Proof.
move=> hx; rewrite /ip_solve_local_problem /ip_rhs_lambda iplam_ok //=.
have sa : size (mat_add (n_shape_fct dim p) 1 1 (ip_rhs_lambda_loop dim p tau P x) (ip_rhs_global dim p dirs tau P t)) = nf.
  by rewrite /mat_add eqxx L_DenseLA.size_add_eq ip_srhs.
have [X [h1 h2 h3]] := ip_div sa; exists X; split=> //.
by apply/ip_locE; rewrite h3 ip_addP ?ip_srhs // ip_rhsP ip_globP.
Qed.
Lemma ip_outE x out X : is_tr out ->
  fof x (icol X) (ip_write dirs P (fun i j => mget (2 * dim) (ip_dual dim p P X) i j + tau * mget (2 * dim) (ip_primal dim p P X) i j
       - tau * lambda_at x i j * ip_area P i) out).
Proof.
move=> ho; have ho' : is_trace (2 * dim) (n_shape_bdr dim p) out by rewrite n_shape_bdrE.
rewrite (ip_writeE dirs P _ ho') n_shape_bdrE; split; first by split; [exact: size_mkseq | apply/allP => l /mapP[f _ ->]; rewrite size_mkseq].
move=> f; apply/colP => j; rewrite mxE (nth_mkseq [::]) ?ltn_ord // nth_mkseq //.
rewrite -[ip_face_dirichlet dirs P f]/(mask f); case: ifP => _; first by rewrite mxE.
have hj : (j < n_shape_bdr dim p)%N by rewrite n_shape_bdrE.
rewrite (ip_dual_tr P X f (Ordinal hj)) (ip_primal_tr P X f (Ordinal hj)) (n_shape_fctE p dim0) /lambda_at /=.
rewrite /ip_num_flux !mxE mulrBr addrA; congr (- _ + _ * _ - _).
- by apply: eq_bigr => i _; rewrite !mxE.
- by apply: eq_bigr => i _; rewrite !mxE.
by rewrite -!mulrA; congr (_ * _); exact: mulrC.
Qed.
Lemma ip_fluxP x out : is_tr x -> is_tr out -> exists y u,
  [/\ ip_trace_to_flux gesv dim p dirs tau P x out t = Ok y, loc u (tr nb x) 0 & fof x u y].
Proof.
move=> hx ho; have [X [hX _ h1]] := ip_sol0 hx.
rewrite /ip_trace_to_flux /ip_flux !iplam_ok // hX /=.
by eexists; exists (icol X); split=> //; exact: ip_outE.
Qed.
Lemma ip_residualP x out : is_tr x -> is_tr out -> exists y u,
  [/\ ip_residual_flux gesv dim p dirs tau P x out t = Ok y, loc u (tr nb x) (ip_rhs dim p dirs tau P t) & fof x u y].
Proof.
move=> hx ho; have [X [hX _ h1]] := ip_sol1 hx.
rewrite /ip_residual_flux /ip_flux !iplam_ok // hX /=.
by eexists; exists (icol X); split=> //; exact: ip_outE.
Qed.
Lemma ip_unique u u' (x : 'I_(2 * dim) -> 'cV[F]_nb) r : loc u x r -> loc u' x r -> u = u'.
Proof.
move=> /ip_locE h1 /ip_locE h2; apply/eqP; rewrite -subr_eq0; apply/eqP.
by apply: (iffLR ip_kernel hreg); rewrite mulmxBr h1 h2 subrr.
Qed.
Lemma iploc_lin c u (x x' : 'I_(2 * dim) -> 'cV[F]_nb) r u' r' : loc u x r -> loc u' x' r' -> loc (c *: u + u') (fun f => c *: x f + x' f) (c *: r + r').
Proof.
move=> /ip_locE h1 /ip_locE h2; apply/ip_locE; rewrite mulmxDr -scalemxAr h1 h2.
rewrite [in RHS](eq_bigr (fun f => c *: (ip_E dim p P f *m x f) + ip_E dim p P f *m x' f)) => [|f _]; last by rewrite mulmxDr scalemxAr.
rewrite big_split -scaler_sumr /= !scalerDr !scalerA [c * tau]mulrC -!addrA; congr (_ + _).
by rewrite addrCA.
Qed.
Lemma iploc_ext u (x x' : 'I_(2 * dim) -> 'cV[F]_nb) r r' : (forall f, x f = x' f) -> r = r' -> loc u x r -> loc u x' r'.
Proof.
move=> hx <- /ip_locE h; apply/ip_locE; rewrite h; congr (_ *: _ + _); apply: eq_bigr => f _; by rewrite hx.
Qed.
Lemma ipfof_lin c x u y x' u' y' : fof x u y -> fof x' u' y' ->
  fof (comb_trace c (2 * dim) nb x x') (c *: u + u') (comb_trace c (2 * dim) nb y y').
Proof.
move=> [sy f1] [sy' f2]; split=> [|f]; first exact: comb_is_trace.
rewrite tr_comb f1 f2; case: ifP => _; first by rewrite scaler0 addr0.
rewrite /ip_num_flux tr_comb; apply/colP => j.
rewrite !mulmxDr -!scalemxAr [LHS]mxE [RHS]mxE; do !rewrite !mxE.
move: (\sum_(_ < _) _) (\sum_(_ < _) _) => G1 E1; move: (\sum_(_ < _) _) (\sum_(_ < _) _) => G2 E2.
move: (nth 0 _ _) (nth 0 _ _) => v1 v2; ring.
Qed.
Lemma ipfof_ext x u y u' y' : u = u' -> fof x u y -> fof x u' y' -> y = y'.
Proof. by move=> <- [sy f1] [sy' f2]; apply: trace_ext sy sy' _ => f; rewrite f1 f2. Qed.
Lemma ip_linear c x x' out out' out'' : is_tr x -> is_tr x' -> is_tr out -> is_tr out' -> is_tr out'' ->
  exists y y', [/\ ip_trace_to_flux gesv dim p dirs tau P x out t = Ok y, ip_trace_to_flux gesv dim p dirs tau P x' out' t = Ok y' &
    ip_trace_to_flux gesv dim p dirs tau P (comb_trace c (2 * dim) nb x x') out'' t = Ok (comb_trace c (2 * dim) nb y y')].
Proof.
move=> hx hx' ho ho' ho''.
have [y [u [hy h1 f1]]] := ip_fluxP hx ho; have [y' [u' [hy' h2 f2]]] := ip_fluxP hx' ho'.
have [z [uz [hz hz' fz]]] := ip_fluxP (comb_is_trace _ _ c x x') ho''.
exists y, y'; split => //; rewrite hz; congr Ok; apply: (ipfof_ext _ fz (ipfof_lin c f1 f2)).
apply: (ip_unique hz'); apply: iploc_ext (iploc_lin c h1 h2) => [f|]; first by rewrite tr_comb.
by rewrite scaler0 addr0.
Qed.
Lemma ip_affine_res x out out' out'' : is_tr x -> is_tr out -> is_tr out' -> is_tr out'' ->
  exists y y0, [/\ ip_trace_to_flux gesv dim p dirs tau P x out t = Ok y, ip_residual_flux gesv dim p dirs tau P zt out' t = Ok y0 &
    ip_residual_flux gesv dim p dirs tau P x out'' t = Ok (comb_trace 1 (2 * dim) nb y y0)].
Proof.
move=> hx ho ho' ho''.
have [y [u [hy h1 f1]]] := ip_fluxP hx ho; have [y0 [u0 [hy0 h2 f2]]] := ip_residualP ipzt_tr ho'.
have [z [uz [hz hz' fz]]] := ip_residualP hx ho''.
exists y, y0; split => //; rewrite hz; congr Ok.
have ex : comb_trace 1 (2 * dim) nb x zt = x.
  by apply: trace_ext (comb_is_trace _ _ _ _ _) hx _ => f; rewrite tr_comb tr_zerob addr0 scale1r.
have := ipfof_lin 1 f1 f2; rewrite ex; apply: (ipfof_ext _ fz); apply: (ip_unique hz').
by apply: iploc_ext (iploc_lin 1 h1 h2) => [f|]; rewrite ?tr_zerob ?scaler0 ?scale1r ?addr0 ?add0r.
Qed.
Lemma icol_coeffs X : size X = nf -> coeffs_of (icol X) = X.
Proof.
move=> sX; rewrite -coeffs_mkseq; apply: (@eq_from_nth _ 0); rewrite size_mkseq ?sX // => i hi.
by rewrite nth_mkseq.
Qed.
Lemma ip_errorsP x : is_tr x -> exists u, loc u (tr nb x) (ip_rhs dim p dirs tau P t) /\
  ip_errors gesv dim p dirs tau P x t = Ok [:: ip_diffsq P t (coeffs_of u)].
Proof.
move=> hx; have [X [h1 h2 h3]] := ip_sol1 hx; exists (icol X); split => //.
by rewrite /ip_errors iplam_ok // h1 /= icol_coeffs.
Qed.
Lemma ip_bulkP x absc : is_tr x -> exists u, loc u (tr nb x) (ip_rhs dim p dirs tau P t) /\
  ip_bulk_values gesv dim p dirs tau P absc x t = Ok [:: mkseq (ip_eval P absc (coeffs_of u)) (size absc ^ dim)].
Proof.
move=> hx; have [X [h1 h2 h3]] := ip_sol1 hx; exists (icol X); split => //.
rewrite /ip_bulk_values h1 /= hc_powE; congr (Ok [:: mkseq (ip_eval P absc _) _]).
by rewrite coeffs_mkseq (n_shape_fctE p dim0); congr coeffs_of; apply/colP => i; rewrite !mxE mul0n.
Qed.
End Time.
Lemma ip_typesP : ip_node_types dim dirs P = mkseq (fun f => (mask f : nat)) (2 * dim).
Proof. exact: ip_node_typesE. Qed.
End IP.
