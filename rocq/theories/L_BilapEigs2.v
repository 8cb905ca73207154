(** BilaplacianEigs: fluxes, Jacobian and its derivative in the terms of the specification. *)
From mathcomp Require Import all_ssreflect all_algebra zify ring.
From Verif Require Import M_Base L_Base M_Index L_Index M_Lapack S_Lapack M_DiffusionUniform M_Diffusion S_Hdg S_Tpp S_LocalSolver S_Diffusion S_TppGeo.
From Verif Require Import L_Hdg L_HdgSrc L_LocalBase L_LocalLink L_DiffusionUniform L_DiffusionUniform2 L_Diffusion L_TppGeo L_Diffusion2 L_Diffusion3.
From Verif Require Import M_Bilaplacian S_Bilaplacian L_Bilaplacian L_Bilaplacian2 L_Bilaplacian3 L_Bilaplacian4 L_Bilaplacian5 L_Bilaplacian6.
From Verif Require Import M_DiffusionEigs S_DiffusionEigs L_DiffusionEigs2 S_BiReact L_BilapReact L_BiReg L_BiFlux M_BilapEigs S_BilapEigs L_BilapEigs L_BiNear.
Set Implicit Arguments. Unset Strict Implicit. Unset Printing Implicit Defensive.
Import Order.TTheory GRing.Theory Num.Theory.
Local Open Scope ring_scope.

Section Failures.
Variables (F : realFieldType) (gesv : nat -> nat -> seq F -> seq F -> sv_result F).
Variables (dim p : nat) (dirs laps : seq nat) (tau : F) (P : be_data F).
Notation nb := ((p + 1) ^ (dim - 1))%N.
Implicit Types (x out : seq (seq F)).
Notation ttf := (be_trace_to_flux gesv dim p dirs laps tau P).
Notation jac := (be_jacobian gesv dim p dirs laps tau P).
Lemma be_checked eig mu v x out : ~ is_trace (2 * dim) (2 * nb) x \/ ~ is_trace (2 * dim) (2 * nb) out ->
  ttf x out eig = Abort /\ jac x out eig v mu = Abort.
Proof.
by rewrite /be_trace_to_flux /be_jacobian => -[/bl_not_trace ->|/bl_not_trace ->] //; rewrite andbF.
Qed.
Lemma be_lapack eig mu v x out : (forall n nc A b, ~~ sv_info (gesv n nc A b)) ->
  ttf x out eig = Abort /\ jac x out eig v mu = Abort.
Proof.
move=> hf; have hd D e r : be_divide gesv dim p tau D e r = Throw.
  by rewrite /be_divide /solve_const /solve_mut /= (negbTE (hf _ _ _ _)).
have hs e z : be_solve_local_problem gesv dim p tau P z e = Abort.
  by rewrite /be_solve_local_problem /bl_rhs_lambda; case: bl_lambda_ok; rewrite //= hd.
by rewrite /be_trace_to_flux /be_jacobian !hs /=; case: (_ && _).
Qed.
End Failures.

Section Eigs.
Variables (F : realFieldType) (gesv : nat -> nat -> seq F -> seq F -> sv_result F).
Variables (dim p : nat) (dirs laps : seq nat) (tau : F) (P : be_data F).
Hypotheses (dim0 : (0 < dim)%N) (hP : bi_eigs_data dim p P) (hg : gesv_correct gesv).
Notation at_ := (be_at P).
Notation nf := ((p + 1) ^ dim)%N.
Notation nb := ((p + 1) ^ (dim - 1))%N.
Notation nF := (2 * dim)%N.
Notation is_tr := (is_trace nF (2 * nb)).
Notation lo x := (tr nb (lower nb x)).
Notation hi x := (tr nb (upper nb x)).
Notation reg := (be_regular dim p tau P).
Notation loc := (bi_eig_loc dim p tau P).
Notation bflux := (be_flux dim p dirs laps tau P).
Notation ttf := (be_trace_to_flux gesv dim p dirs laps tau P).
Notation jac := (be_jacobian gesv dim p dirs laps tau P).
Notation solve x eig := (be_solve_local_problem gesv dim p tau P x eig).
Notation mask := (face_dirichlet dirs (bl_df (be_bl P))).
Notation mask2 := (face_dirichlet laps (bl_df (be_bl P))).
Notation second X := (drop ((dim + 1) * nf) X).
Notation H eig := (bl_hdg dim p (at_ eig)).
Implicit Types (x out : seq (seq F)) (u w : 'cV[F]_nf).

Lemma be_data_at eig : diffusion_data dim p (bl_df (at_ eig)).
Proof.
case: hP => b [Q [xs [ws [kappa [g [h1 h2 h3 h4 [h5 _]]]]]]].
by exists b, Q, xs, ws, (kappa eig), g; split=> //; [exact: h3 | exact: h5].
Qed.
Lemma be_mass eig : df_mass_mx dim p (bl_df (at_ eig)) = (be_area P)%:M.
Proof. exact: (edata_mass hP eig). Qed.
Lemma be_area_gt0 : 0 < be_area P. Proof. exact: edata_area hP. Qed.
Lemma be_r1 eig : reg eig -> L_BilapReact.reg dim p tau 1 (- eig) (at_ eig).
Proof. by move=> h; apply: regP => //; rewrite invr1 mul1r opprK. Qed.
Lemma be_neg eig : 0 < tau -> eig <= 0 -> reg eig.
Proof. by move=> t0; apply: regular_neg => //; exact: be_data_at. Qed.
Lemma be_solve eig x : reg eig -> is_tr x -> exists2 X, solve x eig = Ok X &
  size X = ((dim + 1 + (dim + 1)) * nf)%N /\
  loc eig (qpart nf X) (upart nf dim X) (qpart nf (second X)) (upart nf dim (second X)) (lo x) (hi x) 0.
Proof.
move=> hr hx; have := @be_solve_ok F gesv dim p tau eig (at_ eig) dim0 hg (be_r1 hr) x.
rewrite (n_shape_fctE p dim0) n_shape_bdrE => /(_ hx)[rhs [X [h1 h2 h3 h4 h5]]].
by exists X; rewrite // /be_solve_local_problem h1 /= h2.
Qed.
Lemma be_divide_at eig rhs rw : reg eig -> size rhs = ((dim + 1 + (dim + 1)) * nf)%N ->
  (forall d : 'I_dim, qpart nf rhs d = 0 :> 'cV[F]_nf) -> upart nf dim rhs = 0 :> 'cV[F]_nf ->
  (forall d : 'I_dim, qpart nf (second rhs) d = 0 :> 'cV[F]_nf) -> upart nf dim (second rhs) = rw :> 'cV[F]_nf ->
  exists2 X, be_divide gesv dim p tau (bl_df (at_ eig)) eig rhs = Ok X &
  size X = ((dim + 1 + (dim + 1)) * nf)%N /\
  loc eig (qpart nf X) (upart nf dim X) (qpart nf (second X)) (upart nf dim (second X)) (fun=> 0) (fun=> 0) rw.
Proof.
move=> hr; have := @be_divide_ok F gesv dim p tau eig (at_ eig) dim0 hg (be_r1 hr) rhs (fun=> 0) (fun=> 0).
rewrite (n_shape_fctE p dim0) n_shape_bdrE => h sr h1 h2 h3 h4.
have z (T : 'I_nF -> 'M[F]_(nf, nb)) : \sum_f (T f *m (0 : 'cV[F]_nb)) = 0 by rewrite big1 // => f _; rewrite mulmx0.
have z2 (T : 'I_nF -> 'M[F]_(nf, nb)) (n : 'I_nF -> F) : \sum_f (n f *: (T f *m (0 : 'cV[F]_nb))) = 0.
  by rewrite big1 // => f _; rewrite mulmx0 scaler0.
have [d||d||X [h5 h6 h7 h8]] := h rw sr.
- by rewrite h1 z2 oppr0.
- by rewrite h2 z scaler0.
- by rewrite h3 z2 oppr0.
- by rewrite h4 z scaler0 add0r.
by exists X.
Qed.
Lemma be_exist eig rw : reg eig -> exists q u r w, loc eig q u r w (fun=> 0) (fun=> 0) rw.
Proof.
move=> hr.
pose rhs := mkseq (fun k => if insub (k - ((dim + 1) * nf + dim * nf))%N is Some i then
  if (k < (dim + 1) * nf + dim * nf)%N then 0 else rw i 0 else 0) ((dim + 1 + (dim + 1)) * nf).
have lt (k : nat) (i : 'I_nf) : (k <= dim)%N -> (k * nf + i < (dim + 1) * nf)%N.
  by move=> hk; apply: block_lt => //; lia.
have hz k : (k < (dim + 1) * nf + dim * nf)%N -> nth 0 rhs k = 0.
  by move=> hk; rewrite nth_mkseq; [case: insubP => // i _ _; rewrite hk | lia].
have [||||X h1 [h2 h3]] := @be_divide_at eig rhs rw hr (size_mkseq _ _).
- by move=> d; apply/colP => i; rewrite !mxE hz //; have := lt d i (ltnW (ltn_ord d)); lia.
- by apply/colP => i; rewrite !mxE hz //; have := lt dim i (leqnn _); lia.
- by move=> d; apply/colP => i; rewrite !mxE nth_drop hz // ltn_add2l; exact: block_lt.
- apply/colP => i; rewrite !mxE nth_drop addnA nth_mkseq; last first.
    by have := ltn_ord i; rewrite !mulnDl mul1n; lia.
  rewrite addKn ltnNge leq_addr /= (_ : insub _ = Some i) //; exact: valK.
by do 4 eexists; exact: h3.
Qed.
Lemma be_flux_ eig x out : reg eig -> is_tr x -> is_tr out ->
  exists2 y, ttf x out eig = Ok y & exists q u r w, loc eig q u r w (lo x) (hi x) 0 /\
    bflux eig q u r w (lo x) (hi x) y.
Proof.
move=> hr hx ho; have [X hX [sX lX]] := be_solve hr hx.
rewrite /be_trace_to_flux !(iffRL (is_trP _ _ _)) // hX /=; eexists => //.
eexists; eexists; eexists; eexists; split; first exact: lX.
apply: (@bilap_write F dim p dirs laps tau (at_ eig) dim0 X _ _ _ _ ho) => f j.
  rewrite [bl_shape_bdr _ _]n_shape_bdrE ltn_ord addnC tr_upperE //.
rewrite [bl_shape_bdr _ _]n_shape_bdrE ltnNge leq_addr /= addKn tr_lowerE //.
Qed.
Lemma be_unique eig q u r w q' u' r' w' (x y : 'I_nF -> 'cV[F]_nb) rw : reg eig -> loc eig q u r w x y rw -> loc eig q' u' r' w' x y rw ->
  [/\ forall d, q d = q' d, u = u', forall d, r d = r' d & w = w'].
Proof. exact: react_unique. Qed.
Lemma be_irregular_ eig x out : gesv_detects gesv -> ~ reg eig -> is_tr x -> is_tr out -> ttf x out eig = Abort.
Proof.
move=> hd hr hx ho; have hn : ~ L_BilapReact.reg dim p tau 1 (- eig) (at_ eig).
  by apply: regN => //; rewrite invr1 mul1r opprK.
rewrite /be_trace_to_flux !(iffRL (is_trP _ _ _)) //= /be_solve_local_problem.
have := @be_irregular F gesv dim p tau eig (at_ eig) dim0 x hd hn.
rewrite n_shape_bdrE => /(_ hx)[rhs h1 h2].
by rewrite h1 /= h2.
Qed.
Lemma be_jac mu e x out vals : reg mu -> is_tr x -> is_tr out -> is_tr vals ->
  exists y q0 u0 r0 w0 q1 u1 r1 w1 q2 u2 r2 w2,
  [/\ jac x out e vals mu = Ok y, loc mu q0 u0 r0 w0 (lo vals) (hi vals) 0, loc mu q1 u1 r1 w1 (lo x) (hi x) 0,
      loc mu q2 u2 r2 w2 (fun=> 0) (fun=> 0) ((e * be_area P) *: u0) &
  [/\ is_tr y, forall f : 'I_nF, tr nb (lower nb y) f =
       if mask f then 0 else num_flux (H mu) tau r1 w1 (hi x) f + num_flux (H mu) tau r2 w2 (fun=> 0) f
   & forall f : 'I_nF, tr nb (upper nb y) f =
       if mask2 f then 0 else num_flux (H mu) tau q1 u1 (lo x) f + num_flux (H mu) tau q2 u2 (fun=> 0) f]].
Proof.
move=> hr hx ho hv; have [X1 h1 [s1 l1]] := be_solve hr hx.
have [X0 h0 [s0 l0]] := be_solve hr hv.
rewrite /be_jacobian !(iffRL (is_trP _ _ _)) // h1 /= h0 /=.
have := @be_third F dim p dim0 X0 e (be_area P); rewrite (n_shape_fctE p dim0) => /(_ s0); cbv zeta.
rewrite (bl_nl p dim0) (bl_nf p dim0) (n_shape_fctE p dim0).
move: (for_ _ _ (for_ _ _ X0)) => rhs [sr a1 a2 a3 a4].
have [X2 h2 [s2 l2]] := be_divide_at hr sr a1 a2 a3 a4.
rewrite h2 /= be_addE.
set out1 := bl_write _ _ _ _ out.
have [t1 b1 b2] : bi_flux dim p dirs laps tau (at_ mu) (qpart nf X1) (upart nf dim X1)
      (qpart nf (second X1)) (upart nf dim (second X1)) (lo x) (hi x) out1.
  apply: (@bilap_write F dim p dirs laps tau (at_ mu) dim0 X1 _ _ _ _ ho) => f j.
    rewrite [bl_shape_bdr _ _]n_shape_bdrE ltn_ord addnC tr_upperE //.
  rewrite [bl_shape_bdr _ _]n_shape_bdrE ltnNge leq_addr /= addKn tr_lowerE //.
eexists; do 4 eexists; exists (qpart nf X1), (upart nf dim X1), (qpart nf (second X1)), (upart nf dim (second X1)).
exists (qpart nf X2), (upart nf dim X2), (qpart nf (second X2)), (upart nf dim (second X2)).
split; [by [] | exact: l0 | exact: l1 | exact: l2 |].
have := @bl_write_tr F dim p dirs laps (at_ mu) dim0.
have e1 := @bl_dual_lo F dim p (at_ mu) dim0 X2; have e2 := @bl_dual_hi F dim p (at_ mu) dim0 X2.
have e3 := @bl_primal_lo F dim p (at_ mu) dim0 X2; have e4 := @bl_primal_hi F dim p (at_ mu) dim0 X2.
move: e1 e2 e3 e4; rewrite (n_shape_fctE p dim0) n_shape_bdrE /= => e1 e2 e3 e4 h.
have [|f j|f j|c1 c2 c3] := h (fun i j => lambda_at out1 i j + be_bdr_flux dim p tau (bl_df (at_ mu)) X2 i j) (fun f => lo out1 f + num_flux (H mu) tau (qpart nf (second X2)) (upart nf dim (second X2)) (fun=> 0) f)
   (fun f => hi out1 f + num_flux (H mu) tau (qpart nf X2) (upart nf dim X2) (fun=> 0) f) out1.
- exact: t1.
- by rewrite /be_bdr_flux e1 e3 /num_flux scaler0 subr0 [RHS]mxE tr_lowerE; congr (_ + _); rewrite !mxE.
- by rewrite /be_bdr_flux e2 e4 /num_flux scaler0 subr0 [RHS]mxE tr_upperE; congr (_ + _); rewrite !mxE.
split; first exact: c1.
  by move=> f; rewrite c2 b1 /face_dirichlet /=; case: (is_dirichlet dirs _).
by move=> f; rewrite c3 b2 /face_dirichlet /=; case: (is_dirichlet laps _).
Qed.
Lemma be_free eig : be_time_free P -> bl_coef dim p (at_ eig) = bl_coef dim p (at_ 0).
Proof. by move=> ht; apply/matrixP => i j; rewrite !mxE /= ht. Qed.
(** Without time dependence the problem at one eigenvalue is that at another one. *)
Lemma be_move eig mu c q u r w (x y : 'I_nF -> 'cV[F]_nb) rw : be_time_free P ->
  bi_react dim p tau (at_ eig) c q u r w x y (fun=> 0) 0 (fun=> 0) rw <->
  bi_react dim p tau (at_ mu) c q u r w x y (fun=> 0) 0 (fun=> 0) rw.
Proof. by move=> ht; rewrite /bi_react /bi_loc (be_free eig ht) -(be_free mu ht). Qed.
Lemma be_reg_move eig mu : be_time_free P -> reg eig <-> bi_regular dim p tau (at_ mu) eig.
Proof.
move=> ht; split=> h q u r w /(be_move mu eig eig _ _ _ _ _ _ _ ht) l; first exact: h.
by apply: h; apply/(be_move mu eig eig _ _ _ _ _ _ _ ht); apply/(be_move eig mu eig _ _ _ _ _ _ _ ht).
Qed.
Lemma be_few (s : seq F) : be_time_free P -> 0 < tau -> uniq s -> (forall e, e \in s -> ~ reg e) -> (size s <= nf)%N.
Proof.
move=> ht t0 us hs; have r0 := be_neg t0 (lexx 0).
apply: (@bi_irregular_few F dim p tau (at_ 0) (be_area P) (lt0r_neq0 be_area_gt0) (be_mass 0) 0 _ r0 s us) => [rw|e he hr].
  exact: be_exist r0.
by apply: (hs e he); apply/(be_reg_move e 0 ht).
Qed.
Lemma be_derivative mu e x eta out out' : be_time_free P -> reg mu -> is_tr x -> is_tr eta ->
  is_tr out -> is_tr out' -> exists K delta y0 j,
  [/\ 0 < delta, ttf x out mu = Ok y0, jac eta out' e x mu = Ok j & forall t, `|t| <= delta ->
   reg (mu + t * e) /\ exists yt, ttf (comb_trace t nF (2 * nb) eta x) out (mu + t * e) = Ok yt /\
    forall (f : 'I_nF) (k : 'I_(2 * nb)), `|tr (2 * nb) yt f k 0 - tr (2 * nb) y0 f k 0 - t * tr (2 * nb) j f k 0| <= K * t ^+ 2].
Proof.
move=> ht hr hx he ho ho'.
have [y0 f1 [q [u [r [w [f2 [f3 f4 f5]]]]]]] := be_flux_ hr hx ho.
have [j [q0 [u0 [r0 [w0 [q1 [u1 [r1' [w1 [q2 [u2 [r2 [w2 [j1 j2 j3 j4 [j5 j6 j7]]]]]]]]]]]]]]] := be_jac e hr he ho' hx.
have hex rw : exists q u r w, bi_react dim p tau (at_ mu) mu q u r w (fun=> 0) (fun=> 0) (fun=> 0) 0 (fun=> 0) rw.
  exact: be_exist hr.
have [K [delta [d0 n1 n2]]] := react_near (be_mass mu) hex hr j2 j3 j4.
have rt t : `|t| <= delta -> reg (mu + t * e).
  by move=> h; apply/(be_reg_move _ mu ht); exact: n1.
exists (Num.max K 0), delta, y0, j; split=> // t htd; split; first exact: rt.
have [yt t1 [qt [ut [r' [wt [t2 [t3 t4 t5]]]]]]] := be_flux_ (rt t htd) (comb_is_trace _ _ t eta x) ho.
have [eq eu er ew] := be_unique hr f2 j2.
have l3 : bi_react dim p tau (at_ mu) (mu + t * e) qt ut r' wt (fun f => t *: lo eta f + lo x f) (fun f => t *: hi eta f + hi x f)
   (fun=> 0) 0 (fun=> 0) 0.
  move/(be_move _ mu _ _ _ _ _ _ _ _ ht): t2; apply: react_ext => // g; [exact: tr_lower_comb | exact: tr_upper_comb].
have H2 := n2 t qt ut r' wt htd l3.
exists yt; split=> // f k.
have kz : 0 <= Num.max K 0 * t ^+ 2 by rewrite mulr_ge0 ?sqr_ge0 // le_maxr lexx orbT.
have km (z : F) : z <= K * t ^+ 2 -> z <= Num.max K 0 * t ^+ 2.
  by move=> hz; apply: (le_trans hz); rewrite ler_wpmul2r ?sqr_ge0 // le_maxr lexx.
have rd (y : seq (seq F)) (k' : 'I_nb) : (k' = k :> nat) -> tr (2 * nb) y f k 0 = lo y f k' 0.
  by move=> ek; rewrite tr_lowerE !mxE /lambda_at ek.
have ru (y : seq (seq F)) (k' : 'I_nb) : (k = (nb + k')%N :> nat) -> tr (2 * nb) y f k 0 = hi y f k' 0.
  by move=> ek; rewrite tr_upperE !mxE /lambda_at ek.
case: (ltnP k nb) => hk.
  have ek : Ordinal hk = k :> nat by [].
  rewrite !(rd _ _ ek) t4 f4 j6 /face_dirichlet /=; case: (is_dirichlet dirs _).
    by rewrite !mxE mulr0 !subrr normr0.
  have -> : num_flux (H mu) tau r w (hi x) f = num_flux (H mu) tau r0 w0 (hi x) f by apply: flux_ext.
  apply: km; have := (H2 f (Ordinal hk)).2.
  have -> : num_flux (H mu) tau r' wt (fun f => t *: hi eta f + hi x f) f =
     num_flux (H (mu + t * e)) tau r' wt (hi (comb_trace t nF (2 * nb) eta x)) f.
    by apply: flux_ext => //; rewrite tr_upper_comb.
  by rewrite [(num_flux (H mu) tau r1' w1 _ f + _) _ 0]mxE.
have hk2 : (k - nb < nb)%N by have := ltn_ord k; lia.
have ek : k = (nb + Ordinal hk2)%N :> nat by rewrite /= subnKC.
rewrite !(ru _ _ ek) t5 f5 j7 /face_dirichlet /=; case: (is_dirichlet laps _).
  by rewrite !mxE mulr0 !subrr normr0.
have -> : num_flux (H mu) tau q u (lo x) f = num_flux (H mu) tau q0 u0 (lo x) f by apply: flux_ext.
apply: km; have := (H2 f (Ordinal hk2)).1.
have -> : num_flux (H mu) tau qt ut (fun f => t *: lo eta f + lo x f) f =
   num_flux (H (mu + t * e)) tau qt ut (lo (comb_trace t nF (2 * nb) eta x)) f.
  by apply: flux_ext => //; rewrite tr_lower_comb.
by rewrite [(num_flux (H mu) tau q1 u1 _ f + _) _ 0]mxE.
Qed.

(** At eig = 0 the fluxes are those of Bilaplacian. *)
Lemma be_zero x out : 0 < tau -> is_tr x -> is_tr out ->
  exists2 y, ttf x out 0 = Ok y & bl_trace_to_flux gesv dim p dirs laps tau (at_ 0) x out = Ok y.
Proof.
move=> t0 hx ho; have r0 := be_neg t0 (lexx 0).
have [y h1 [q [u [r [w [l1 f1]]]]]] := be_flux_ r0 hx ho; exists y => //.
have [y' h2 [q' [u' [r' [w' [l2 f2]]]]]] := bilap_flux dirs laps dim0 (be_data_at 0) hg t0 hx ho.
rewrite h2; congr Ok; apply: (flux_bi_unique _ _ _ f2 f1) => //.
apply: (be_unique r0 _ l1); apply: bi_ext l2 => //.
by rewrite scale0r addr0.
Qed.
Lemma be_initial_ x : is_tr x ->
  be_make_initial dirs P x = mkseq (fun f => mkseq (fun j => if mask f then 0
     else if (j < nb)%N then df_initial (bl_df (be_bl P)) j f else bl_initlap (be_bl P) j f) (2 * nb)) nF.
Proof.
move=> [so /allP ao]; rewrite /be_make_initial.
set D := bl_df (be_bl P).
pose R f (r : seq F) := if bl_dirichlet dirs D f then for_ (size r) (fun j r => upd r (0 + j) 0) r
  else let r1 := for_ (size r %/ 2) (fun j r => upd r (0 + j) (df_initial D j f)) r in
       for_ (size r - size r %/ 2) (fun j s => upd s (size r %/ 2 + j) (bl_initlap (be_bl P) (size r %/ 2 + j)%N f)) r1.
rewrite (@rows_loop _ _ R); last first.
  move=> i o h1 h2.
  have l0 n (g : nat -> F) q : (i < size q)%N -> for_ n (fun j out => upd2 out i j (g j)) q =
     upd q i (for_ n (fun j r => upd r (0 + j) (g j)) (nth [::] q i)).
    by move=> hq; rewrite -row_loop.
  rewrite /R; case: ifP => _; first by rewrite l0 ?h2.
  rewrite l0 ?h2 // (row_loop _ _ (fun j => bl_initlap (be_bl P) (size (nth [::] o i) %/ 2 + j)%N i)); last by rewrite size_upd h2.
  by rewrite nth_upd eqxx h2 h1 /= size_row upd_upd.
rewrite so; apply: (@eq_from_nth _ [::]); rewrite ?size_mkseq // => f hf; rewrite !nth_mkseq //.
have sr : size (nth [::] x f) = (2 * nb)%N by apply/eqP/ao/mem_nth; rewrite so.
have h2 : ((2 * nb) %/ 2 = nb)%N by rewrite mulKn.
rewrite /R sr h2 -/D -[face_dirichlet dirs D f]/(bl_dirichlet dirs D f); case: (bl_dirichlet dirs D f).
  apply: (@eq_from_nth _ 0); rewrite ?size_row ?sr ?size_mkseq // => j hj.
  by rewrite nth_row ?sr // hj nth_mkseq.
apply: (@eq_from_nth _ 0); rewrite /= ?size_row ?sr ?size_mkseq // => j hj.
rewrite nth_mkseq // nth_row ?size_row ?sr; last by lia.
have -> : (j < nb + (2 * nb - nb))%N by lia.
rewrite andbT leqNgt; case: (boolP (j < nb)%N) => hjb /=; last by rewrite subnKC // leqNgt.
by rewrite nth_row ?sr /= ?add0n ?hjb ?subn0 //; lia.
Qed.

Lemma be_bulk_ eig x absc : reg eig -> is_tr x ->
  exists q u r w, loc eig q u r w (lo x) (hi x) 0 /\
    be_bulk_values gesv dim p tau P absc x eig =
    Ok (rcons [seq mkseq (df_eval (bl_df (be_bl P)) absc (coeffs_of (q d))) (size absc ^ dim) | d <- enum 'I_dim]
              (mkseq (df_eval (bl_df (be_bl P)) absc (coeffs_of u)) (size absc ^ dim))).
Proof.
move=> hr hx; have [X h1 [_ l]] := be_solve hr hx.
do 4 eexists; split; first exact: l.
rewrite /be_bulk_values h1 /= hc_powE; congr Ok.
have hc d : mkseq (fun i => nth 0 X (d * bl_shape_fct dim p + i)) (bl_shape_fct dim p) =
    coeffs_of (\col_(i < nf) nth 0 X (d * nf + i)) by rewrite (bl_nf p dim0) (n_shape_fctE p dim0) coeffs_mkseq.
rewrite {1}/mkseq iotaD map_cat cats1; congr rcons; last by rewrite hc.
by rewrite -(val_enum_ord dim) -map_comp; apply: eq_map => d /=; rewrite hc.
Qed.
End Eigs.
