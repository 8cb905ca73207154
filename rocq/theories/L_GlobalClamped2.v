(** Bilaplacian and BilaplacianParab with u given wherever w is given. *)
From mathcomp Require Import all_ssreflect all_algebra zify.
From Verif Require Import M_Base L_Base M_Lapack S_Lapack M_Global S_Global L_Global L_Global2 L_Global3 L_Global4.
From Verif Require Import S_Hdg S_Tpp M_DiffusionUniform M_Diffusion S_LocalSolver S_Diffusion S_TppGeo.
From Verif Require Import M_Bilaplacian S_Bilaplacian L_Bilaplacian L_Bilaplacian3 L_Bilaplacian4 L_Bilaplacian5 L_GlobalBilaplacian.
From Verif Require Import S_BiReact L_BiReg L_BiFlux L_GlobalBiReact L_GlobalClamped L_GlobalClamped3.
From Verif Require Import M_BilapParab S_BilapParab L_BilapParab2 L_GlobalBilapParab.
Set Implicit Arguments. Unset Strict Implicit. Unset Printing Implicit Defensive.
Import Order.TTheory GRing.Theory Num.Theory.
Local Open Scope ring_scope.

Section Zero.
Variables (F : realFieldType) (dim p : nat).
Notation nf := ((p + 1) ^ dim)%N.
Notation nb := ((p + 1) ^ (dim - 1))%N.
Notation zt := (nseq (2 * dim) (nseq (2 * nb) (0 : F))).
Lemma zero_lo (i : 'I_(2 * dim)) : tr nb (lower nb zt) i = 0 :> 'cV[F]_nb.
Proof. by apply/colP => j; rewrite tr_lowerE mxE /lambda_at nth_nseq ltn_ord nth_nseq if_same. Qed.
Lemma zero_hi (i : 'I_(2 * dim)) : tr nb (upper nb zt) i = 0 :> 'cV[F]_nb.
Proof. by apply/colP => j; rewrite tr_upperE mxE /lambda_at nth_nseq ltn_ord nth_nseq if_same. Qed.
Lemma zero_u (P : bl_data F) tau mask :
  (forall i f, (i < nf)%N -> (f < 2 * dim)%N -> df_dirval (bl_df P) i f = 0) ->
  (forall d : 'I_dim, df_rq p (u_problem P) mask d = 0) /\ df_ru dim p (u_problem P) tau mask = 0.
Proof.
move=> h; have hd (f : 'I_(2 * dim)) : df_dir_vec dim p (u_problem P) f = 0 by apply/colP => i; rewrite !mxE /= h.
rewrite /df_rq /df_ru; split=> [d|]; first by rewrite big1 ?oppr0 // => f _; rewrite hd scaler0.
rewrite big1 ?scaler0 ?addr0 => [|f _]; last exact: hd.
by apply/colP => i; rewrite !mxE.
Qed.
End Zero.

Section Bilap.
Variables (F : realFieldType) (E : Type) (dim p : nat) (dat : E -> bl_data F).
Variables (gesv : nat -> nat -> seq F -> seq F -> sv_result F) (tau : F).
Hypotheses (dim0 : (0 < dim)%N) (hD : forall e, diffusion_data dim p (bl_df (dat e))).
Hypotheses (hg : gesv_correct gesv) (tau0 : 0 < tau).
Variables (dirs laps : seq nat) (n_nodes : nat) (edges : seq (seq nat * E)) (junk : seq (seq F)) (nt : nat -> nat).
Notation nb := ((p + 1) ^ (dim - 1))%N.
Notation n2 := (2 * nb)%N.
Local Notation m := (2 * dim)%N.
Notation N := (n_nodes * n2)%N.
Hypotheses (hv : valid_graph dim n_nodes edges) (hj : size junk = m).
Hypothesis ht : types_agree (fun e => bl_df (dat e)) nt edges.
Notation op x := (elliptic_flux n2 N [::] junk edges (fun e => bl_trace_to_flux gesv dim p dirs laps tau (dat e)) x).
Notation off := (@bl_off F dim p dirs laps n_nodes nt).
Notation elo e x := (fun i : 'I_m => \col_(j < nb) nth 0 x (nth 0%N e.1 i * n2 + j)).
Notation ehi e x := (fun i : 'I_m => \col_(j < nb) nth 0 x (nth 0%N e.1 i * n2 + (nb + j))).
Notation loc e := (bi_loc dim p tau (dat e)).
Let kk (e : E) : F := 0.
Let kle e : kk e <= 0. Proof. by []. Qed.
Lemma bl_hf e x out : is_trace m n2 x -> is_trace m n2 out ->
  exists2 y, bl_trace_to_flux gesv dim p dirs laps tau (dat e) x out = Ok y & exists q u r w,
  bi_react dim p tau (dat e) (kk e) q u r w (tr nb (lower nb x)) (tr nb (upper nb x)) (fun=> 0) 0 (fun=> 0) 0 /\
  bi_flux dim p dirs laps tau (dat e) q u r w (tr nb (lower nb x)) (tr nb (upper nb x)) y.
Proof.
move=> hx ho; have [y h1 [q [u [r [w [h2 h3]]]]]] := bilap_flux dirs laps dim0 (hD e) hg tau0 hx ho.
by exists y => //; exists q, u, r, w; split=> //; rewrite /bi_react scale0r addr0.
Qed.
Let of_loc e q u r w x y rq ru rr rw : loc e q u r w x y rq ru rr rw -> bi_react dim p tau (dat e) (kk e) q u r w x y rq ru rr rw.
Proof. by rewrite /bi_react scale0r addr0. Qed.
Lemma bl_same_w x x' s : size x = N -> size x' = N -> off x -> off x' -> op x = Ok s -> op x' = Ok s ->
  forall e q u r w q' u' r' w' rq ru rr rw, List.In e edges ->
  loc e.2 q u r w (elo e x) (ehi e x) rq ru rr rw -> loc e.2 q' u' r' w' (elo e x') (ehi e x') rq ru rr rw -> w = w'.
Proof.
move=> sx sx' ox ox' hx hx' e q u r w q' u' r' w' rq ru rr rw he h h'.
by have [] := same_w dim0 hD tau0 kle bl_hf hv hj ht sx sx' ox ox' hx hx' he (of_loc h) (of_loc h').
Qed.
Lemma bl_same_u x x' s : (forall v, (v < n_nodes)%N -> nt v \in laps -> nt v \in dirs) ->
  (forall v, (v < n_nodes)%N -> anchored edges (fun v => nt v \in dirs) v) ->
  size x = N -> size x' = N -> off x -> off x' -> op x = Ok s -> op x' = Ok s ->
  (forall v j, (v < n_nodes)%N -> (j < nb)%N -> nth 0 x (v * n2 + j) = nth 0 x' (v * n2 + j)) /\
  forall e q u r w q' u' r' w' rq ru rr rw, List.In e edges ->
  loc e.2 q u r w (elo e x) (ehi e x) rq ru rr rw -> loc e.2 q' u' r' w' (elo e x') (ehi e x') rq ru rr rw ->
  [/\ forall d, q d = q' d, u = u' & w = w'].
Proof.
move=> h1 h2 sx sx' ox ox' hx hx'; have [a b] := same_u dim0 hD tau0 kle bl_hf hv hj ht h1 h2 sx sx' ox ox' hx hx'.
by split=> // e q u r w q' u' r' w' rq ru rr rw he h h'; exact: (b _ _ _ _ _ _ _ _ _ _ _ _ _ he (of_loc h) (of_loc h')).
Qed.
Lemma bl_clamped_solvable : (forall v, (v < n_nodes)%N -> nt v \in laps -> nt v \in dirs) ->
  (forall v, (v < n_nodes)%N -> anchored edges (fun v => nt v \in dirs) v) ->
  (forall e i f, (i < (p + 1) ^ dim)%N -> (f < 2 * dim)%N -> df_dirval (bl_df (dat e)) i f = 0) ->
  exists r0 x, [/\ elliptic_flux n2 N [::] junk edges (fun e => bl_residual_flux gesv dim p dirs laps tau (dat e)) (nseq N 0) = Ok r0,
    size x = N, off x & op x = Ok (map -%R r0)].
Proof.
move=> h1 h2 h0.
have [r0 [hr sr or]] := global_bilap_residual dim0 hD hg tau0 dirs laps hv hj ht (size_nseq N (0 : F)); exists r0.
have hz : is_trace m n2 (nseq m (nseq n2 (0 : F))) by split; [rewrite size_nseq | apply/allP => l /nseqP[-> _]; rewrite size_nseq].
have [|x [sx ox hx]] := clamped_solvable dim0 hD tau0 kle bl_hf hv hj ht h1 h2
    (bl_res_ok dim0 hD hg tau0 dirs laps) _ hr sr or; last by exists x.
move=> e; have [y hy [q [u [r [w [l fl]]]]]] := bilap_residual dirs laps dim0 (hD e) hg tau0 hz hz.
have [z1 z2] := zero_u tau (face_dirichlet dirs (u_problem (dat e))) (h0 e).
exists y => //; exists q, u, r, w, (df_rq p (w_problem (dat e)) (face_dirichlet laps (w_problem (dat e)))),
  (df_ru dim p (w_problem (dat e)) tau (face_dirichlet laps (w_problem (dat e)))).
split; first by apply: react_ext (of_loc l) => // i; rewrite ?zero_lo ?zero_hi.
by apply: flux_ext_ fl => i; rewrite ?zero_lo ?zero_hi.
Qed.
End Bilap.

Section Parab.
Variables (F : realFieldType) (E : Type) (gesv : nat -> nat -> seq F -> seq F -> sv_result F).
Variables (dim p : nat) (dirs laps : seq nat) (tau theta dt : F) (dat : E -> bp_data F) (old : E -> seq F).
Hypotheses (dim0 : (0 < dim)%N) (hD : forall e, diffusion_data dim p (bl_df (bp_bl (dat e)))).
Hypotheses (hg : gesv_correct gesv) (tau0 : 0 < tau) (k0 : 0 < theta * dt).
Variables (n_nodes : nat) (edges : seq (seq nat * E)) (junk : seq (seq F)) (nt : nat -> nat).
Notation nb := ((p + 1) ^ (dim - 1))%N.
Notation n2 := (2 * nb)%N.
Local Notation m := (2 * dim)%N.
Notation N := (n_nodes * n2)%N.
Hypotheses (hv : valid_graph dim n_nodes edges) (hj : size junk = m).
Hypothesis ht : types_agree (fun e => bl_df (bp_bl (dat e))) nt edges.
Notation op x := (elliptic_flux n2 N [::] junk edges
  (fun e => bp_trace_to_flux gesv dim p dirs laps tau theta dt (dat e) (old e)) x).
Notation off := (@bl_off F dim p dirs laps n_nodes nt).
Notation elo e x := (fun i : 'I_m => \col_(j < nb) nth 0 x (nth 0%N e.1 i * n2 + j)).
Notation ehi e x := (fun i : 'I_m => \col_(j < nb) nth 0 x (nth 0%N e.1 i * n2 + (nb + j))).
Notation loc e := (bi_react dim p tau (bp_bl (dat e)) (- (theta * dt)^-1)).
Let kk (e : E) : F := - (theta * dt)^-1.
Let klt e : kk e < 0. Proof. by rewrite oppr_lt0 invr_gt0. Qed.
Let kle e : kk e <= 0. Proof. exact: ltW. Qed.
Let hf e x out : is_trace m n2 x -> is_trace m n2 out -> _ := parab_flux_ dirs laps dim0 (hD e) hg tau0 k0 (old e) (x := x) (out := out).
Lemma bp_same_w x x' s : size x = N -> size x' = N -> off x -> off x' -> op x = Ok s -> op x' = Ok s ->
  forall e q u r w q' u' r' w' rq ru rr rw, List.In e edges ->
  loc e.2 q u r w (elo e x) (ehi e x) rq ru rr rw -> loc e.2 q' u' r' w' (elo e x') (ehi e x') rq ru rr rw ->
  u = u' /\ w = w'.
Proof.
move=> sx sx' ox ox' hx hx' e q u r w q' u' r' w' rq ru rr rw he h h'.
have [-> hu] := same_w dim0 hD tau0 kle hf hv hj ht sx sx' ox ox' hx hx' he h h'.
by split=> //; apply: hu; rewrite lt_eqF.
Qed.
Lemma bp_same_u x x' s : (forall v, (v < n_nodes)%N -> nt v \in laps -> nt v \in dirs) ->
  (forall v, (v < n_nodes)%N -> anchored edges (fun v => nt v \in dirs) v) ->
  size x = N -> size x' = N -> off x -> off x' -> op x = Ok s -> op x' = Ok s ->
  (forall v j, (v < n_nodes)%N -> (j < nb)%N -> nth 0 x (v * n2 + j) = nth 0 x' (v * n2 + j)) /\
  forall e q u r w q' u' r' w' rq ru rr rw, List.In e edges ->
  loc e.2 q u r w (elo e x) (ehi e x) rq ru rr rw -> loc e.2 q' u' r' w' (elo e x') (ehi e x') rq ru rr rw ->
  [/\ forall d, q d = q' d, u = u' & w = w'].
Proof. move=> h1 h2; exact: (same_u dim0 hD tau0 kle hf hv hj ht h1 h2). Qed.
Lemma bp_clamped_solvable : (forall v, (v < n_nodes)%N -> nt v \in laps -> nt v \in dirs) ->
  (forall v, (v < n_nodes)%N -> anchored edges (fun v => nt v \in dirs) v) ->
  (forall e i f, (i < (p + 1) ^ dim)%N -> (f < 2 * dim)%N -> df_dirval (bl_df (bp_bl (dat e))) i f = 0) ->
  exists r0 x, [/\ elliptic_flux n2 N [::] junk edges
      (fun e => bp_residual_flux gesv dim p dirs laps tau theta dt (dat e) (old e)) (nseq N 0) = Ok r0,
    size x = N, off x & op x = Ok (map -%R r0)].
Proof.
move=> h1 h2 h0.
have [r0 [hr sr or]] := par_residual dirs laps old dim0 hD hg tau0 k0 hv hj ht (size_nseq N (0 : F)); exists r0.
have hz : is_trace m n2 (nseq m (nseq n2 (0 : F))) by split; [rewrite size_nseq | apply/allP => l /nseqP[-> _]; rewrite size_nseq].
have [|x [sx ox hx]] := clamped_solvable dim0 hD tau0 kle hf hv hj ht h1 h2
    (@g_ok F E gesv dim p dirs laps tau theta dt dat old dim0 hD hg tau0 k0) _ hr sr or; last by exists x.
move=> e; have [y hy [q [u [r [w [l fl]]]]]] := parab_residual_react dirs laps dim0 (hD e) hg tau0 k0 (old e) hz hz.
have [z1 z2] := @zero_u F dim p (bp_eff theta (dat e)) tau (face_dirichlet dirs (bl_df (bp_bl (dat e)))) (h0 e).
exists y => //; eexists q, u, r, w, _, _.
split; last by apply: flux_ext_ fl => i; rewrite ?zero_lo ?zero_hi.
by apply: react_ext l => // i; rewrite ?zero_lo ?zero_hi.
Qed.
End Parab.
