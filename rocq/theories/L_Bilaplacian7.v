(** Bilaplacian: the sum of trace_to_flux and the residual at zero; residual_flux is another function; examples. *)
From mathcomp Require Import all_ssreflect all_algebra zify ring.
From Verif Require Import M_Base L_Base M_Index L_Index M_Lapack S_Lapack L_Lapack M_DiffusionUniform M_Diffusion S_Hdg S_Tpp S_LocalSolver S_Diffusion S_TppGeo.
From Verif Require Import L_Hdg L_HdgSrc L_LocalBase L_LocalLink L_DiffusionUniform L_DiffusionUniform2 L_Diffusion L_TppGeo L_Diffusion2 L_Diffusion3 L_DiffusionEx M_Global S_Global.
From Verif Require Import M_Bilaplacian S_Bilaplacian L_Bilaplacian L_Bilaplacian2 L_Bilaplacian3 L_Bilaplacian4 L_Bilaplacian5 L_Bilaplacian6.
Set Implicit Arguments. Unset Strict Implicit. Unset Printing Implicit Defensive.
Import Order.TTheory GRing.Theory Num.Theory.
Local Open Scope ring_scope.

Section Bilaplacian.
Variable F : realFieldType.
Variables (gesv : nat -> nat -> seq F -> seq F -> sv_result F).
Variables (dim p : nat) (dirs laps : seq nat) (tau : F) (P : bl_data F).
Hypotheses (dim0 : (0 < dim)%N) (hD : diffusion_data dim p (bl_df P)) (hg : gesv_correct gesv) (tau0 : 0 < tau).
Notation nf := ((p + 1) ^ dim)%N.
Notation nb := ((p + 1) ^ (dim - 1))%N.
Notation nF := (2 * dim)%N.
Notation mask := (face_dirichlet dirs (bl_df P)).
Notation mask2 := (face_dirichlet laps (bl_df P)).
Notation ttf := (bl_trace_to_flux gesv dim p dirs laps tau P).
Notation res := (bl_residual_flux gesv dim p dirs laps tau P).
Notation is_tr := (is_trace nF (2 * nb)).
Notation lo x := (tr nb (lower nb x)).
Notation hi x := (tr nb (upper nb x)).
Notation full := (bi_full dim p dirs laps tau P).
Notation bflux := (bi_flux dim p dirs laps tau P).
Notation zt := (zero_trace F nF (2 * nb)).
Implicit Types (x out : seq (seq F)).

Lemma flux_bi_ext q u r w (x y : 'I_nF -> 'cV[F]_nb) o (x' y' : 'I_nF -> 'cV[F]_nb) : (forall f, x f = x' f) -> (forall f, y f = y' f) ->
  bflux q u r w x y o -> bflux q u r w x' y' o.
Proof.
move=> hx hy [s a b]; split=> // f; [rewrite a | rewrite b]; case: ifP => // _; exact: flux_ext.
Qed.
Lemma bilap_superpose x out out' : is_tr x -> is_tr out -> is_tr out' ->
  exists y y0 q u r w, [/\ ttf x out = Ok y, res zt out' = Ok y0, full x q u r w &
    bflux q u r w (lo x) (hi x) (comb_trace 1 nF (2 * nb) y y0)].
Proof.
move=> hx ho ho'.
have [y hy [q [u [r [w [l1 f1]]]]]] := bilap_flux dirs laps dim0 hD hg tau0 hx ho.
have [y0 hy0 [q0 [u0 [r0 [w0 [l2 f2]]]]]] := bilap_residual dirs laps dim0 hD hg tau0 (zt_trace F dim (2 * nb)) ho'.
exists y, y0; do 4 eexists; split=> //.
  apply: bi_ext (bi_lin 1 l1 l2) => [g|g|d||d|]; rewrite ?scale1r ?zt_lo ?zt_hi ?add0r ?addr0 //.
by apply: flux_bi_ext (flux_bi_lin 1 f1 f2) => f; rewrite scale1r ?zt_lo ?zt_hi addr0.
Qed.
Lemma bilap_conserved_sum x out : is_tr x -> is_tr out ->
  exists y q u r w, [/\ ttf x out = Ok y, bi_hom dim p tau P x q u r w,
    (forall f, (f < nF)%N -> ~~ mask f) -> \sum_(f < nF) nth 0 (nth [::] y f) 0 = 0 &
    (forall f, (f < nF)%N -> ~~ mask2 f) ->
      \sum_(f < nF) nth 0 (nth [::] y f) nb = \sum_(k < nf) df_vol (bl_df P) 0 k * w k 0].
Proof.
move=> hx ho; have [y [q [u [r [w [h1 h2 h3 h4]]]]]] := bilap_conserved dirs laps dim0 hD hg tau0 hx ho.
exists y, q, u, r, w; split=> // hm; rewrite h4 // mxE; apply: eq_bigr => k _.
by rewrite mxE.
Qed.
Lemma bilap_not_affine x f j : is_tr x -> (f < nF)%N -> (j < nb)%N -> ~~ mask f ->
  nth 0 (nth [::] x f) j != nth 0 (nth [::] x f) (nb + j) ->
  forall out out' out'', is_tr out -> is_tr out' -> is_tr out'' ->
  exists y y0 z, [/\ ttf x out = Ok y, res zt out' = Ok y0, res x out'' = Ok z &
    nth 0 (nth [::] z f) j != nth 0 (nth [::] y f) j + nth 0 (nth [::] y0 f) j].
Proof.
move=> hx hf hj nm hne out out' out'' ho ho' ho''.
have [y [y0 [z [h1 h2 h3 _ h4]]]] := bilap_residual_value dirs laps dim0 hD hg tau0 hx ho ho' ho''.
exists y, y0, z; split=> //; have [-> _] := h4 f j hf hj.
rewrite (negbTE nm) -subr_eq0 [X in X != 0](_ : _ = tau * df_area (bl_df P) f * (nth 0 (nth [::] x f) (nb + j) - nth 0 (nth [::] x f) j)).
  have ha : 0 < df_area (bl_df P) f by case: (bl_ok dim0 hD) => _ _ _ /(_ (Ordinal hf))[].
  apply: mulf_neq0; last by rewrite subr_eq0 eq_sym.
  by apply: mulf_neq0; rewrite gt_eqF.
by rewrite addrAC subrr add0r.
Qed.
End Bilaplacian.

(** Data of a problem on the unit cube with polynomials of degree 1. *)
Lemma bilap_example (F : rcfType) (dim : nat) (types : seq nat) (init initlap : nat -> nat -> F) :
  gesv_correct (@inv_gesv F) /\
  exists P : bl_data F, [/\ diffusion_data dim 1 (bl_df P), df_types (bl_df P) = types,
    df_initial (bl_df P) = init & bl_initlap P = initlap].
Proof.
split; first exact: inv_gesv_correct.
have [D [[h1 _ _ h2] [h3 _ _]]] := diffusion_data_exists dim (fun=> 0) (fun _ _ => 0) init (fun=> 0) (fun _ _ _ => 0) types.
by exists (BlData D (fun _ _ => 0) initlap).
Qed.
(** The entry (0, 1) of make_initial is not that of face function 1 on face 0. *)
Lemma bilap_initial_wrong (F : rcfType) : exists P : bl_data F, diffusion_data 2 1 (bl_df P) /\
  forall out, is_trace 4 4 out -> exists f j, [/\ (f < 4)%N, (j < 2)%N &
    nth 0 (nth [::] (bl_make_initial [::] P out) f) j != df_initial (bl_df P) j f].
Proof.
have [_ [P [hP ht hi _]]] := @bilap_example F 2 [::] (fun a b => a%:R) (fun _ _ => 0).
exists P; split=> // out ho; exists 0%N, 1%N; split=> //.
by rewrite (@bilap_initial F 2 1 [::] P out ho) /= hi eq_sym oner_eq0.
Qed.

(** Two edges in a row, the first node of type 1. *)
Lemma bilap_row (F : rcfType) : let edges := [:: ([:: 0; 1], false); ([:: 1; 2], true)]%N in
  let nt v := if v == 0%N then 1%N else 0%N in
  exists dat : bool -> bl_data F, [/\ forall e, diffusion_data 1 1 (bl_df (dat e)), valid_graph 1 3 edges,
    types_agree (fun e => bl_df (dat e)) nt edges & forall v, (v < 3)%N -> anchored edges (fun v => nt v \in [:: 1%N]) v].
Proof.
move=> edges nt.
have [_ [P0 [hP0 h0 _ _]]] := @bilap_example F 1 [:: 1; 0]%N (fun _ _ => 0) (fun _ _ => 0).
have [_ [P1 [hP1 h1 _ _]]] := @bilap_example F 1 [:: 0; 0]%N (fun _ _ => 0) (fun _ _ => 0).
exists (fun e => if e then P1 else P0); split=> //; first by case.
  by move=> e k /= [<-|[<-|[]]]; case: k => [|[|k]] //=; rewrite ?h0 ?h1.
have a0 : anchored edges (fun v => nt v \in [:: 1%N]) 0 by apply: anchored_fixed.
have a1 : anchored edges (fun v => nt v \in [:: 1%N]) 1.
  by apply: (anchored_step (e := ([:: 0; 1]%N, false)) _ _ _ a0); first by left.
have a2 : anchored edges (fun v => nt v \in [:: 1%N]) 2.
  by apply: (anchored_step (e := ([:: 1; 2]%N, true)) _ _ _ a1); first by right; left.
by case=> [|[|[|]]].
Qed.
