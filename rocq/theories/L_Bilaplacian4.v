(** Bilaplacian: linearity, boundary conditions, symmetry, saddle point, conservation, mass fluxes. *)
From mathcomp Require Import all_ssreflect all_algebra zify ring.
From Verif Require Import M_Base L_Base M_Index L_Index M_Lapack S_Lapack M_DiffusionUniform M_Diffusion S_Hdg S_Tpp S_LocalSolver S_Diffusion S_TppGeo.
From Verif Require Import L_Hdg L_HdgSrc L_LocalBase L_LocalLink L_DiffusionUniform L_DiffusionUniform2 L_Diffusion L_TppGeo L_Diffusion2 L_Diffusion3.
From Verif Require Import M_Bilaplacian S_Bilaplacian L_Bilaplacian L_Bilaplacian2 L_Bilaplacian3.
Set Implicit Arguments. Unset Strict Implicit. Unset Printing Implicit Defensive.
Import Order.TTheory GRing.Theory Num.Theory.
Local Open Scope ring_scope.

Section Pairing.
Variables (F : realFieldType) (nF nb : nat).
Implicit Types (x y : seq (seq F)).
Lemma pairing_halves x y : pairing nF (2 * nb) x y =
  pairing nF nb (lower nb x) (lower nb y) + pairing nF nb (upper nb x) (upper nb y).
Proof.
rewrite /pairing -big_split /=; apply: eq_bigr => f _.
have -> : (2 * nb = nb + nb)%N by lia.
rewrite big_split_ord /=; congr (_ + _); apply: eq_bigr => j _.
  by rewrite -!/(lambda_at _ _ _) !lower_at.
by rewrite -!/(lambda_at _ _ _) !upper_at.
Qed.
(** The trace with given halves. *)
Definition glue x y : seq (seq F) := mkseq (fun f => nth [::] x f ++ nth [::] y f) nF.
Lemma glue_trace x y : is_trace nF nb x -> is_trace nF nb y -> is_trace nF (2 * nb) (glue x y).
Proof.
move=> [s1 /allP h1] [s2 /allP h2]; split; first exact: size_mkseq.
apply/allP => l /(nthP [::])[f]; rewrite size_mkseq => hf; rewrite nth_mkseq // => <-.
by rewrite size_cat (eqP (h1 _ (mem_nth _ _))) ?s1 // (eqP (h2 _ (mem_nth _ _))) ?s2 //; apply/eqP; lia.
Qed.
Lemma lower_glue x y : is_trace nF nb x -> lower nb (glue x y) = x.
Proof.
move=> [s1 /allP h1]; apply: (@eq_from_nth _ [::]); rewrite size_map size_mkseq ?s1 // => f hf.
rewrite (nth_map [::]) ?size_mkseq // nth_mkseq //.
have /eqP e : size (nth [::] x f) == nb by apply: h1; rewrite mem_nth ?s1.
by rewrite -{1}e take_size_cat.
Qed.
Lemma upper_glue x y : is_trace nF nb x -> is_trace nF nb y -> upper nb (glue x y) = y.
Proof.
move=> [s1 /allP h1] [s2 _]; apply: (@eq_from_nth _ [::]); rewrite size_map size_mkseq ?s2 // => f hf.
rewrite (nth_map [::]) ?size_mkseq // nth_mkseq //.
have /eqP e : size (nth [::] x f) == nb by apply: h1; rewrite mem_nth ?s1.
by rewrite -{1}e drop_size_cat.
Qed.
End Pairing.

Section Bilaplacian.
Variable F : realFieldType.
Variables (gesv : nat -> nat -> seq F -> seq F -> sv_result F).
Variables (dim p : nat) (dirs laps : seq nat) (tau : F) (P : bl_data F).
Hypotheses (dim0 : (0 < dim)%N) (hD : diffusion_data dim p (bl_df P)) (hg : gesv_correct gesv) (tau0 : 0 < tau).
Notation H := (bl_hdg dim p P).
Notation W := (bl_coef dim p P).
Notation nf := ((p + 1) ^ dim)%N.
Notation nb := ((p + 1) ^ (dim - 1))%N.
Notation nF := (2 * dim)%N.
Notation mask := (face_dirichlet dirs (bl_df P)).
Notation mask2 := (face_dirichlet laps (bl_df P)).
Notation ttf := (bl_trace_to_flux gesv dim p dirs laps tau P).
Notation res := (bl_residual_flux gesv dim p dirs laps tau P).
Notation massf := (bl_trace_to_mass_flux gesv dim p dirs laps tau P).
Notation is_tr := (is_trace nF (2 * nb)).
Notation lo x := (tr nb (lower nb x)).
Notation hi x := (tr nb (upper nb x)).
Notation pair := (pairing nF (2 * nb)).
Notation off := (bi_vanishes dim p dirs laps P).
Notation hom := (bi_hom dim p tau P).
Notation full := (bi_full dim p dirs laps tau P).
Notation bloc := (bi_loc dim p tau P).
Notation bflux := (bi_flux dim p dirs laps tau P).
Notation zero := (fun _ : 'I_dim => 0 : 'cV[F]_nf).
Notation zt := (zero_trace F nF (2 * nb)).
Implicit Types (x out : seq (seq F)) (q r : 'I_dim -> 'cV[F]_nf) (u w : 'cV[F]_nf).

Let hok := bl_ok dim0 hD.
Let hcst := bl_const dim0 hD.

Lemma bilap_linear c x x' out out' out'' : is_tr x -> is_tr x' -> is_tr out -> is_tr out' -> is_tr out'' ->
  exists y y', [/\ ttf x out = Ok y, ttf x' out' = Ok y' &
    ttf (comb_trace c nF (2 * nb) x x') out'' = Ok (comb_trace c nF (2 * nb) y y')].
Proof.
move=> hx hx' ho ho' ho''.
have [y hy [q [u [r [w [l1 f1]]]]]] := bilap_flux dirs laps dim0 hD hg tau0 hx ho.
have [y' hy' [q' [u' [r' [w' [l2 f2]]]]]] := bilap_flux dirs laps dim0 hD hg tau0 hx' ho'.
have [z hz [qz [uz [rz [wz [l3 f3]]]]]] := bilap_flux dirs laps dim0 hD hg tau0 (comb_is_trace _ _ c x x') ho''.
exists y, y'; split => //; rewrite hz; congr Ok.
have l4 := bi_lin c l1 l2; have f4 := flux_bi_lin c f1 f2.
apply: (flux_bi_unique _ _ _ f3 f4) => [|f|f]; last 2 first.
- exact: tr_lower_comb.
- exact: tr_upper_comb.
apply: (bi_unique dim0 hD tau0 l3); apply: bi_ext l4 => [f|f|d||d|].
- by rewrite tr_lower_comb.
- by rewrite tr_upper_comb.
all: by rewrite scaler0 addr0.
Qed.
Lemma bilap_dirichlet x out : is_tr x -> is_tr out ->
  exists2 y, ttf x out = Ok y & is_tr y /\ off y.
Proof.
move=> hx ho; have [y hy [q [u [r [w [l1 [sy fl fu]]]]]]] := bilap_flux dirs laps dim0 hD hg tau0 hx ho.
by exists y => //; split => //; split; apply/vanishesP => f hf; rewrite ?fl ?fu hf.
Qed.

(** Two problems with sources: Green's formula. *)
Lemma two_src q u (x : 'I_nF -> 'cV[F]_nb) ru q' u' y ru' :
  loc_src H tau q u x zero ru -> loc_src H tau q' u' y zero ru' ->
  \sum_f dotv (y f) (num_flux H tau q u x f) - dotv u' ru =
  \sum_f dotv (x f) (num_flux H tau q' u' y f) - dotv u ru'.
Proof.
move=> e1 e2; rewrite (energy_src hok e1 e2) (energy_src hok e2 e1) (form_sym _ hok).
have z (v : 'I_dim -> 'cV[F]_nf) : \sum_d dotv 0 (v d) = 0 by apply: big1 => d _; rewrite dotv0l.
by rewrite !z !addr0 !addrK.
Qed.
(** The flux tested by another trace. *)
Lemma bilap_tested x x' y q u r w q' u' r' w' : off x' -> hom x q u r w -> hom x' q' u' r' w' ->
  bflux q u r w (lo x) (hi x) y ->
  pair x' y = \sum_f dotv (lo x' f) (num_flux H tau r w (hi x) f) +
              \sum_f dotv (lo x f) (num_flux H tau r' w' (hi x') f) + dotv w' (W *m w).
Proof.
move=> [o1 o2] [l1 l2] [l3 l4] [sy fl fu]; rewrite pairing_halves.
rewrite (pairing_mask o1 fl) (pairing_mask o2 fu) -addrA; congr (_ + _).
rewrite addr0 in l2; have := two_src l2 l3; rewrite dotv0r subr0 => <-; by rewrite subrK.
Qed.
Lemma bilap_symmetric x x' out out' : is_tr x -> is_tr x' -> is_tr out -> is_tr out' -> off x -> off x' ->
  exists y y', [/\ ttf x out = Ok y, ttf x' out' = Ok y' & pair x' y = pair x y'].
Proof.
move=> hx hx' ho ho' ox ox'.
have [y hy [q [u [r [w [l1 f1]]]]]] := bilap_flux dirs laps dim0 hD hg tau0 hx ho.
have [y' hy' [q' [u' [r' [w' [l2 f2]]]]]] := bilap_flux dirs laps dim0 hD hg tau0 hx' ho'.
exists y, y'; split => //; rewrite (bilap_tested ox' l1 l2 f1) (bilap_tested ox l2 l1 f2).
by rewrite (dotv_coef hD) [in RHS](addrC (\sum_f _)).
Qed.

(** The value of the quadratic form: the one of the problem for w twice, and the L2 norm of w. *)
Lemma bilap_form x out : is_tr x -> is_tr out -> off x ->
  exists y q u r w, [/\ ttf x out = Ok y, hom x q u r w &
    pair x y = 2%:R * (\sum_f dotv (lo x f) (num_flux H tau r w (hi x) f)) + dotv w (W *m w)].
Proof.
move=> hx ho ox; have [y hy [q [u [r [w [l1 f1]]]]]] := bilap_flux dirs laps dim0 hD hg tau0 hx ho.
exists y, q, u, r, w; split => //; rewrite (bilap_tested ox l1 l1 f1).
by rewrite mulr_natl mulr2n.
Qed.
(** No matter the trace of u: without trace of w the form vanishes. *)
Lemma bilap_isotropic x out : is_tr x -> is_tr out -> off x ->
  (forall f j, (f < nF)%N -> (j < nb)%N -> nth 0 (nth [::] x f) (nb + j) = 0) ->
  exists2 y, ttf x out = Ok y & pair x y = 0.
Proof.
move=> hx ho ox h0; have [y [q [u [r [w [hy l e]]]]]] := bilap_form hx ho ox.
exists y => //; rewrite e.
have hz (f : 'I_nF) : hi x f = 0 :> 'cV[F]_nb by apply/colP => j; rewrite tr_upperE mxE; exact: h0.
have [l1 _] := l; have l2 : loc_src H tau zero 0 (hi x) zero 0.
  split=> [d|]; first by rewrite !mulmx0 subr0 big1 ?oppr0 ?addr0 // => f _; rewrite hz mulmx0 scaler0.
  by rewrite !big1 ?mulmx0 ?scaler0 ?addr0 // => f _; rewrite ?hz mulmx0.
have [er ew] := src_unique hok tau0 l1 l2.
rewrite ew mulmx0 dotv0r addr0.
have -> : \sum_f dotv (lo x f) (num_flux H tau r 0 (hi x) f) = 0; last by rewrite mulr0.
apply: big1 => f _.
rewrite /num_flux hz !mulmx0 !scaler0 addr0 subr0 big1 ?dotv0r // => d _.
by rewrite er mulmx0 scaler0.
Qed.
(** Every trace of the diffusion problem that is not constant yields traces with form of either sign. *)
Lemma bilap_indefinite (z : seq (seq F)) : is_trace nF nb z -> vanishes mask nF nb z -> vanishes mask2 nF nb z ->
  (forall c, z <> const_trace c nF nb) -> exists x x', [/\ is_tr x, is_tr x', off x & off x'] /\
  forall out out', is_tr out -> is_tr out' -> exists y y', [/\ ttf x out = Ok y, ttf x' out' = Ok y', pair x y < 0 & 0 < pair x' y'].
Proof.
move=> hz o1 o2 nc.
pose sc (t : F) : seq (seq F) := comb_trace t nF nb z (zero_trace F nF nb).
have hs t : is_trace nF nb (sc t) by exact: comb_is_trace.
have es t (f : 'I_nF) : tr nb (sc t) f = t *: tr nb z f :> 'cV[F]_nb.
  by rewrite tr_comb tr_zerob addr0.
have osc m t : vanishes m nF nb z -> vanishes m nF nb (sc t).
  by move=> /vanishesP h; apply/vanishesP => f hf; rewrite es h // scaler0.
pose x t := glue nF z (sc t).
have hx t : is_tr (x t) by exact: glue_trace.
have ox t : off (x t) by split; rewrite /x ?lower_glue ?upper_glue //; exact: osc.
(* the solution of the diffusion problem *)
have [X _ [_ [l1 _]]] := bilap_solve0 dirs laps dim0 hD hg tau0 (hx 1).
set r := qpart _ _ in l1; set w := upart _ _ _ in l1.
have l1' : loc_src H tau r w (tr nb z) zero 0.
  by apply: src_ext l1 => // f; rewrite upper_glue // es scale1r.
pose s := \sum_f dotv (tr nb z f) (num_flux H tau r w (tr nb z) f); pose k := dotv w (W *m w).
have s0 : s < 0.
  have /loc_src0 le := l1'; rewrite lt_neqAle /s (L_Hdg.energy hok le le) oppr_le0 form_ge0 ?ltW // andbT.
  apply/eqP => /eqP; rewrite oppr_eq0 => /eqP h0; have := flux_kernel hok hcst (bl_grad dim0 hD) tau0 le.
  rewrite (L_Hdg.energy hok le le) h0 oppr0 => /(_ erefl)[c hc]; apply: (nc c).
  apply: trace_ext hz _ _ => [|f]; last by rewrite hc tr_const.
  by split; [exact: size_nseq | apply/allP => l /nseqP[-> _]; rewrite size_mkseq].
have k0 : 0 <= k by exact: bl_coef_ge0.
have form t out : is_tr out -> exists2 y, ttf (x t) out = Ok y & pair (x t) y = 2%:R * t * s + t ^+ 2 * k.
  move=> ho; have [y [q' [u' [r' [w' [hy [l2 _] e]]]]]] := bilap_form (hx t) ho (ox t); exists y => //.
  have l3 : loc_src H tau (fun d => t *: r d) (t *: w) (hi (x t)) zero 0.
    have l0 : loc_src H tau zero 0 (fun=> 0) zero 0.
      split=> [d|]; first by rewrite !mulmx0 subr0 big1 ?oppr0 ?addr0 // => f _; rewrite mulmx0 scaler0.
      by rewrite !big1 ?mulmx0 ?scaler0 ?addr0 // => f _; rewrite mulmx0.
    apply: src_ext (src_lin t l1' l0) => [d||f|d|]; rewrite ?scaler0 ?addr0 //.
    by rewrite upper_glue // es.
  have [er ew] := src_unique hok tau0 l2 l3; rewrite e ew -scalemxAr dotvZl dotvZr -/k.
  have -> : \sum_f dotv (lo (x t) f) (num_flux H tau r' (t *: w) (hi (x t)) f) = t * s.
    rewrite /s mulr_sumr; apply: eq_bigr => f _; rewrite lower_glue // -dotvZr; congr (dotv _ _).
    have z0 : num_flux H tau zero 0 (fun=> 0) f = 0.
      by rewrite /num_flux !mulmx0 !scaler0 addr0 subr0 big1 // => d _; rewrite scaler0.
    rewrite -[RHS]addr0 -[X in _ = _ + X]z0 -flux_lin.
    apply: flux_ext => [d||]; rewrite ?er ?addr0 //.
    by rewrite upper_glue // es.
  by ring.
pose t := - s / (k + 1).
have k1 : 0 < k + 1 by rewrite ltr_spaddr ?ltr01.
have t0 : 0 < t by rewrite divr_gt0 ?oppr_gt0.
have tk : t * k <= - s.
  by rewrite /t mulrAC ler_pdivr_mulr // ler_wpmul2l ?oppr_ge0 ?ltW // ltr_addl ltr01.
exists (x t), (x (-1)); split; first by split.
move=> out out' ho ho'; have [y hy ey] := form t out ho; have [y' hy' ey'] := form (-1) out' ho'.
exists y, y'; split => //.
  have -> : pair (x t) y = t * (2%:R * s + t * k) by rewrite ey; ring.
  rewrite pmulr_rlt0 //; apply: le_lt_trans (_ : s < 0) => //.
  by rewrite mulr_natl mulr2n -addrA ger_addl -ler_subr_addl sub0r.
rewrite ey' mulrN1 mulNr sqrrN expr1n mul1r ltr_spaddl // oppr_gt0 pmulr_rlt0 ?ltr0n //.
Qed.
End Bilaplacian.
