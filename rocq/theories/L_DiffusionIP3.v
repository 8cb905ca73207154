(** The fluxes of DiffusionIP: stability, conservation, affine functions, symmetry. *)
From mathcomp Require Import all_ssreflect all_algebra zify ring.
From Verif Require Import M_Base L_Base M_Lapack S_Lapack M_DiffusionUniform S_Hdg S_Tpp S_LocalSolver S_Diffusion S_TppGeo S_Gradient.
From Verif Require Import L_Hdg L_HdgSrc L_LocalBase L_LocalLink L_DiffusionUniform L_DiffusionUniform2 L_Diffusion2.
From Verif Require Import S_DiffusionEigs M_DiffusionIP S_DiffusionIP L_DiffusionIP L_DiffusionIP2 L_IpGeo L_IpEnergy L_IpConsist.
Set Implicit Arguments. Unset Strict Implicit. Unset Printing Implicit Defensive.
Import Order.TTheory GRing.Theory Num.Theory.
Local Open Scope ring_scope.

Section IP.
Variable F : realFieldType.
Variables (gesv : nat -> nat -> seq F -> seq F -> sv_result F).
Variables (dim p : nat) (dirs : seq nat) (tau : F) (P : ip_data F) (t : F).
Hypotheses (dim0 : (0 < dim)%N) (hg : gesv_correct gesv).
Notation nf := ((p + 1) ^ dim)%N.
Notation nb := ((p + 1) ^ (dim - 1))%N.
Notation is_tr := (is_trace (2 * dim) nb).
Notation zt := (zero_trace F (2 * dim) nb).
Notation mask := (ip_mask dirs P).
Notation fof := (ip_flux_of dim p dirs tau P).
Notation ttf x out := (ip_trace_to_flux gesv dim p dirs tau P x out t).
Notation rsf x out := (ip_residual_flux gesv dim p dirs tau P x out t).
Notation pair := (pairing (2 * dim) nb).
Notation one := (cube_one F dim p).
Notation e := (unit_vec F nb).
Implicit Types (x y out : seq (seq F)) (u r : 'cV[F]_nf).
Let nb0 : (0 < nb)%N. Proof. by rewrite expn_gt0 addn1. Qed.
Let nf0 : (0 < nf)%N. Proof. by rewrite expn_gt0 addn1. Qed.

Lemma ip_okF ok : @ip_integrals F dim p ok P t -> ip_ok dim p P t.
Proof. by move=> [b [Q [xs [ws [cv [cb [g [h1 h2 h3 h4 [h5 _]]]]]]]]]; exists b, Q, xs, ws, cv, cb, g; split. Qed.
Lemma ip_stable_regular : ip_stable dim p tau P t -> ip_regular dim p tau P t.
Proof. by move=> [tau0 /(ip_factsP dim0) hF [C hC hCt]]; exact: (ip_reg dim0 hF tau0 hC hCt). Qed.
Lemma ip_stable_large : ip_ok dim p P t -> exists2 C, 0 <= C & forall tau', C < tau' -> ip_stable dim p tau' P t.
Proof.
move=> hok; have [C C0 hC] := ip_bound_exists (ip_factsP dim0 hok); exists C => // tau' h.
have t0 : 0 < tau' := le_lt_trans C0 h; split => //; exists C => //; apply: lt_le_trans h _.
by rewrite -{1}[tau']mul1r ler_pmul2r // ler1n.
Qed.
Lemma tr_all x c : is_tr x -> (forall f : 'I_(2 * dim), tr nb x f = c *: e) -> x = const_trace c (2 * dim) nb.
Proof. by move=> hx h; apply: trace_ext hx (const_is_trace _ _ c) _ => f; rewrite h tr_const. Qed.
Lemma ip_pairE x y (z : 'I_(2 * dim) -> 'cV[F]_nb) : vanishes mask (2 * dim) nb x ->
  (forall f : 'I_(2 * dim), tr nb y f = if mask f then 0 else z f) -> pair x y = \sum_f dotv (tr nb x f) (z f).
Proof.
move=> hx hy; rewrite pairing_dotv; apply: eq_bigr => f _; rewrite hy; case: ifP => hm //.
have -> : tr nb x f = 0 by apply/colP => j; rewrite !mxE hx.
by rewrite !dotv0l.
Qed.
Lemma ip_stableP x out : ip_stable dim p tau P t -> is_tr x -> is_tr out -> vanishes mask (2 * dim) nb x ->
  exists2 y, ttf x out = Ok y & pair x y <= 0 /\ (pair x y = 0 -> exists c, x = const_trace c (2 * dim) nb).
Proof.
move=> hs hx ho ox; have hr := ip_stable_regular hs.
case: hs => tau0 /(ip_factsP dim0) hF [C hC hCt].
have [y [u [hy h1 [_ f1]]]] := ip_fluxP dirs dim0 hg hr hx ho; exists y => //; rewrite (ip_pairE ox f1).
split; first exact: (ip_dissipative hF tau0 hC hCt h1).
move=> h0; have [|c _ hc] := ip_definite hF tau0 hC hCt h1; first by rewrite h0.
by exists c; exact: tr_all.
Qed.
(** The work of the traces. *)
Lemma ip_energyP x out : ip_ok dim p P t -> ip_regular dim p tau P t -> is_tr x -> is_tr out -> vanishes mask (2 * dim) nb x ->
  exists y u, [/\ ttf x out = Ok y, ip_loc dim p tau P t u (tr nb x) 0 &
    pair x y = - dotv u (ip_S dim p P t *m u) + \sum_(f < 2 * dim)
      (dotv (ip_trace dim p P u f - tr nb x f) (ip_G dim p P f *m u)
       - tau * ip_area P f * dotv (ip_trace dim p P u f - tr nb x f) (ip_trace dim p P u f - tr nb x f))].
Proof.
move=> /(ip_factsP dim0) hF hr hx ho ox.
have [y [u [hy h1 [_ f1]]]] := ip_fluxP dirs dim0 hg hr hx ho; exists y, u; split=> //.
by rewrite (ip_pairE ox f1) (ip_energy hF h1).
Qed.

(** ** Conservation *)
Hypothesis hreg : ip_regular dim p tau P t.
Hypothesis hok : ip_ok dim p P t.
Let hF : ip_facts dim p P t := ip_factsP dim0 hok.
Lemma one_dot r : dotv one r = r (Ordinal nf0) 0.
Proof.
rewrite /dotv (sum_ord1 (i := Ordinal nf0)) => [|i hi]; first by rewrite [one _ _]mxE eqxx mul1r.
by rewrite [one _ _]mxE (negbTE hi) mul0r.
Qed.
Lemma e_dotE (v : 'cV[F]_nb) : dotv e v = v (Ordinal nb0) 0.
Proof.
rewrite /dotv (sum_ord1 (i := Ordinal nb0)) => [|i hi]; first by rewrite [e _ _]mxE eqxx mul1r.
by rewrite [e _ _]mxE (negbTE hi) mul0r.
Qed.
Lemma sum_first y (z : 'I_(2 * dim) -> 'cV[F]_nb) : (forall f, (f < 2 * dim)%N -> ~~ mask f) ->
  (forall f : 'I_(2 * dim), tr nb y f = if mask f then 0 else z f) ->
  \sum_(f < 2 * dim) nth 0 (nth [::] y f) 0 = \sum_f dotv e (z f).
Proof.
move=> hm hy; apply: eq_bigr => f _; rewrite e_dotE.
by have /colP/(_ (Ordinal nb0)) := hy f; rewrite (negbTE (hm _ (ltn_ord f))) => <-; rewrite mxE.
Qed.
Lemma ip_conserveP x out : is_tr x -> is_tr out -> (forall f, (f < 2 * dim)%N -> ~~ mask f) ->
  exists2 y, ttf x out = Ok y & \sum_(f < 2 * dim) nth 0 (nth [::] y f) 0 = 0.
Proof.
move=> hx ho hm; have [y [u [hy h1 [_ f1]]]] := ip_fluxP dirs dim0 hg hreg hx ho; exists y => //.
by rewrite (sum_first hm f1) (ip_conserve hF h1) dotv0r.
Qed.
Lemma ip_balanceP x out : is_tr x -> is_tr out -> (forall f, (f < 2 * dim)%N -> ~~ mask f) ->
  exists2 y, rsf x out = Ok y & \sum_(f < 2 * dim) nth 0 (nth [::] y f) 0 = ip_src P t 0.
Proof.
move=> hx ho hm; have [y [u [hy h1 [_ f1]]]] := ip_residualP dirs dim0 hg hreg hx ho; exists y => //.
rewrite (sum_first hm f1) (ip_conserve hF h1) one_dot mxE big1 ?mulr0 ?addr0 // => f hf.
by rewrite (negbTE (hm _ (ltn_ord f))) in hf.
Qed.
(** With Dirichlet faces: the numerical flux there takes the place of the flux written. *)
Lemma ip_balance_dir x out : is_tr x -> is_tr out -> exists y u, [/\ rsf x out = Ok y,
  ip_loc dim p tau P t u (tr nb x) (ip_rhs dim p dirs tau P t) &
  \sum_(f < 2 * dim | ~~ mask f) nth 0 (nth [::] y f) 0
  + \sum_(f < 2 * dim | mask f) (ip_num_flux dim p tau P u (tr nb x) f (Ordinal nb0) 0 - tau * ip_dirval P t 0 f) = ip_src P t 0].
Proof.
move=> hx ho; have [y [u [hy h1 [_ f1]]]] := ip_residualP dirs dim0 hg hreg hx ho; exists y, u; split=> //.
have := ip_conserve hF h1; rewrite one_dot mxE (bigID (fun f : 'I_(2 * dim) => mask f)) /= => h.
rewrite sumrB -mulr_sumr; apply: (addIr (tau * (\sum_(f < 2 * dim | mask f) ip_dirval P t 0 f))).
rewrite -[RHS]h addrA subrK addrC; congr (_ + _); first by apply: eq_bigr => f _; rewrite e_dotE.
apply: eq_bigr => f hf; rewrite e_dotE; have /colP/(_ (Ordinal nb0)) := f1 f.
by rewrite (negbTE hf) => <-; rewrite mxE.
Qed.
Lemma ip_constantP c out : is_tr out -> ttf (const_trace c (2 * dim) nb) out = Ok zt.
Proof.
move=> ho; have [y [u [hy h1 [sy f1]]]] := ip_fluxP dirs dim0 hg hreg (const_is_trace dim p c) ho.
have [h2 hf] := ip_const tau hF c; rewrite hy; congr Ok; apply: trace_ext sy (ipzt_tr _ _ _) _ => f.
have hx (k : 'I_(2 * dim)) : tr nb (const_trace c (2 * dim) nb) k = c *: e by rewrite tr_const.
have eu : u = c *: one by apply: (ip_unique hreg h1); apply: (iploc_ext _ (erefl (0 : 'cV[F]_nf)) h2) => k; rewrite hx.
rewrite f1 tr_zerob eu; case: ifP => // _; rewrite -[RHS](hf f) /ip_num_flux; by rewrite hx.
Qed.
End IP.
