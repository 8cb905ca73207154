(** Proofs for P_TimeDrivers: the driver of AdvectionParab. *)
From mathcomp Require Import all_ssreflect all_algebra.
From Verif Require Import M_Base L_Base M_Lapack S_Lapack M_Global S_Global L_Global L_Global2 L_Global3 L_Global4.
From Verif Require Import S_Hdg L_Hdg S_Tpp L_Poly M_DiffusionUniform M_Diffusion S_LocalSolver S_Diffusion S_GlobalParab L_GlobalUniform L_GlobalMasked.
From Verif Require Import M_AdvectionParab S_AdvectionParab L_AdvectionParab2 L_AdvectionParab3 S_GlobalAdvection L_GlobalAdvection L_GlobalEigs.
From Verif Require Import L_AdvectionEx M_Drivers M_TimeDrivers S_TimeDrivers L_TimeDrivers.
Set Implicit Arguments. Unset Strict Implicit. Unset Printing Implicit Defensive.
Import Order.TTheory GRing.Theory Num.Theory.
Local Open Scope ring_scope.

Lemma same_adv_flux (F : realFieldType) gesv dim p dirs outs bnds (tau theta dt : F) A B S : same_wind A B ->
  ap_trace_to_flux gesv dim p dirs outs bnds tau theta dt A S = ap_trace_to_flux gesv dim p dirs outs bnds tau theta dt B S.
Proof.
case: A => [a1 a2 a3 a4 a5 a6 a7 a8 a9 a10 a11 a12 a13 a14 a15 a16 a17 a18 a19].
case: B => [b1 b2 b3 b4 b5 b6 b7 b8 b9 b10 b11 b12 b13 b14 b15 b16 b17 b18 b19].
by case=> -[/= -> -> -> -> ->] [-> -> -> -> ->] -> -> ->.
Qed.

Section Driver.
Variables (F : realFieldType) (gesv : nat -> nat -> seq F -> seq F -> sv_result F).
Variables (dim p : nat) (dirs outs bnds : seq nat) (tau theta dt : F).
Variables (nodes : seq (seq nat)) (n_nodes : nat) (junk : seq (seq F)) (fin fout : nat -> bool).
Variables (P : F -> nat -> ap_data F) (W : F -> nat -> upwind_data F).
Notation nb := ((p + 1) ^ (dim - 1))%N.
Notation nf := (nb * (p + 1))%N.
Notation N := (n_nodes * nb)%N.
Notation m := (2 * dim)%N.
Hypotheses (hW : forall t i, upwind_contract dim nb nf (W t i) (P t i)) (hg : gesv_correct gesv).
Hypotheses (tau0 : tau = 0) (th0 : 0 < theta) (dt0 : 0 < dt).
Hypotheses (hv : valid_graph dim n_nodes (indexed nodes)) (hj : size junk = m).
Hypothesis (hc : forall t, adv_classes dim dirs outs bnds nodes fin fout (P t)).
Hypothesis (hs : forall t i, same_wind (P t i) (P 0 i)).
Notation fx := (fun v => fin v || fout v).
Notation mk t := (fun e k => inflow_face dirs bnds (P t e) k || outflow_face outs bnds (P t e) k).
Notation flux := (fun t => glob_adv_op gesv dim p dirs outs bnds tau theta dt nodes n_nodes junk (P t)).
Notation residual := (fun t => glob_adv_res gesv dim p dirs outs bnds tau theta dt nodes n_nodes junk (P t)).
Notation set := (fun t d x => glob_adv_set gesv dim p dirs outs bnds tau theta dt nodes junk (P t) x d).
Notation step t := (adv_time_step gesv dim p dirs outs bnds tau theta dt nodes n_nodes junk fin (P t)).
Notation ready t := (adv_ready dim p outs bnds theta (P t)).
Variable solve : (seq F -> outcome (seq F)) -> seq F -> outcome (seq F).
Hypothesis hk : krylov solve.
Implicit Types data : seq (ap_state F).
Let nb0 : (0 < nb)%N. Proof. by rewrite expn_gt0 addn1. Qed.

Lemma adv_flux_time t data x : flux t data x = flux 0 data x.
Proof.
rewrite /glob_adv_op /elliptic_flux /mat_vec; congr obind; congr omap; apply: foldo_ext => e _ [[ax old] new].
case: (gather _ _ _ _ _) => //= on; by rewrite /adv_op (same_adv_flux _ _ _ _ _ _ _ _ _ _ (hs t e.2)).
Qed.
Lemma adv_flux_off data v w d : size v = N -> flux 0 data v = Ok w -> (d < N)%N -> fx (d %/ nb)%N -> nth 0 w d = 0.
Proof.
move=> sv.
have [z [hz sz ez]] := elliptic_fluxE (phi_computes (@af_ok F gesv dim p dirs outs bnds tau theta dt (P 0) (W 0) (hW 0) hg tau0 th0 dt0 data)) hv hj sv (isT : all _ [::]).
rewrite /glob_adv_op hz => -[<-] hd hn; rewrite ez in_nil.
rewrite (masked_op (mk := mk 0) nb0 (fx := fx) (@mask_nodes F dim dirs outs bnds nodes fin fout (P 0) (hc 0)) _ _
  (@af_mask F gesv dim p dirs outs bnds tau theta dt (P 0) (W 0) (hW 0) hg tau0 th0 dt0 data)).
by rewrite hn.
Qed.
Lemma adv_driver_step t data x r : ready t data -> residual t data (nseq N 0) = Ok r -> flux 0 data x = Ok [seq - a | a <- r] -> size x = size r ->
  (forall i, nth 0 r i = 0 -> (forall v w, size v = size r -> flux 0 data v = Ok w -> nth 0 w i = 0) -> nth 0 x i = 0) ->
  [/\ size x = N, adv_free dim p n_nodes fin x, out_free dim p n_nodes fout x & residual t data x = Ok (nseq N 0)].
Proof.
move=> rd hr hf sx h0.
have aux x' : size x' = N -> exists r0, [/\ residual t data (nseq N 0) = Ok r0, size r0 = N, moff nb n_nodes fx r0 &
    residual t data x' = Ok (nseq N 0) <-> flux t data x' = Ok [seq - a | a <- r0]].
  move=> sx'; have := masked_resP (mk := mk t)
    (@af_ok F gesv dim p dirs outs bnds tau theta dt (P t) (W t) (hW t) hg tau0 th0 dt0 data)
    (@ag_ok F gesv dim p dirs outs bnds tau theta dt (P t) (W t) (hW t) hg tau0 th0 dt0 data)
    (@af_mask F gesv dim p dirs outs bnds tau theta dt (P t) (W t) (hW t) hg tau0 th0 dt0 data)
    (@ag_mask F gesv dim p dirs outs bnds tau theta dt (P t) (W t) (hW t) hg tau0 th0 dt0 data rd)
    (@af_linear F gesv dim p dirs outs bnds tau theta dt (P t) (W t) (hW t) hg tau0 th0 dt0 data)
    (@ag_affine F gesv dim p dirs outs bnds tau theta dt (P t) (W t) (hW t) hg tau0 th0 dt0 data) nb0 (fx := fx) hv hj
    (@mask_nodes F dim dirs outs bnds nodes fin fout (P t) (hc t)) sx'; exact.
have [r1 [a1 a2 a3 _]] := aux (nseq N 0) (size_nseq N 0).
have er : r1 = r by move: a1; rewrite hr => -[].
rewrite {r1}er in a1 a2 a3; rewrite a2 in sx h0.
have off d : (d < N)%N -> fx (d %/ nb)%N -> nth 0 x d = 0.
  move=> hd hn; apply: h0; first exact: a3.
  by move=> v w sv hw; exact: adv_flux_off sv hw hd hn.
split=> //; [by move=> d hd hn; apply: off; rewrite ?hn | by move=> d hd hn; apply: off; rewrite ?hn ?orbT |].
have [r2 [b1 _ _ b2]] := aux x sx; apply/b2; rewrite adv_flux_time hf.
by move: b1; rewrite hr => -[->].
Qed.
(** The loop makes steps of the scheme. *)
Lemma adv_driver_run n x0 d0 x d : adv_states_ok dim p nodes d0 -> ready dt d0 ->
  loop_after N dt flux residual set solve n (x0, d0) = Ok (x, d) ->
  exists xs ds, [/\ xs 0%N = x0, ds 0%N = d0, xs n = x, ds n = d &
    forall k, (k < n)%N -> step (k.+1%:R * dt) (ds k) (xs k.+1) (ds k.+1) /\ out_free dim p n_nodes fout (xs k.+1)].
Proof.
move=> ok0 rd0 hl; have [xs [ds [[h1 h2 h3 h4 h5] hss]]] := afterP hk hl; exists xs, ds; split=> //.
have main k : (k <= n)%N -> adv_states_ok dim p nodes (ds k) /\ ready (k.+1%:R * dt) (ds k) /\
    forall k', (k' < k)%N -> step (k'.+1%:R * dt) (ds k') (xs k'.+1) (ds k'.+1) /\ out_free dim p n_nodes fout (xs k'.+1).
  elim: k => [_|k IH hk1]; first by rewrite h3 mul1r.
  have [ok [rd IH']] := IH (ltnW hk1).
  have [r [r1 r2 r3 r4]] := sstepP hk (hss k hk1); have [r' [_ _ r5]] := h1 k hk1.
  have [s1 s2 s3 s4] := adv_driver_step rd r1 r2 r3 r4.
  have st : step (k.+1%:R * dt) (ds k) (xs k.+1) (ds k.+1) by split.
  have se := adv_step_settled (hW (k.+1%:R * dt)) hg tau0 th0 dt0 hv hj (hc _) ok st.
  split; [exact: adv_settled_ok se | split].
    exact: (adv_settled_ready theta tau0 (hc _) (hc _) se).
  by move=> k'; rewrite ltnS leq_eqVlt => /orP[/eqP->|]; [split | exact: IH'].
by move=> k hk1; have [_ [_ hm]] := main n (leqnn n); exact: hm.
Qed.
(** Without sources and inflow the norm does not grow. *)
Lemma adv_energy_time t data : adv_energy dim p nodes (P t) data = adv_energy dim p nodes (P 0) data.
Proof. by apply: eq_bigr => i _; have [_ _ _ _ ->] := hs t i. Qed.
Lemma adv_driver_stable n x0 d0 x d : theta = 1 -> (forall t, wind_conserved dim p nodes n_nodes fin fout (W t)) ->
  (forall t, wind_leaves dim nodes fin fout (W t)) -> (forall t, adv_zero_data dim p nodes (P t)) -> adv_states_ok dim p nodes d0 ->
  loop_after N dt flux residual set solve n (x0, d0) = Ok (x, d) ->
  adv_energy dim p nodes (P 0) d <= adv_energy dim p nodes (P 0) d0.
Proof.
move=> th1 wc wl zd ok0 hl.
have [xs [ds [h1 h2 h3 h4 hst]]] := adv_driver_run ok0 (@adv_euler_ready _ _ _ _ _ _ _ _ th1) hl; rewrite -h4 -h2.
suff main : forall k, (k <= n)%N -> adv_states_ok dim p nodes (ds k) /\
    adv_energy dim p nodes (P 0) (ds k) <= adv_energy dim p nodes (P 0) (ds 0%N) by have [] := main n (leqnn n).
elim=> [|k IH] hk1; first by rewrite h2.
have [ok le] := IH (ltnW hk1); have [st _] := hst k hk1; split.
  exact: adv_settled_ok (adv_step_settled (hW _) hg tau0 th0 dt0 hv hj (hc _) ok st).
apply: le_trans le; rewrite -(adv_energy_time (k.+1%:R * dt)) -[X in _ <= X](adv_energy_time (k.+1%:R * dt)).
exact: (adv_stable_euler (hW _) hg tau0 th0 dt0 hv hj (hc _) (wc _) (wl _) (zd _) th1 ok st).
Qed.
(** The errors that are reported are those of the function of the last step. *)
Lemma adv_driver_errors n x0 d0 x d : adv_states_ok dim p nodes d0 -> ready dt d0 ->
  loop_after N dt flux residual set solve n.+1 (x0, d0) = Ok (x, d) ->
  exists x1 d1, loop_after N dt flux residual set solve n (x0, d0) = Ok (x1, d1) /\
  forall i, (i < size nodes)%N -> exists u : 'cV[F]_nf,
    adv_step dim nb dirs bnds tau theta dt (P (n.+1%:R * dt) i) (nth (ap_state0 F dim p) d1 i) (local_dofs dim p nodes x i) u /\
    forall t lam, ap_errors (P t i) (nth (ap_state0 F dim p) d i) lam = [:: ap_diffsq (P t i) (coeffs_of u)].
Proof.
move=> ok0 rd0 hl; move: (hl); rewrite /loop_after foroS -/(loop_after N dt flux residual set solve n (x0, d0)).
case e: (loop_after N dt flux residual set solve n (x0, d0)) => [[x1 d1]| | |] //=.
case e1: (solve_step _ _ _ _ _ _ _) => [x2| | |] //=; case e2: (glob_adv_set _ _ _ _ _ _ _ _ _ _ _ _ _ _) => [d2| | |] //= [ex ed].
exists x1, d1; split=> //.
have [xs [ds [h1 h2 h3 h4 hst]]] := adv_driver_run ok0 rd0 e.
have main k : (k <= n)%N -> adv_states_ok dim p nodes (ds k) /\ ready (k.+1%:R * dt) (ds k).
  elim: k => [_|k IH hk1]; first by rewrite h2 mul1r.
  have [ok _] := IH (ltnW hk1); have [st _] := hst k hk1.
  have se := adv_step_settled (hW (k.+1%:R * dt)) hg tau0 th0 dt0 hv hj (hc _) ok st.
  by split; [exact: adv_settled_ok se | exact: (adv_settled_ready theta tau0 (hc _) (hc _) se)].
have [] := main n (leqnn n); rewrite h4 => ok1 rd1.
have [r [r1 r2 r3 r4]] := sstepP hk e1; have [s1 s2 _ _] := adv_driver_step rd1 r1 r2 r3 r4.
have [d3 [g1 g2 g3]] := adv_glob_step (hW (n.+1%:R * dt)) hg tau0 th0 dt0 hv hj (hc _) s1 s2 ok1.
have {g1} ed3 : d3 = d by move: g1; rewrite e2 => -[<-].
move=> i hi; have [u [a1 [[b1 _ _] b3 _ _]]] := g3 i hi; exists u; rewrite -ex; split=> // t lam.
by rewrite /ap_errors -b3 -ed3 coeffs_col.
Qed.
(** make_initial gives data from which the loop can start. *)
Lemma adv_start d0 : size d0 = size nodes ->
  (forall i, (i < size nodes)%N -> exists S x, [/\ is_trace m nb x, adv_state_ok dim nb nf S &
    nth (ap_state0 F dim p) d0 i = (ap_make_initial dim p dirs outs bnds tau (P 0 i) S x).2]) ->
  adv_states_ok dim p nodes d0 /\ ready dt d0.
Proof.
move=> sd h.
have aux i : (i < size nodes)%N -> exists x (u : 'cV[F]_nf), adv_stored dim nb dirs outs bnds tau (P 0 i) x u (nth (ap_state0 F dim p) d0 i).
  move=> hi; have [S [x [hx hS ->]]] := h i hi; have [_ _ _ hst] := adv_initial dirs outs bnds tau (P 0 i) hx hS.
  by exists (ap_make_initial dim p dirs outs bnds tau (P 0 i) S x).1, (col_of nf (ap_init_phi (P 0 i))).
split; first by split=> // i /aux [x [u []]].
move=> i k ho; case: (ltnP i (size nodes)) => hi; last first.
  by rewrite nth_default ?sd //; apply/colP => j; rewrite !mxE /ap_state0 /= /M_DenseLA.mget nth_nseq if_same mulr0.
have [x [u [_ _ _ ->]]] := aux i hi; rewrite outflow_flux ?scaler0 //.
by have [_ ->] := hc 0 hi (ltn_ord k); have [_ <-] := hc dt hi (ltn_ord k).
Qed.
End Driver.

(** The row of C92 with a source that depends on time. *)
Definition with_src (F : Type) (P : ap_data F) (src : nat -> F) : ap_data F :=
  ApData (ap_types P) (ap_wind P) (ap_vol P) (ap_adv P) (ap_bbn P) (ap_bb P) (ap_bpn P) (ap_bp P) (ap_pbn P) (ap_pb P)
    (ap_ppn P) (ap_pp P) src (ap_dirval P) (ap_area P) (ap_init_psi P) (ap_init_phi P) (ap_diffsq P) (ap_eval P).
Lemma adv_source_example (F : rcfType) p n (src : F -> nat -> F) : (0 < n)%N -> exists (P : F -> nat -> ap_data F) W, forall t,
  [/\ valid_graph 1 n.+1 (indexed (adv_row n)), adv_classes 1 [:: 1%N] [:: 2%N] [::] (adv_row n) (fun v => v == 0%N) (fun v => v == n) (P t),
      forall i, [/\ upwind_contract 1 ((p + 1) ^ (1 - 1)) ((p + 1) ^ (1 - 1) * (p + 1)) (W i) (P t i), ap_src (P t i) = src t & same_wind (P t i) (P 0 i)],
      wind_conserved 1 p (adv_row n) n.+1 (fun v => v == 0%N) (fun v => v == n) W & wind_leaves 1 (adv_row n) (fun v => v == 0%N) (fun v => v == n) W].
Proof.
move=> n0; have [b] := @orthonormal_exists F p; rewrite -addn1 => hb.
have [h1 h2 h3 h4 [h5 h6 h7]] := adv_row_ok n0 hb.
exists (fun t i => with_src (adv_row_data p n b i) (src t)), (adv_row_wind p b) => t; split=> // i; split=> //; exact: (h2 i).
Qed.
