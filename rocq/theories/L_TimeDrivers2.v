(** Proofs for P_TimeDrivers: the driver of DiffusionParab. *)
From mathcomp Require Import all_ssreflect all_algebra.
From Verif Require Import M_Base L_Base M_Lapack S_Lapack M_Global S_Global L_Global L_Global2 L_Global3 L_Global4.
From Verif Require Import S_Hdg L_Hdg S_Tpp M_DiffusionUniform M_Diffusion S_LocalSolver S_Diffusion S_TppGeo.
From Verif Require Import L_HdgSrc L_LocalBase L_LocalLink L_DiffusionUniform2 L_Diffusion2 L_GlobalUniform L_GlobalMasked.
From Verif Require Import M_DiffusionParab S_DiffusionParab S_GlobalParab L_DiffusionParab2 L_DiffusionParab3 L_GlobalParab L_GlobalEigs.
From Verif Require Import M_Bilaplacian S_Bilaplacian M_BilapParab S_BilapParab L_Bilaplacian6.
From Verif Require Import L_ParabEx M_Drivers M_TimeDrivers S_TimeDrivers L_TimeDrivers.
Set Implicit Arguments. Unset Strict Implicit. Unset Printing Implicit Defensive.
Import Order.TTheory GRing.Theory Num.Theory.
Local Open Scope ring_scope.

Lemma same_flux (F : realFieldType) gesv dim p dirs (tau theta dt : F) A B S : same_operator A B ->
  dp_trace_to_flux gesv dim p dirs tau theta dt A S = dp_trace_to_flux gesv dim p dirs tau theta dt B S.
Proof.
case: A => [[a1 a2 a3 a4 a5 a6 a7 a8 a9 a10 a11 a12 a13] a14 a15 a16 a17 a18].
case: B => [[b1 b2 b3 b4 b5 b6 b7 b8 b9 b10 b11 b12 b13] b14 b15 b16 b17 b18].
by case=> -[/= -> -> -> -> ->] -> -> -> ->.
Qed.

Section Driver.
Variables (F : realFieldType) (gesv : nat -> nat -> seq F -> seq F -> sv_result F).
Variables (dim p : nat) (dirs : seq nat) (tau theta dt : F).
Variables (nodes : seq (seq nat)) (n_nodes : nat) (nt : nat -> nat) (junk : seq (seq F)).
Variables (P : F -> nat -> dp_data F).
Hypotheses (dim0 : (0 < dim)%N) (hP : forall t i, parab_data dim p (P t i)) (hg : gesv_correct gesv).
Hypotheses (tau0 : 0 < tau) (th0 : 0 < theta) (dt0 : 0 < dt).
Hypotheses (hv : valid_graph dim n_nodes (indexed nodes)) (hj : size junk = (2 * dim)%N).
Hypothesis (ht : forall t, face_types dim nodes nt (P t)).
Hypothesis (hs : forall t i, same_operator (P t i) (P 0 i)).
Notation nb := ((p + 1) ^ (dim - 1))%N.
Notation N := (n_nodes * nb)%N.
Notation m := (2 * dim)%N.
Notation fx := (fun v => nt v \in dirs).
Notation st0 := (dp_state0 F dim p).
Notation flux := (fun t => glob_op gesv dim p dirs tau theta dt nodes n_nodes junk (P t)).
Notation residual := (fun t => glob_res gesv dim p dirs tau theta dt nodes n_nodes junk (P t)).
Notation set := (fun t d x => glob_set gesv dim p dirs tau theta dt nodes junk (P t) x d).
Notation step t := (time_step gesv dim p dirs tau theta dt nodes n_nodes nt junk (P t)).
Variable solve : (seq F -> outcome (seq F)) -> seq F -> outcome (seq F).
Hypothesis hk : krylov solve.
Implicit Types data : seq (dp_state F).
Let nb0 : (0 < nb)%N := nbp dim p.

Lemma flux_time t data x : flux t data x = flux 0 data x.
Proof.
rewrite /glob_op /elliptic_flux /mat_vec; congr obind; congr omap; apply: foldo_ext => e _ [[ax old] new].
case: (gather _ _ _ _ _) => //= on; by rewrite /parab_op (same_flux _ _ _ _ _ _ _ _ (hs t e.2)).
Qed.
Lemma flux_off data v w d : size v = N -> flux 0 data v = Ok w -> (d < N)%N -> nt (d %/ nb)%N \in dirs -> nth 0 w d = 0.
Proof.
move=> sv; have fok := @f_ok F gesv dim p tau theta dt (P 0) dim0 (hP 0) hg tau0 th0 dt0 dirs data.
have [z [hz sz ez]] := elliptic_fluxE (phi_computes fok) hv hj sv (isT : all _ [::]).
rewrite /glob_op hz => -[<-] hd hn; rewrite ez in_nil.
have fm := @f_mask F gesv dim p dirs tau theta dt (P 0) dim0 (hP 0) hg tau0 th0 dt0 data.
have mn := @mask_node F dim dirs nodes nt (P 0) (ht 0).
rewrite (masked_op (mk := fun e => dp_mask dirs (P 0 e)) nb0 (fx := fx) mn _ _ fm).
by rewrite hn.
Qed.
Lemma driver_step t data x r : residual t data (nseq N 0) = Ok r -> flux 0 data x = Ok [seq - a | a <- r] -> size x = size r ->
  (forall i, nth 0 r i = 0 -> (forall v w, size v = size r -> flux 0 data v = Ok w -> nth 0 w i = 0) -> nth 0 x i = 0) ->
  [/\ size x = N, dir_free dim p dirs n_nodes nt x & residual t data x = Ok (nseq N 0)].
Proof.
move=> hr hf sx h0.
have aux x' : size x' = N -> exists r0, [/\ residual t data (nseq N 0) = Ok r0, size r0 = N, dir_free dim p dirs n_nodes nt r0 &
    residual t data x' = Ok (nseq N 0) <-> flux t data x' = Ok [seq - a | a <- r0]].
  move=> sx'; have := masked_resP (mk := fun e => dp_mask dirs (P t e))
    (@f_ok F gesv dim p tau theta dt (P t) dim0 (hP t) hg tau0 th0 dt0 dirs data)
    (@g_ok F gesv dim p dirs tau theta dt (P t) dim0 (hP t) hg tau0 th0 dt0 data)
    (@f_mask F gesv dim p dirs tau theta dt (P t) dim0 (hP t) hg tau0 th0 dt0 data)
    (@g_mask F gesv dim p dirs tau theta dt (P t) dim0 (hP t) hg tau0 th0 dt0 data)
    (@f_linear F gesv dim p tau theta dt (P t) dim0 (hP t) hg tau0 th0 dt0 [::] data)
    (@g_affine F gesv dim p dirs tau theta dt (P t) dim0 (hP t) hg tau0 th0 dt0 data) nb0 (fx := fx) hv hj
    (@mask_node F dim dirs nodes nt (P t) (ht t)) sx'; exact.
have [r1 [a1 a2 a3 _]] := aux (nseq N 0) (size_nseq N 0).
have er : r1 = r by move: a1; rewrite hr => -[].
rewrite {r1}er in a1 a2 a3; rewrite a2 in sx h0; split=> //.
  move=> d hd hn; apply: h0; first exact: a3.
  by move=> v w sv hw; exact: flux_off sv hw hd hn.
have [r2 [b1 _ _ b2]] := aux x sx; apply/b2; rewrite flux_time hf.
by move: b1; rewrite hr => -[->].
Qed.
(** The loop makes steps of the scheme. *)
Lemma driver_run n x0 d0 x d : loop_after N dt flux residual set solve n (x0, d0) = Ok (x, d) ->
  exists xs ds, [/\ xs 0%N = x0, ds 0%N = d0, xs n = x, ds n = d &
    forall k, (k < n)%N -> step (k.+1%:R * dt) (ds k) (xs k.+1) (ds k.+1)].
Proof.
move=> hl; have [xs [ds [[h1 h2 h3 h4 h5] hss]]] := afterP hk hl; exists xs, ds; split=> // k hk1.
have [r [r1 r2 r3 r4]] := sstepP hk (hss k hk1); have [r' [_ _ r5]] := h1 k hk1.
by have [s1 s2 s3] := driver_step r1 r2 r3 r4; split.
Qed.
Lemma energy_time t data : energy dim p nodes (P t) data = energy dim p nodes (P 0) data.
Proof. by rewrite /energy; apply: eq_bigr => i _; have [_ _ _ _ ->] := hs t i. Qed.
Lemma run_ok n xs ds : states_ok dim p nodes (ds 0%N) -> (forall k, (k < n)%N -> step (k.+1%:R * dt) (ds k) (xs k.+1) (ds k.+1)) ->
  forall k, (k <= n)%N -> states_ok dim p nodes (ds k).
Proof.
move=> h0 hst; elim=> [//|k IH] hk1; have := hst k hk1 => h1.
exact: settled_ok (step_settled dim0 (hP _) hg tau0 th0 dt0 hv hj (IH (ltnW hk1)) h1).
Qed.
(** Without data the norm never grows; theta is 1 in the driver. *)
Lemma driver_stable n x0 d0 x d : theta = 1 -> (forall t, zero_data dim p nodes (P t)) -> states_ok dim p nodes d0 ->
  loop_after N dt flux residual set solve n (x0, d0) = Ok (x, d) ->
  energy dim p nodes (P 0) d <= energy dim p nodes (P 0) d0.
Proof.
move=> th1 zd ok0 hl; have [xs [ds [h1 h2 h3 h4 hst]]] := driver_run hl; rewrite -h4 -h2.
have ok : forall k, (k <= n)%N -> states_ok dim p nodes (ds k) by apply: (run_ok (xs := xs)); rewrite ?h2.
suff : forall k, (k <= n)%N -> energy dim p nodes (P 0) (ds k) <= energy dim p nodes (P 0) (ds 0%N) by apply.
elim=> [//|k IH] hk1; apply: le_trans (IH (ltnW hk1)).
rewrite -(energy_time (k.+1%:R * dt)) -[X in _ <= X](energy_time (k.+1%:R * dt)).
exact: (stable_euler dim0 (hP _) hg tau0 th0 dt0 hv hj (@ht _) (zd _) th1 (ok k (ltnW hk1)) (hst k hk1)).
Qed.
(** The errors that are reported are those of the function of the last step. *)
Lemma coeffs_vec k (v : seq F) : size v = k -> coeffs_of (vec_of k v) = v.
Proof.
move=> sv; apply: (@eq_from_nth _ 0) => [|i]; rewrite size_map size_enum_ord ?sv // => hi.
by rewrite (nth_map (Ordinal hi)) ?size_enum_ord // mxE nth_enum_ord.
Qed.
Lemma driver_errors n x0 d0 x d : states_ok dim p nodes d0 ->
  loop_after N dt flux residual set solve n.+1 (x0, d0) = Ok (x, d) ->
  exists x1 d1, loop_after N dt flux residual set solve n (x0, d0) = Ok (x1, d1) /\
  forall i, (i < size nodes)%N -> exists q u,
    step_of dim p dirs tau theta dt (P (n.+1%:R * dt) i) (nth st0 d1 i) (local_dofs dim p nodes x i) q u /\
    forall t lam, dp_errors (P t i) (nth st0 d i) lam = Ok [:: df_diffsq (dp_df (P t i)) (coeffs_of u)].
Proof.
move=> ok0 hl; move: (hl); rewrite /loop_after foroS -/(loop_after N dt flux residual set solve n (x0, d0)).
case e: (loop_after N dt flux residual set solve n (x0, d0)) => [[x1 d1]| | |] //=.
case e1: (solve_step _ _ _ _ _ _ _) => [x2| | |] //=; case e2: (glob_set _ _ _ _ _ _ _ _ _ _ _ _) => [d2| | |] //= [ex ed].
exists x1, d1; split=> //.
have [xs [ds [h1 h2 h3 h4 hst]]] := driver_run e.
have ok1 : states_ok dim p nodes d1 by rewrite -h4; apply: (run_ok (n := n) (xs := xs)); rewrite ?h2.
have [r [r1 r2 r3 r4]] := sstepP hk e1; have [s1 _ _] := driver_step r1 r2 r3 r4.
have [d3 [g1 g2 g3]] := glob_step dirs dim0 (hP (n.+1%:R * dt)) hg tau0 th0 dt0 hv hj s1 ok1.
have {g1} ed3 : d3 = d by move: g1; rewrite e2 => -[<-].
move=> i hi; have [q [u [a1 [[b1 _ _] b3 _ _]]]] := g3 i hi; exists q, u; rewrite -ex; split=> // t lam.
by rewrite /dp_errors -b3 -ed3 coeffs_vec.
Qed.
End Driver.

(** errors of BilaplacianParab shows what set_data would store. *)
Lemma bilap_errors (F : realFieldType) gesv dim p dirs laps (tau theta dt : F) (P : bp_data F) old x X : (0 < dim)%N ->
  bp_set_data gesv dim p dirs laps tau theta dt P x old = Ok X ->
  let e := df_diffsq (bl_df (bp_bl P)) (coeffs_of (bp_block dim p X dim)) in
  bp_errors gesv dim p dirs laps tau theta dt P old x = if 0 <= e then Ok [:: e] else Abort.
Proof. by move=> dim0 hX; rewrite /bp_errors; move: hX; rewrite /bp_set_data => -> /=; rewrite bl_u_coeffsE. Qed.

(** A solver that fulfils the contract: one unknown, division. *)
Section Scalar.
Variable F : realFieldType.
Definition scalar_solve (A : seq F -> outcome (seq F)) (b : seq F) : outcome (seq F) :=
  if A [:: 1] is Ok [:: a] then
    let x := if nth 0 b 0 == 0 then [:: 0] else [:: nth 0 b 0 / a] in
    if (size b == 1)%N && (if A x is Ok y then y == b else false) then Ok x else Throw
  else Throw.
Lemma scalar_krylov : krylov scalar_solve.
Proof.
move=> A b x; rewrite /scalar_solve; case: (A [:: 1]) => // -[//|a [|//]].
case: ifP => // /andP[/eqP sb]; set y := if _ then _ else _; case e: (A y) => [z| | |] // /eqP ez [<-].
have sy : size y = size b by rewrite sb /y; case: ifP.
split=> //; first by rewrite e ez.
move=> [|d] hb _; last by rewrite nth_default // sy sb.
by rewrite /y hb eqxx.
Qed.
(** u' = - u by the implicit scheme: h x + x - u = 0. *)
Lemma scalar_example : let h := 1 in
  loop_after 1 h (fun _ (d : F) v => Ok [:: (1 + h) * nth 0 v 0]) (fun _ d v => Ok [:: (1 + h) * nth 0 v 0 - d])
    (fun _ d v => Ok (nth 0 v 0)) scalar_solve 2 ([:: 0], 4%:R) = Ok ([:: 1], 1 : F).
Proof.
have n2 : 2%:R != 0 :> F by rewrite pnatr_eq0.
have n4 : 4%:R != 0 :> F by rewrite pnatr_eq0.
have e4 : 4%:R = 2%:R * 2%:R :> F by rewrite -natrM.
have key (c : F) k (flx := fun _ (d : F) v => Ok [:: (1 + 1) * nth 0 v 0]) (rs := fun (_ d : F) v => Ok [:: (1 + 1) * nth 0 v 0 - d]) :
    c != 0 -> solve_step 1 1 flx rs scalar_solve k (2%:R * c) = Ok [:: c].
  move=> c0; rewrite /solve_step /scalar_solve /= mulr0 add0r mulrN1 opprK mulr1 -[1 + 1]/(2%:R).
  by rewrite mulf_eq0 (negbTE n2) (negbTE c0) /= mulrAC divff // mul1r eqxx.
rewrite /loop_after /foro /= e4 key //= -[X in solve_step _ _ _ _ _ _ X](mulr1 2%:R) key ?oner_neq0 //.
Qed.
End Scalar.

(** Hyperedges with sources that depend on time. *)
Definition with_source (F : Type) (A : dp_data F) (src : nat -> F) : dp_data F :=
  let D := dp_df A in
  DpData (DfData (df_vol D) (df_mass D) (df_grad D) (df_bb D) (df_bp D) src (df_dirval D) (df_initial D) (df_normal D)
    (df_area D) (df_diffsq D) (df_eval D) (df_types D)) (dp_dirold A) (dp_area A) (dp_init_phi A) (dp_init_der A) (dp_init_bdr A).
Lemma with_source_data (F : realFieldType) dim p (A : dp_data F) src : parab_data dim p A -> parab_data dim p (with_source A src).
Proof. exact. Qed.
Lemma source_example (F : rcfType) (dim : nat) (types : seq nat) (src : F -> nat -> F) : exists P : F -> nat -> dp_data F, forall t i,
  [/\ parab_data dim 1 (P t i), df_src (dp_df (P t i)) = src t, df_types (dp_df (P t i)) = types & same_operator (P t i) (P 0 i)].
Proof.
have [P hP] := parab_data_exists (F := F) dim (fun _ _ => 0) (fun _ _ _ => 0) (fun _ _ _ => 0) (fun _ _ _ => 0) (fun _ _ => 0)
  (fun _ _ _ => 0) (fun _ _ _ => 0) (fun=> types).
exists (fun t i => with_source (P 0%N) (src t)) => t i; have [[h1 h2 h3 h4 h5] _] := hP 0%N.
by split=> //; exact: with_source_data.
Qed.
