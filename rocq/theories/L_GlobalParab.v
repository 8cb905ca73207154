(** Time stepping of DiffusionParab on a hypergraph. *)
From mathcomp Require Import all_ssreflect all_algebra zify ring.
From Verif Require Import M_Base L_Base M_Lapack S_Lapack M_Global S_Global L_Global L_Global2 L_Global3 L_Global4.
From Verif Require Import S_Hdg L_Hdg S_Tpp M_DiffusionUniform M_Diffusion S_LocalSolver S_Diffusion S_TppGeo.
From Verif Require Import L_HdgSrc L_LocalBase L_LocalLink L_DiffusionUniform2 L_Diffusion2 L_GlobalUniform L_GlobalMasked.
From Verif Require Import M_DiffusionParab S_DiffusionParab S_GlobalParab L_Theta L_DiffusionParab2 L_DiffusionParab3.
Set Implicit Arguments. Unset Strict Implicit. Unset Printing Implicit Defensive.
Import Order.TTheory GRing.Theory Num.Theory.
Local Open Scope ring_scope.

Lemma indexed_nth nodes i e0 : (i < size nodes)%N -> nth e0 (indexed nodes) i = (nth [::] nodes i, i).
Proof.
move=> hi; case: e0 => a b; rewrite nth_zip ?size_iota // nth_iota // add0n.
by rewrite (set_nth_default [::]).
Qed.
Lemma size_indexed nodes : size (indexed nodes) = size nodes.
Proof. by rewrite size_zip size_iota minnn. Qed.
Lemma In_nth (T : Type) (x0 : T) s e : List.In e s -> exists2 i, (i < size s)%N & e = nth x0 s i.
Proof.
elim: s => [//|a s IH] /= [<-|/IH [i hi ->]]; first by exists 0%N.
by exists i.+1.
Qed.
Lemma indexed_in nodes e : List.In e (indexed nodes) -> exists2 i, (i < size nodes)%N & e = (nth [::] nodes i, i).
Proof.
case/(In_nth ([::], 0%N)) => i; rewrite size_indexed => hi ->.
by exists i => //; rewrite indexed_nth.
Qed.

Section Time.
Variables (F : realFieldType) (gesv : nat -> nat -> seq F -> seq F -> sv_result F).
Variables (dim p : nat) (dirs : seq nat) (tau theta dt : F).
Variables (nodes : seq (seq nat)) (n_nodes : nat) (nt : nat -> nat) (junk : seq (seq F)).
Variables (P : nat -> dp_data F).
Hypotheses (dim0 : (0 < dim)%N) (hP : forall i, parab_data dim p (P i)) (hg : gesv_correct gesv).
Hypotheses (tau0 : 0 < tau) (th0 : 0 < theta) (dt0 : 0 < dt).
Hypotheses (hv : valid_graph dim n_nodes (indexed nodes)) (hj : size junk = (2 * dim)%N).
Hypothesis (ht : face_types dim nodes nt P).
Notation nb := ((p + 1) ^ (dim - 1))%N.
Notation nf := ((p + 1) ^ dim)%N.
Notation N := (n_nodes * nb)%N.
Notation st0 := (dp_state0 F dim p).
Notation m := (2 * dim)%N.
Notation zt := (nseq m (nseq nb (0 : F))).
Notation f dirs := (parab_op gesv dim p dirs tau theta dt P).
Notation g := (parab_res gesv dim p dirs tau theta dt P).
Notation phi dirs data := (@phi_of F nat dim nb (f dirs data)).
Notation psi data := (@phi_of F nat dim nb (g data)).
Notation local := (local_dofs dim p nodes).
Implicit Types (data : seq (dp_state F)).
Let c0 : 0 <= theta * dt. Proof. by rewrite mulr_ge0 ?ltW. Qed.
Let t0 : 0 <= tau. Proof. exact: ltW. Qed.
Let hz : is_trace m nb zt := zero_trace F dim nb.

Lemma f_ok ds data e x : is_trace m nb x -> exists2 y, f ds data e x zt = Ok y & is_trace m nb y.
Proof.
by move=> hx; have [y [q [u [hy _ [sy _]]]]] := parab_flux ds dim0 (hP e) hg t0 c0 (nth st0 data e) hx hz; exists y.
Qed.
Lemma g_ok data e x : is_trace m nb x -> exists2 y, g data e x zt = Ok y & is_trace m nb y.
Proof.
by move=> hx; have [y [q [u [hy _ [sy _]]]]] := parab_residual dirs dim0 (hP e) hg t0 c0 (nth st0 data e) hx hz; exists y.
Qed.
Lemma f_phi ds data e x y : is_trace m nb x -> f ds data e x zt = Ok y ->
  phi ds data e (dmx dim nb x) = dmx dim nb y.
Proof. by move=> hx hy; rewrite /phi_of (rows_of_dmx hx) hy. Qed.
Lemma g_psi data e x y : is_trace m nb x -> g data e x zt = Ok y ->
  psi data e (dmx dim nb x) = dmx dim nb y.
Proof. by move=> hx hy; rewrite /phi_of (rows_of_dmx hx) hy. Qed.
Lemma f_linear ds data : local_linear (phi ds data).
Proof.
move=> e a A B.
have [y [y' [hy hy' hc]]] := parab_linear ds dim0 (hP e) hg t0 c0 (nth st0 data e) a (rows_trace A) (rows_trace B) hz hz hz.
have := @f_phi ds data e _ _ (comb_is_trace _ _ a (rows_of A) (rows_of B)) hc.
by rewrite !dmx_comb !rows_ofK => ->; rewrite -(f_phi (rows_trace A) hy) -(f_phi (rows_trace B) hy') !rows_ofK.
Qed.
Lemma g_affine data e A : psi data e A = phi dirs data e A + psi data e 0.
Proof.
have [y [y0 [hy hy0 hr]]] := parab_affine dirs dim0 (hP e) hg t0 c0 (nth st0 data e) (rows_trace A) hz hz hz.
have := g_psi (rows_trace A) hr; rewrite rows_ofK dmx_comb scale1r => ->.
rewrite -(f_phi (rows_trace A) hy) rows_ofK; congr (_ + _).
by have := g_psi (e := e) hz hy0; rewrite dmx_zero => ->.
Qed.
Lemma no_mask0 e (x : seq (seq F)) : vanishes (dp_mask [::] (P e)) m nb x.
Proof. by move=> k j _ _. Qed.
Lemma f0_neg data e A : fdot A (phi [::] data e A) <= 0.
Proof.
have [y hy [hs _]] := parab_negative dim0 (hP e) hg tau0 th0 dt0 (nth st0 data e) (rows_trace A) hz (@no_mask0 e _).
by move: hs; rewrite pairing_fdot -(f_phi (rows_trace A) hy) !rows_ofK.
Qed.
Lemma f0_ker data e A : fdot A (phi [::] data e A) = 0 -> A = 0.
Proof.
have [y hy [_ hs]] := parab_negative dim0 (hP e) hg tau0 th0 dt0 (nth st0 data e) (rows_trace A) hz (@no_mask0 e _).
move: hs; rewrite pairing_fdot -(f_phi (rows_trace A) hy) !rows_ofK => hs /hs hA.
by rewrite -[A]rows_ofK hA dmx_zero.
Qed.
Lemma f0_sym data e A B : fdot A (phi [::] data e B) = fdot B (phi [::] data e A).
Proof.
have [y [y' [hy hy' hs]]] := parab_symmetric dim0 (hP e) hg tau0 th0 dt0 (nth st0 data e) (rows_trace A) (rows_trace B) hz hz
  (@no_mask0 e _) (@no_mask0 e _).
have e1 := f_phi (rows_trace A) hy; have e2 := f_phi (rows_trace B) hy'.
by move: hs; rewrite !pairing_fdot -e1 -e2 !rows_ofK => ->.
Qed.
Lemma f_mask data e A (k : 'I_m) j :
  phi dirs data e A k j = if dp_mask dirs (P e) k then 0 else phi [::] data e A k j.
Proof.
have [y [q [u [hy h1 [sy f1]]]]] := parab_flux dirs dim0 (hP e) hg t0 c0 (nth st0 data e) (rows_trace A) hz.
have [y0 [q0 [u0 [hy0 h2 [sy0 f2]]]]] := parab_flux [::] dim0 (hP e) hg t0 c0 (nth st0 data e) (rows_trace A) hz.
have := f_phi (rows_trace A) hy; rewrite rows_ofK => ->.
have := f_phi (rows_trace A) hy0; rewrite rows_ofK => ->.
have [eq eu] := step_unique (pdata_ok dim0 (hP e)) (area_pos (hP e)) c0 t0 h1 h2.
have /colP/(_ j) := f1 k; have /colP/(_ j) := f2 k; rewrite [X in X = _]mxE => e2; rewrite [X in X = _]mxE => e1.
rewrite mxE e1 mxE e2; case: (dp_mask dirs _ _); first by rewrite mxE.
by have -> : num_flux (dp_hdg dim p (P e)) tau q u (tr nb (rows_of A)) k =
   num_flux (dp_hdg dim p (P e)) tau q0 u0 (tr nb (rows_of A)) k by apply: flux_ext.
Qed.
Lemma g_mask data e A (k : 'I_m) j : dp_mask dirs (P e) k -> psi data e A k j = 0.
Proof.
move=> hm; have [y [q [u [hy h1 [sy f1]]]]] := parab_residual dirs dim0 (hP e) hg t0 c0 (nth st0 data e) (rows_trace A) hz.
have := g_psi (rows_trace A) hy; rewrite rows_ofK => ->.
by rewrite mxE; have /colP/(_ j) := f1 k; rewrite hm !mxE.
Qed.

Lemma mask_node e : List.In e (indexed nodes) -> forall k, (k < m)%N ->
  dp_mask dirs (P e.2) k = (nt (nth 0%N e.1 k) \in dirs).
Proof. by case/indexed_in => i hi -> k hk; rewrite /dp_mask ht. Qed.
Let nb0 : (0 < nb)%N := nbp dim p.
Notation fx := (fun v => nt v \in dirs).
Section Cover.
Hypothesis cov : covered dirs nodes n_nodes nt.
Lemma cover_has v : (v < n_nodes)%N -> fx v || has (fun e : seq nat * nat => v \in e.1) (indexed nodes).
Proof.
move=> /cov /orP[->//|]; rewrite /indexed => hh; apply/orP; right.
by move: hh; elim: nodes 0%N => //= l s IH k /orP[->//|/IH ->]; rewrite orbT.
Qed.
Lemma glob_solution data : exists x, [/\ size x = N, dir_free dim p dirs n_nodes nt x,
    glob_res gesv dim p dirs tau theta dt nodes n_nodes junk P data x = Ok (nseq N 0) &
    forall x', size x' = N -> dir_free dim p dirs n_nodes nt x' ->
      glob_res gesv dim p dirs tau theta dt nodes n_nodes junk P data x' = Ok (nseq N 0) -> x' = x].
Proof.
have := (masked_solution (mk := fun e => dp_mask dirs (P e)) (@f_ok dirs data) (@f_ok [::] data) (@g_ok data) (@f_mask data) (@g_mask data)
  (@f_linear [::] data) (@g_affine data) nb0 (fx := fx) hv hj mask_node (@f0_neg data) (@f0_ker data) cover_has).
exact.
Qed.
Lemma glob_definite data x : size x = N -> dir_free dim p dirs n_nodes nt x ->
  exists u, [/\ glob_op gesv dim p dirs tau theta dt nodes n_nodes junk P data x = Ok u,
    vdot N x u <= 0 & vdot N x u = 0 -> x = nseq N 0].
Proof.
move=> sx ox; have := (masked_definite (mk := fun e => dp_mask dirs (P e)) (@f_ok dirs data) (@f_ok [::] data) (@f_mask data)
  nb0 (fx := fx) hv hj mask_node (@f0_neg data) (@f0_ker data) cover_has sx ox); exact.
Qed.
End Cover.
Lemma glob_symmetric data x y : size x = N -> size y = N ->
  dir_free dim p dirs n_nodes nt x -> dir_free dim p dirs n_nodes nt y ->
  exists u v, [/\ glob_op gesv dim p dirs tau theta dt nodes n_nodes junk P data x = Ok u,
    glob_op gesv dim p dirs tau theta dt nodes n_nodes junk P data y = Ok v & vdot N y u = vdot N x v].
Proof.
exact: (masked_symmetric (mk := fun e => dp_mask dirs (P e)) (@f_ok dirs data) (@f_ok [::] data) (@f_mask data)
  nb0 (fx := fx) hv hj mask_node (@f0_sym data)).
Qed.
(** The residual vanishes if and only if x solves the system which is assembled from trace_to_flux and
    the residual of the zero vector. *)
Lemma glob_system data x : size x = N -> exists r0,
  glob_res gesv dim p dirs tau theta dt nodes n_nodes junk P data (nseq N 0) = Ok r0 /\
  (glob_res gesv dim p dirs tau theta dt nodes n_nodes junk P data x = Ok (nseq N 0) <->
   glob_op gesv dim p dirs tau theta dt nodes n_nodes junk P data x = Ok [seq - a | a <- r0]).
Proof.
move=> sx; have [r0 [h1 _ _ h2]] := masked_resP (mk := fun e => dp_mask dirs (P e)) (@f_ok dirs data) (@g_ok data) (@f_mask data) (@g_mask data)
  (@f_linear [::] data) (@g_affine data) nb0 (fx := fx) hv hj mask_node sx.
by exists r0.
Qed.

(** ** set_data *)
Lemma local_trace (x : seq F) i : is_trace m nb (local x i).
Proof. by split; [exact: size_mkseq | apply/allP => l /mapP[k _ ->]; rewrite size_mkseq]. Qed.
Lemma local_dmx (x : seq F) i : dmx dim nb (local x i) = local_part dim nb (nth [::] nodes i) x.
Proof. by apply/matrixP => k j; rewrite !mxE (nth_mkseq [::]) // nth_mkseq. Qed.
Lemma glob_setP data x : size x = N -> size data = size nodes -> exists data',
  [/\ glob_set gesv dim p dirs tau theta dt nodes junk P x data = Ok data', size data' = size nodes &
    forall i, (i < size nodes)%N -> parab_set gesv dim p dirs tau theta dt P i (local x i) (nth st0 data i) =
      Ok (nth st0 data' i)].
Proof.
move=> sx sd.
pose gs (e : nat) (A : 'M[F]_(m, nb)) S :=
  if parab_set gesv dim p dirs tau theta dt P e (rows_of A) S is Ok S' then S' else S.
have gsE e dofs S : @shaped F dim nb dofs ->
    parab_set gesv dim p dirs tau theta dt P e dofs S = Ok (gs e (dmx dim nb dofs) S).
  move=> /shaped_trace hx; rewrite /gs (rows_of_dmx hx).
  have [X [hX _ _]] := parab_solve1 dirs dim0 (hP e) hg t0 c0 S hx.
  by rewrite /parab_set /dp_set_data hX.
have [|data' [h1 h2 h3]] := @set_dataE F nat dim nb _ st0 n_nodes (indexed nodes) x junk
  (parab_set gesv dim p dirs tau theta dt P) gs data sx hv hj gsE.
  by rewrite size_indexed sd.
exists data'; split=> //; first by rewrite h2.
move=> i hi; rewrite (h3 i ([::], 0%N)) size_indexed hi indexed_nth //= -local_dmx.
by rewrite gsE //; apply/shaped_trace; exact: local_trace.
Qed.
Lemma glob_step data x : size x = N -> states_ok dim p nodes data -> exists data',
  [/\ glob_set gesv dim p dirs tau theta dt nodes junk P x data = Ok data', size data' = size nodes &
    forall i, (i < size nodes)%N -> exists q u,
      step_of dim p dirs tau theta dt (P i) (nth st0 data i) (local x i) q u /\
      stored dim p dirs tau (P i) (local x i) q u (nth st0 data' i)].
Proof.
move=> sx [sd hd]; have [data' [h1 h2 h3]] := glob_setP sx sd.
exists data'; split=> // i hi.
have [S' [q [u [hS' hs hst]]]] := parab_set_data dirs dim0 (hP i) hg t0 c0 (local_trace x i) (hd i hi).
have := h3 i hi; rewrite /parab_set hS' => -[<-].
by exists q, u.
Qed.
Lemma step_exists data : covered dirs nodes n_nodes nt -> states_ok dim p nodes data -> exists x data',
  time_step gesv dim p dirs tau theta dt nodes n_nodes nt junk P data x data' /\ states_ok dim p nodes data'.
Proof.
move=> cov hd; have [x [sx ox hr _]] := glob_solution cov data.
have [data' [h1 h2 h3]] := glob_step sx hd.
by exists x, data'; split=> //; split=> // i /h3 [q [u [_ []]]].
Qed.

(** ** Stability *)
Section Stable.
Hypothesis zd : zero_data dim p nodes P.
Lemma zero_rq i d : (i < size nodes)%N -> df_rq p (dp_df (P i)) (dp_mask dirs (P i)) d = 0 :> 'cV[F]_nf.
Proof.
move=> hi; have [_ h] := zd hi; rewrite /df_rq big1 ?oppr0 // => k _; apply/colP => j; rewrite !mxE.
by have [-> _] := h j k (ltn_ord j) (ltn_ord k); rewrite mulr0.
Qed.
Lemma zero_ru i : (i < size nodes)%N -> df_ru dim p (dp_df (P i)) tau (dp_mask dirs (P i)) = 0.
Proof.
move=> hi; have [h1 h2] := zd hi; rewrite /df_ru big1 => [|k _].
  by rewrite scaler0 addr0; apply/colP => j; rewrite !mxE h1.
by apply/colP => j; rewrite !mxE; have [-> _] := h2 j k (ltn_ord j) (ltn_ord k).
Qed.
Lemma zero_src i : (i < size nodes)%N -> df_src_vec dim p (dp_df (P i)) = 0.
Proof. by move=> hi; have [h1 _] := zd hi; apply/colP => j; rewrite !mxE h1. Qed.
Lemma zero_old i S : (i < size nodes)%N -> old_rate dim p dirs tau (P i) S = vec_of nf (dp_flux_old S).
Proof.
move=> hi; have [_ h2] := zd hi; rewrite /old_rate big1 ?scaler0 ?addr0 // => k _.
by apply/colP => j; rewrite !mxE; have [_ ->] := h2 j k (ltn_ord j) (ltn_ord k).
Qed.
Notation H i := (dp_hdg dim p (P i)).
Notation norm2 i S := (dotv (old_u dim p S) ((dp_area (P i))%:M *m old_u dim p S)).
Lemma energyE data : energy dim p nodes P data = \sum_(i < size nodes) norm2 i (nth st0 data i).
Proof.
apply: eq_bigr => i _; rewrite mul_scalar_mx dotvZr; congr (_ * _).
by rewrite /dotv; apply: eq_bigr => j _; rewrite !mxE expr2.
Qed.
Lemma off_local (x : seq F) i (k : 'I_m) : (i < size nodes)%N -> dir_free dim p dirs n_nodes nt x ->
  size (nth [::] nodes i) = m -> all (fun v => v < n_nodes)%N (nth [::] nodes i) ->
  dp_mask dirs (P i) k -> tr nb (local x i) k = 0.
Proof.
move=> hi ox sn an hm; apply/colP => j; rewrite !mxE (nth_mkseq [::]) // nth_mkseq //.
have hk : (nth 0%N (nth [::] nodes i) k < n_nodes)%N by apply: (allP an); rewrite mem_nth // sn.
apply: ox.
  apply: (@leq_trans (nth 0%N (nth [::] nodes i) k * nb + nb)); first by rewrite ltn_add2l.
  by rewrite -mulSnr leq_mul2r hk orbT.
by rewrite divnMDl // divn_small // addn0 -ht.
Qed.
Lemma edge_ok i : (i < size nodes)%N ->
  size (nth [::] nodes i) = m /\ all (fun v => v < n_nodes)%N (nth [::] nodes i).
Proof.
move=> hi; have := all_nthP ([::], 0%N) hv i; rewrite size_indexed => /(_ hi).
by rewrite indexed_nth //= => /andP[/eqP].
Qed.

(** The local balance of one step from a state with given rate and boundary fluxes. *)
Lemma local_energy i (x x0 : 'I_m -> 'cV[F]_nb) q u q0 u0 :
  theta_step (H i) tau (dp_area (P i))%:M theta dt q u x (fun=> 0) 0 u0 (rate (H i) tau q0 u0 x0 0) ->
  grad_eq (H i) q0 u0 x0 (fun=> 0) -> 1 <= 2%:R * theta ->
  dotv u ((dp_area (P i))%:M *m u) <= dotv u0 ((dp_area (P i))%:M *m u0) -
    (2%:R * dt) * \sum_k dotv (mix theta (x k) (x0 k))
       (mix theta (num_flux (H i) tau q u x k) (num_flux (H i) tau q0 u0 x0 k)).
Proof.
move=> hs hgr hth.
have hok := pdata_ok dim0 (hP i).
have := step_energy hok (area_sym dim p (P i)) (lt0r_neq0 dt0) hgr hs; cbv beta zeta.
set A := dotv u _; set B := dotv u0 _; set C := dotv (u - u0) _; set G := form _ _ _ _ _ _ _ _; set S := \sum_f _ => e.
have C0 : 0 <= C.
  by rewrite /C mul_scalar_mx dotvZr mulr_ge0 ?dotv_ge0 // ltW // (pdata_area (hP i)).
have G0 : 0 <= G by exact: form_ge0.
rewrite -subr_ge0.
have -> : B - 2%:R * dt * S - A = (2%:R * dt) * G + (2%:R * theta - 1) * C.
  apply/eqP; rewrite -subr_eq0; apply/eqP.
  transitivity (- (A - B + (2%:R * theta - 1) * C) - 2%:R * dt * (G + S)); first by clearbody A B C G S; clear; ring.
  by rewrite e mulNr opprK subrr.
have d2 : 0 <= 2%:R * dt by rewrite mulr_ge0 ?ler0n ?ltW.
apply: addr_ge0; first exact: mulr_ge0.
by apply: mulr_ge0 => //; rewrite subr_ge0.
Qed.
(** States that can be taken for settled ones. *)
Definition quasi (x0 : seq F) data := forall i, (i < size nodes)%N -> exists q0 u0,
  [/\ state_ok dim p (nth st0 data i), grad_eq (H i) q0 u0 (tr nb (local x0 i)) (fun=> 0),
      old_u dim p (nth st0 data i) = u0,
      (1 - theta) *: vec_of nf (dp_flux_old (nth st0 data i)) = (1 - theta) *: rate (H i) tau q0 u0 (tr nb (local x0 i)) 0
    & forall k : 'I_m, ~~ dp_mask dirs (P i) k ->
        (1 - theta) *: old_flux dim p (nth st0 data i) k = (1 - theta) *: num_flux (H i) tau q0 u0 (tr nb (local x0 i)) k].
Lemma quasi_energy data x0 x data' : size data = size nodes -> size x0 = N -> dir_free dim p dirs n_nodes nt x0 ->
  quasi x0 data -> 1 <= 2%:R * theta ->
  time_step gesv dim p dirs tau theta dt nodes n_nodes nt junk P data x data' ->
  energy dim p nodes P data' <= energy dim p nodes P data.
Proof.
move=> sd sx0 ox0 hq hth [sx ox hr hs'].
have hok : states_ok dim p nodes data by split=> // i /hq [q0 [u0 []]].
have [data2 [h1 _ h3]] := glob_step sx hok.
move: h1 h3; rewrite hs' => -[<-] h3.
pose xm := axpy theta x [seq (1 - theta) * a | a <- x0].
have sxm : size xm = N by rewrite size_axpy.
have xmE d : (d < N)%N -> nth 0 xm d = theta * nth 0 x d + (1 - theta) * nth 0 x0 d.
  by move=> hd; rewrite nth_axpy ?sx // (nth_map 0) ?sx0.
have h0 : \sum_(i < size nodes) fdot (local_part dim nb (nth [::] nodes i) xm)
    (psi data i (local_part dim nb (nth [::] nodes i) x)) = 0.
  transitivity (vdot N xm (nseq N 0)); last by rewrite /vdot big1 // => d _; rewrite nth_nseq if_same mulr0.
  rewrite (masked_pair (@g_ok data) hv hj sx sxm hr) (big_nth ([::], 0%N)) big_mkord size_indexed.
  by apply: eq_bigr => i _; rewrite indexed_nth.
suff le i : (i < size nodes)%N -> norm2 i (nth st0 data' i) <= norm2 i (nth st0 data i) -
    (2%:R * dt) * fdot (local_part dim nb (nth [::] nodes i) xm) (psi data i (local_part dim nb (nth [::] nodes i) x)).
  rewrite !energyE.
  apply: (@le_trans _ _ (\sum_(i < size nodes) (norm2 i (nth st0 data i) - (2%:R * dt) *
     fdot (local_part dim nb (nth [::] nodes i) xm) (psi data i (local_part dim nb (nth [::] nodes i) x))))).
    by apply: ler_sum => i _; exact: le.
  by rewrite big_split /= sumrN -mulr_sumr h0 mulr0 oppr0 addr0.
move=> hi; have [q [u [hst hsd]]] := h3 i hi; have [q0 [u0 [hok0 hgr eu0 efl ebd]]] := hq i hi.
have [_ -> _ _] := hsd.
have hst' : theta_step (H i) tau (dp_area (P i))%:M theta dt q u (tr nb (local x i)) (fun=> 0) 0 u0
    (rate (H i) tau q0 u0 (tr nb (local x0 i)) 0).
  move: hst; rewrite /step_of (zero_ru hi) (zero_old _ hi) eu0 /theta_step efl.
  by case=> a1 a2; split=> // d; have := a1 d; rewrite (zero_rq d hi).
have := local_energy hst' hgr hth; rewrite eu0.
have -> : \sum_k dotv (mix theta (tr nb (local x i) k) (tr nb (local x0 i) k))
       (mix theta (num_flux (H i) tau q u (tr nb (local x i)) k) (num_flux (H i) tau q0 u0 (tr nb (local x0 i)) k)) =
    fdot (local_part dim nb (nth [::] nodes i) xm) (psi data i (local_part dim nb (nth [::] nodes i) x)) => //.
have [y [q' [u' [hy hst2 [sy fy]]]]] := parab_residual dirs dim0 (hP i) hg t0 c0 (nth st0 data i) (local_trace x i) hz.
have [eq eu] := step_of_unique dim0 (hP i) t0 c0 hst2 hst.
have := g_psi (local_trace x i) hy; rewrite !local_dmx => ->.
have [sn an] := edge_ok hi.
apply: eq_bigr => k _.
have ek : mix theta (tr nb (local x i) k) (tr nb (local x0 i) k) = \col_j nth 0 xm (nth 0%N (nth [::] nodes i) k * nb + j).
  apply/colP => j; rewrite [RHS]mxE xmE; first by rewrite !mxE !(nth_mkseq [::]) // !nth_mkseq.
  have hk : (nth 0%N (nth [::] nodes i) k < n_nodes)%N by apply: (allP an); rewrite mem_nth // sn.
  apply: (@leq_trans (nth 0%N (nth [::] nodes i) k * nb + nb)); first by rewrite ltn_add2l.
  by rewrite -mulSnr leq_mul2r hk orbT.
have ey j : dmx dim nb y k j = tr nb y k j 0 by rewrite !mxE.
case hm : (dp_mask dirs (P i) k).
  have e1 := off_local hi ox sn an hm; have e2 := off_local hi ox0 sn an hm.
  rewrite e1 e2 /mix !scaler0 addr0 dotv0l big1 // => j _; rewrite ey fy hm [X in _ * X]mxE mulr0 //.
rewrite ek /dotv; apply: eq_bigr => j _; rewrite ey fy hm ebd ?hm //.
have -> : num_flux (H i) tau q' u' (tr nb (local x i)) k = num_flux (H i) tau q u (tr nb (local x i)) k.
  by apply: flux_ext.
by rewrite /mix [X in X * _ = _]mxE [X in _ = X * _]mxE.
Qed.

Lemma settled_ok x0 data : settled dim p dirs tau nodes n_nodes nt P x0 data -> states_ok dim p nodes data.
Proof. by case=> sd _ _ h; split=> // i /h [q [u [_ []]]]. Qed.
Lemma settled_quasi x0 data : settled dim p dirs tau nodes n_nodes nt P x0 data -> quasi x0 data.
Proof.
case=> _ _ _ h i hi; have [q [u [h1 [h2 h3 h4 h5]]]] := h i hi; exists q, u; split=> //.
- by move=> d; have := h1 d; rewrite (zero_rq d hi).
- by rewrite h4 (zero_src hi).
- by move=> k hk; rewrite h5 (negbTE hk).
Qed.
Lemma euler_quasi data : theta = 1 -> states_ok dim p nodes data -> quasi (nseq N 0) data.
Proof.
move=> th1 [_ hd] i hi.
have hu : hM (H i) \in unitmx.
  apply: kernel_unit => v hv0; apply: (mass_eq0 (pdata_ok dim0 (hP i))); rewrite hv0 dotv0r //.
pose u := old_u dim p (nth st0 data i).
exists (fun d => invmx (hM (H i)) *m (hD (H i) d *m u)), u; split=> //; first exact: hd.
- move=> d; rewrite mulKVmx // subrr addr0 big1 ?oppr0 // => k _.
  have -> : tr nb (local (nseq N 0) i) k = 0 :> 'cV[F]_nb.
    by apply/colP => j; rewrite !mxE (nth_mkseq [::]) // nth_mkseq // nth_nseq if_same.
  by rewrite mulmx0 scaler0.
- by rewrite th1 subrr !scale0r.
- by move=> k _; rewrite th1 subrr !scale0r.
Qed.
Lemma step_settled data x data' : states_ok dim p nodes data ->
  time_step gesv dim p dirs tau theta dt nodes n_nodes nt junk P data x data' ->
  settled dim p dirs tau nodes n_nodes nt P x data'.
Proof.
move=> hok [sx ox hr hs']; have [data2 [h1 h2 h3]] := glob_step sx hok.
move: h1 h2 h3; rewrite hs' => -[<-] h2 h3; split=> // i hi.
by have [q [u [[a1 _] a2]]] := h3 i hi; exists q, u.
Qed.
Lemma stable_settled data x0 x data' : 1 <= 2%:R * theta ->
  settled dim p dirs tau nodes n_nodes nt P x0 data ->
  time_step gesv dim p dirs tau theta dt nodes n_nodes nt junk P data x data' ->
  energy dim p nodes P data' <= energy dim p nodes P data.
Proof.
move=> hth hs ht1; have [sd sx0 ox0 _] := hs.
exact: quasi_energy sd sx0 ox0 (settled_quasi hs) hth ht1.
Qed.
Lemma stable_euler data x data' : theta = 1 -> states_ok dim p nodes data ->
  time_step gesv dim p dirs tau theta dt nodes n_nodes nt junk P data x data' ->
  energy dim p nodes P data' <= energy dim p nodes P data.
Proof.
move=> th1 hs ht1; apply: (@quasi_energy data (nseq N 0) x data') => //.
- by case: hs.
- by rewrite size_nseq.
- by move=> d hd _; rewrite nth_nseq if_same.
- exact: euler_quasi.
- by rewrite th1 mulr1 ler1n.
Qed.
(** A run of n steps. *)
Lemma stable_run n (xs : nat -> seq F) (ds : nat -> seq (dp_state F)) : 1 <= 2%:R * theta ->
  states_ok dim p nodes (ds 0%N) ->
  (forall k, (k < n)%N -> time_step gesv dim p dirs tau theta dt nodes n_nodes nt junk P (ds k) (xs k) (ds k.+1)) ->
  forall k l, (0 < k)%N -> (k <= l)%N -> (l <= n)%N -> energy dim p nodes P (ds l) <= energy dim p nodes P (ds k).
Proof.
move=> hth h0 hs k l k0.
have hset j : (j < n)%N -> settled dim p dirs tau nodes n_nodes nt P (xs j) (ds j.+1).
  elim: j => [|j IH] hjn; first exact: step_settled h0 (hs _ hjn).
  exact: step_settled (settled_ok (IH (ltnW hjn))) (hs _ hjn).
elim: l => [|l IH] hkl hln; first by move: k0; rewrite ltnNge hkl.
move: hkl; rewrite leq_eqVlt => /orP[/eqP -> //|hkl].
apply: le_trans (IH hkl (ltnW hln)).
case: l hkl hln {IH} => [|l] hkl hln; first by move: k0 hkl; case: k.
exact: stable_settled hth (hset l (ltnW hln)) (hs _ hln).
Qed.
End Stable.
End Time.
