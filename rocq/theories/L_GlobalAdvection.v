(** Time stepping of AdvectionParab on a hypergraph. *)
From mathcomp Require Import all_ssreflect all_algebra zify ring.
From Verif Require Import M_Base L_Base M_Lapack S_Lapack M_Global S_Global L_Global L_Global2 L_Global3 L_Global4.
From Verif Require Import S_Hdg L_Hdg S_Tpp M_DiffusionUniform M_Diffusion S_LocalSolver S_Diffusion.
From Verif Require Import L_HdgSrc L_LocalBase L_LocalLink L_GlobalUniform L_GlobalMasked S_GlobalParab L_Theta L_GlobalParab.
From Verif Require Import M_AdvectionParab S_AdvectionParab L_AdvectionParab L_AdvectionParab2 L_AdvectionParab3 S_GlobalAdvection.
Set Implicit Arguments. Unset Strict Implicit. Unset Printing Implicit Defensive.
Import Order.TTheory GRing.Theory Num.Theory.
Local Open Scope ring_scope.

(** * One hyperedge *)
Section Edge.
Variable F : realFieldType.
Variables (dim nb nf : nat) (tau : F) (P : ap_data F) (W : upwind_data F) (reg : nat -> bool).
Hypothesis hW : upwind_contract dim nb nf W P.
Notation nF := (2 * dim)%N.
Implicit Types (u : 'cV[F]_nf) (x : seq (seq F)).
Definition cut x : seq (seq F) := mkseq (fun k => if reg k then nth [::] x k else [::]) nF.
Lemma tr_cut x (f : 'I_nF) : tr nb (cut x) f = if reg f then tr nb x f else 0.
Proof.
apply/colP => j; rewrite mxE (nth_mkseq [::]) //; case: ifP => _; rewrite !mxE //.
by rewrite nth_nil.
Qed.
Lemma edge_law x u : tau = 0 ->
  (forall f : 'I_nF, ~~ reg f -> tr nb x f = 0 \/ forall s, (s < up_n W f)%N -> 0 <= up_w W f s) ->
  2%:R * dotv u (hom_rate dim nb tau P x u) =
  - (\sum_(f < nF) \sum_(s < up_n W f) `|up_w W f s| *
       (pval (up_phi W f s) u - pval (up_psi W f s) (tr nb (cut x) f)) ^+ 2) +
  \sum_(f < nF | reg f) (dotv (tr nb x f) (wind_matrix nb W f *m tr nb x f) -
                         2%:R * dotv (tr nb x f) (full_flux dim nb tau P x u f)).
Proof.
move=> t0 h.
have -> : hom_rate dim nb tau P x u = hom_rate dim nb tau P (cut x) u.
  apply: (outwind_rate hW) => // f; rewrite tr_cut; case: ifP => hr; first by left.
  by case: (h f (negbT hr)) => [->|]; [left | right].
have := energy_edge hW (cut x) u t0; rewrite mulrDr => /eqP; rewrite eq_sym -subr_eq => /eqP <-.
rewrite -addrA; congr (_ + _); rewrite mulr_sumr -sumrB [RHS]big_mkcond; apply: eq_bigr => f _.
rewrite /full_flux tr_cut; case: ifP => // _.
by rewrite !dotv0l mulr0 subr0.
Qed.
(** Combinations of two times. *)
Variables (th : F) (outs bnds : seq nat).
Lemma scaled_tr c x (f : 'I_nF) : tr nb (comb_trace c nF nb x [::]) f = c *: tr nb x f.
Proof. by rewrite tr_comb tr_nil addr0. Qed.
Lemma rate0 : hom_rate dim nb tau P [::] (0 : 'cV[F]_nf) = 0.
Proof.
rewrite /hom_rate mulmx0 big1 ?subrr // => f _; rewrite /face_terms tr_nil !mulmx0 addr0 //.
Qed.
Lemma flux0 f : adv_flux dim nb outs bnds tau P [::] (0 : 'cV[F]_nf) f = 0.
Proof. by rewrite /adv_flux /full_flux /stab_flux tr_nil !mulmx0 subrr scaler0 addr0 if_same. Qed.
Lemma rate_mix x y z u v : (forall f : 'I_nF, tr nb z f = th *: tr nb x f + (1 - th) *: tr nb y f) ->
  hom_rate dim nb tau P z (th *: u + (1 - th) *: v) =
  th *: hom_rate dim nb tau P x u + (1 - th) *: hom_rate dim nb tau P y v.
Proof.
move=> h; rewrite (@hom_rate_lin _ _ _ _ tau P th x (comb_trace (1 - th) nF nb y [::]) z); last first.
  by move=> g; rewrite scaled_tr h.
congr (_ + _); rewrite -[(1 - th) *: v]addr0 (@hom_rate_lin _ _ _ _ tau P (1 - th) y [::]) ?rate0 ?addr0 // => g.
by rewrite scaled_tr tr_nil addr0.
Qed.
Lemma flux_mix x y z u v f : (forall f : 'I_nF, tr nb z f = th *: tr nb x f + (1 - th) *: tr nb y f) ->
  adv_flux dim nb outs bnds tau P z (th *: u + (1 - th) *: v) f =
  th *: adv_flux dim nb outs bnds tau P x u f + (1 - th) *: adv_flux dim nb outs bnds tau P y v f.
Proof.
move=> h; rewrite (@adv_flux_lin _ _ _ _ outs bnds tau P th x (comb_trace (1 - th) nF nb y [::]) z); last first.
  by move=> g; rewrite scaled_tr h.
congr (_ + _); rewrite -[(1 - th) *: v]addr0 (@adv_flux_lin _ _ _ _ outs bnds tau P (1 - th) y [::]) ?flux0 ?addr0 // => g.
by rewrite scaled_tr tr_nil addr0.
Qed.
Lemma dot_mix u v : 2%:R * dotv (th *: u + (1 - th) *: v) (u - v) =
  dotv u u - dotv v v + (2%:R * th - 1) * dotv (u - v) (u - v).
Proof. by rewrite !dotvBr !dotvBl !dotvDl !dotvZl (dotvC v u); ring. Qed.
End Edge.

Section Time.
Variables (F : realFieldType) (gesv : nat -> nat -> seq F -> seq F -> sv_result F).
Variables (dim p : nat) (dirs outs bnds : seq nat) (tau theta dt : F).
Variables (nodes : seq (seq nat)) (n_nodes : nat) (junk : seq (seq F)) (fin fout : nat -> bool).
Variables (P : nat -> ap_data F) (W : nat -> upwind_data F).
Notation nb := ((p + 1) ^ (dim - 1))%N.
Notation nf := (nb * (p + 1))%N.
Notation N := (n_nodes * nb)%N.
Notation st0 := (ap_state0 F dim p).
Notation m := (2 * dim)%N.
Notation zt := (nseq m (nseq nb (0 : F))).
Notation node i k := (nth 0%N (nth [::] nodes i) k).
Notation local := (local_dofs dim p nodes).
Notation reg := (regular fin fout).
Hypotheses (hW : forall i, upwind_contract dim nb nf (W i) (P i)) (hg : gesv_correct gesv).
Hypotheses (tau0 : tau = 0) (th0 : 0 < theta) (dt0 : 0 < dt).
Hypotheses (hv : valid_graph dim n_nodes (indexed nodes)) (hj : size junk = m).
Hypothesis (hc : adv_classes dim dirs outs bnds nodes fin fout P).
Notation f := (adv_op gesv dim p dirs outs bnds tau theta dt P).
Notation g := (adv_res gesv dim p dirs outs bnds tau theta dt P).
Notation phi data := (@phi_of F nat dim nb (f data)).
Notation psi data := (@phi_of F nat dim nb (g data)).
Implicit Types (data : seq (ap_state F)).
Let c0 : 0 <= theta * dt. Proof. by rewrite mulr_ge0 ?ltW. Qed.
Let t0 : 0 <= tau. Proof. by rewrite tau0. Qed.
Let hz : is_trace m nb zt := zero_trace F dim nb.
Let hP i : adv_data dim nb nf (P i). Proof. by exists (W i). Qed.
Let nb0 : (0 < nb)%N. Proof. by rewrite expn_gt0 addn1. Qed.

Lemma af_ok data e x : is_trace m nb x -> exists2 y, f data e x zt = Ok y & is_trace m nb y.
Proof.
by move=> hx; have [y [u [hy _ [sy _]]]] := adv_trace_to_flux dirs outs bnds (hP e) hg t0 c0 (nth st0 data e) hx hz; exists y.
Qed.
Lemma ag_ok data e x : is_trace m nb x -> exists2 y, g data e x zt = Ok y & is_trace m nb y.
Proof.
by move=> hx; have [y [u [hy _ [sy _]]]] := adv_residual dirs outs bnds (hP e) hg t0 c0 (nth st0 data e) hx hz; exists y.
Qed.
Lemma af_phi data e x y : is_trace m nb x -> f data e x zt = Ok y -> phi data e (dmx dim nb x) = dmx dim nb y.
Proof. by move=> hx hy; rewrite /phi_of (rows_of_dmx hx) hy. Qed.
Lemma ag_psi data e x y : is_trace m nb x -> g data e x zt = Ok y -> psi data e (dmx dim nb x) = dmx dim nb y.
Proof. by move=> hx hy; rewrite /phi_of (rows_of_dmx hx) hy. Qed.
Lemma af_linear data : local_linear (phi data).
Proof.
move=> e a A B.
have [y [y' [hy hy' hcc]]] := adv_linear dirs outs bnds (hP e) hg t0 c0 (nth st0 data e) a (rows_trace A) (rows_trace B) hz hz hz.
have := @af_phi data e _ _ (comb_is_trace _ _ a (rows_of A) (rows_of B)) hcc.
by rewrite !dmx_comb !rows_ofK => ->; rewrite -(af_phi (rows_trace A) hy) -(af_phi (rows_trace B) hy') !rows_ofK.
Qed.
Lemma ag_affine data e A : psi data e A = phi data e A + psi data e 0.
Proof.
have [y [y0 [hy hy0 hr]]] := adv_affine dirs outs bnds (hP e) hg t0 c0 (nth st0 data e) (rows_trace A) hz hz hz.
have := ag_psi (rows_trace A) hr; rewrite rows_ofK dmx_comb scale1r => ->.
rewrite -(af_phi (rows_trace A) hy) rows_ofK; congr (_ + _).
by have := ag_psi (e := e) hz hy0; rewrite dmx_zero => ->.
Qed.
Notation mk := (fun e k => inflow_face dirs bnds (P e) k || outflow_face outs bnds (P e) k).
Notation fx := (fun v => fin v || fout v).
Lemma af_mask data e A (k : 'I_m) j : phi data e A k j = if mk e k then 0 else phi data e A k j.
Proof.
case: ifP => // hm.
have [y [u [hy h1 [sy f1]]]] := adv_trace_to_flux dirs outs bnds (hP e) hg t0 c0 (nth st0 data e) (rows_trace A) hz.
have := af_phi (rows_trace A) hy; rewrite rows_ofK => ->.
have /colP/(_ j) := f1 k; rewrite !mxE => ->; case: ifP hm => /= [_ _|_ ho]; first by rewrite mxE.
by rewrite outflow_flux // scaler0 mxE.
Qed.
Lemma ag_mask data : adv_ready dim p outs bnds theta P data ->
  forall e A (k : 'I_m) j, mk e k -> psi data e A k j = 0.
Proof.
move=> hr e A k j hm.
have [y [u [hy h1 [sy f1]]]] := adv_residual dirs outs bnds (hP e) hg t0 c0 (nth st0 data e) (rows_trace A) hz.
have := ag_psi (rows_trace A) hy; rewrite rows_ofK => ->.
have /colP/(_ j) := f1 k; rewrite !mxE => ->; case: ifP hm => /= [_ _|_ ho]; first by rewrite mxE.
by rewrite outflow_flux // scaler0 add0r hr // mxE.
Qed.
Lemma mask_nodes e : List.In e (indexed nodes) -> forall k, (k < m)%N -> mk e.2 k = fx (nth 0%N e.1 k).
Proof. by case/indexed_in => i hi -> k hk /=; have [-> ->] := hc hi hk. Qed.

(** ** The nodes of a hyperedge *)
Lemma adv_edge i : (i < size nodes)%N ->
  size (nth [::] nodes i) = m /\ all (fun v => v < n_nodes)%N (nth [::] nodes i).
Proof.
move=> hi; have := all_nthP ([::], 0%N) hv i; rewrite size_indexed => /(_ hi).
by rewrite indexed_nth //= => /andP[/eqP].
Qed.
Lemma node_lt i (k : 'I_m) : (i < size nodes)%N -> (node i k < n_nodes)%N.
Proof. by move=> hi; have [sn an] := adv_edge hi; apply: (allP an); rewrite mem_nth // sn. Qed.
Lemma dof_lt v (j : 'I_nb) : (v < n_nodes)%N -> (v * nb + j < N)%N.
Proof.
move=> hk; apply: (@leq_trans (v * nb + nb)); first by rewrite ltn_add2l.
by rewrite -mulSnr leq_mul2r hk orbT.
Qed.
Definition at_node (x : seq F) (v : nat) : 'cV[F]_nb := \col_j nth 0 x (v * nb + j).
Lemma tr_local (x : seq F) i (k : 'I_m) : tr nb (local x i) k = at_node x (node i k).
Proof. by apply/colP => j; rewrite !mxE (nth_mkseq [::]) // nth_mkseq. Qed.
Lemma free_node x v : (v < n_nodes)%N -> adv_free dim p n_nodes fin x -> fin v -> at_node x v = 0.
Proof.
move=> hv1 hx hf; apply/colP => j; rewrite !mxE hx //; first exact: dof_lt.
by rewrite divnMDl // divn_small // addn0.
Qed.
Lemma free_local x i : (i < size nodes)%N -> adv_free dim p n_nodes fin x -> in_free dim nb dirs bnds (P i) (local x i).
Proof.
move=> hi hx k j hk hj1; have [-> _] := hc hi hk => hf.
have /colP/(_ (Ordinal hj1)) := free_node (node_lt (Ordinal hk) hi) hx hf.
by rewrite -(tr_local x i (Ordinal hk)) !mxE.
Qed.

(** Sums over regular faces, by nodes. *)
Lemma by_nodes (V : zmodType) (G : nat -> 'I_m -> V) :
  \sum_(i < size nodes) \sum_(k < m | reg (node i k)) G i k =
  \sum_(v < n_nodes | reg v) \sum_(i < size nodes) \sum_(k < m | node i k == v) G i k.
Proof.
rewrite [RHS]exchange_big /=; apply: eq_bigr => i _.
rewrite (eq_bigr (fun v : 'I_n_nodes => \sum_(k < m) if node i k == v then G i k else 0)); last by move=> v _; rewrite big_mkcond.
rewrite [RHS]exchange_big [LHS]big_mkcond; apply: eq_bigr => k _.
pose v := Ordinal (node_lt k (ltn_ord i)).
rewrite [RHS]big_mkcond (bigD1 v) //= eqxx big1 ?addr0 // => w hw.
case: eqP => e; rewrite ?if_same //; case/eqP: hw; exact: val_inj.
Qed.
Section Wind.
Hypothesis hcons : wind_conserved dim p nodes n_nodes fin fout W.
Lemma wind_cancel (x : seq F) : \sum_(i < size nodes) \sum_(k < m | reg (node i k))
  dotv (tr nb (local x i) k) (wind_matrix nb (W i) k *m tr nb (local x i) k) = 0.
Proof.
rewrite (by_nodes (fun i k => dotv (tr nb (local x i) k) (wind_matrix nb (W i) k *m tr nb (local x i) k))).
rewrite big1 // => v hr.
transitivity (dotv (at_node x v) ((\sum_(i < size nodes) \sum_(k < m | node i k == v) wind_matrix nb (W i) k) *m at_node x v)).
  have dD a b : dotv (at_node x v) (a + b) = dotv (at_node x v) a + dotv (at_node x v) b by rewrite dotvDr.
  rewrite mulmx_suml dotv_sumr; apply: eq_bigr => i _.
  rewrite mulmx_suml (big_morph _ dD (dotv0r (at_node x v))); apply: eq_bigr => k /eqP e.
  by rewrite tr_local e.
by rewrite hcons // mul0mx dotv0r.
Qed.
End Wind.

(** ** set_data *)
Lemma adv_glob_setP data (x : seq F) : size x = N -> adv_states_ok dim p nodes data -> exists data',
  [/\ glob_adv_set gesv dim p dirs outs bnds tau theta dt nodes junk P x data = Ok data', size data' = size nodes &
    forall i, (i < size nodes)%N -> adv_set_at gesv dim p dirs outs bnds tau theta dt P i (local x i) (nth st0 data i) =
      Ok (nth st0 data' i)].
Proof.
move=> sx [sd hd].
pose gs (e : nat) (A : 'M[F]_(m, nb)) S :=
  if adv_set_at gesv dim p dirs outs bnds tau theta dt P e (rows_of A) S is Ok S' then S' else S.
have gsE e dofs S : @shaped F dim nb dofs ->
    adv_set_at gesv dim p dirs outs bnds tau theta dt P e dofs S = Ok (gs e (dmx dim nb dofs) S).
  move=> /shaped_trace hx; rewrite /gs (rows_of_dmx hx).
  have [X [hX _ _]] := adv_solve1 dirs bnds (hP e) hg t0 c0 S hx.
  by rewrite /adv_set_at /ap_set_data hX.
have [|data' [h1 h2 h3]] := @set_dataE F nat dim nb _ st0 n_nodes (indexed nodes) x junk
  (adv_set_at gesv dim p dirs outs bnds tau theta dt P) gs data sx hv hj gsE.
  by rewrite size_indexed sd.
exists data'; split=> //; first by rewrite h2.
move=> i hi; rewrite (h3 i ([::], 0%N)) size_indexed hi indexed_nth //= -local_dmx.
by rewrite gsE //; apply/shaped_trace; exact: local_trace.
Qed.
Lemma adv_glob_step data (x : seq F) : size x = N -> adv_free dim p n_nodes fin x -> adv_states_ok dim p nodes data ->
  exists data', [/\ glob_adv_set gesv dim p dirs outs bnds tau theta dt nodes junk P x data = Ok data',
    size data' = size nodes & forall i, (i < size nodes)%N -> exists u,
      adv_step dim nb dirs bnds tau theta dt (P i) (nth st0 data i) (local x i) u /\
      adv_stored dim nb dirs outs bnds tau (P i) (local x i) (u : 'cV[F]_nf) (nth st0 data' i)].
Proof.
move=> sx ox hd; have [data' [h1 h2 h3]] := adv_glob_setP sx hd.
exists data'; split=> // i hi; case: hd => _ hd.
have [S' [u [hS' hs hst]]] := adv_set_free outs (hP i) hg t0 c0 (local_trace dim p nodes x i) (free_local hi ox) (hd i hi).
have := h3 i hi; rewrite /adv_set_at hS' => -[<-].
by exists u.
Qed.
Lemma adv_step_settled data (x : seq F) data' : adv_states_ok dim p nodes data ->
  adv_time_step gesv dim p dirs outs bnds tau theta dt nodes n_nodes junk fin P data x data' ->
  adv_settled dim p dirs outs bnds tau nodes n_nodes fin P x data'.
Proof.
move=> hok [sx ox hr hs']; have [data2 [h1 h2 h3]] := adv_glob_step sx ox hok.
move: h1 h2 h3; rewrite hs' => -[<-] h2 h3; split=> // i hi.
by have [u [_ a2]] := h3 i hi; exists u.
Qed.
Lemma adv_settled_ok (x0 : seq F) data : adv_settled dim p dirs outs bnds tau nodes n_nodes fin P x0 data ->
  adv_states_ok dim p nodes data.
Proof. by case=> sd _ _ h; split=> // i /h [u []]. Qed.
(** The residual as a sum over the regular faces. *)
Lemma res_pair data (x y : seq F) : size x = N -> size y = N ->
  glob_adv_res gesv dim p dirs outs bnds tau theta dt nodes n_nodes junk P data x = Ok (nseq N 0) ->
  \sum_(i < size nodes) fdot (local_part dim nb (nth [::] nodes i) y)
    (psi data i (local_part dim nb (nth [::] nodes i) x)) = 0.
Proof.
move=> sx sy hr.
transitivity (vdot N y (nseq N 0)); last by rewrite /vdot big1 // => d _; rewrite nth_nseq if_same mulr0.
rewrite (masked_pair (@ag_ok data) hv hj sx sy hr) (big_nth ([::], 0%N)) big_mkord size_indexed.
by apply: eq_bigr => i _; rewrite indexed_nth.
Qed.
Lemma fdot_local (y : seq F) i (A : 'M[F]_(m, nb)) : fdot (local_part dim nb (nth [::] nodes i) y) A =
  \sum_(k < m) dotv (tr nb (local y i) k) (row k A)^T.
Proof.
apply: eq_bigr => k _; apply: eq_bigr => j _; rewrite tr_local !mxE //.
Qed.
Lemma psi_row data (x : seq F) i u (k : 'I_m) : (i < size nodes)%N ->
  adv_step dim nb dirs bnds tau theta dt (P i) (nth st0 data i) (local x i) u ->
  (row k (psi data i (local_part dim nb (nth [::] nodes i) x)))^T = (if fin (node i k) then 0 else
     theta *: adv_flux dim nb outs bnds tau (P i) (local x i) (u : 'cV[F]_nf) k + (1 - theta) *: adv_old_flux nb (nth st0 data i) k).
Proof.
move=> hi hs.
have [y [u' [hy hs2 [sy fy]]]] := adv_residual dirs outs bnds (hP i) hg t0 c0 (nth st0 data i) (local_trace dim p nodes x i) hz.
have eu := adv_unique (hP i) t0 c0 hs2 hs; rewrite eu in fy.
have := ag_psi (local_trace dim p nodes x i) hy; rewrite !local_dmx => ->.
have [<- _] := hc hi (ltn_ord k); rewrite -fy; apply/colP => j; by rewrite !mxE.
Qed.

(** ** Stability *)
Definition edge_loss (x : seq (seq F)) (u : 'cV[F]_nf) i : F :=
  \sum_(k < m) \sum_(s < up_n (W i) k) `|up_w (W i) k s| *
     (pval (up_phi (W i) k s) u - pval (up_psi (W i) k s) (tr nb (cut dim (fun k => reg (node i k)) x) k)) ^+ 2.
Lemma edge_loss_ge0 x u i : 0 <= edge_loss x u i.
Proof. by apply: sumr_ge0 => k _; apply: sumr_ge0 => s _; rewrite mulr_ge0 ?normr_ge0 ?sqr_ge0. Qed.
Section Stable.
Hypothesis hcons : wind_conserved dim p nodes n_nodes fin fout W.
Hypothesis hleave : wind_leaves dim nodes fin fout W.
Lemma edge_rate (x : seq F) (u : 'cV[F]_nf) i : (i < size nodes)%N -> adv_free dim p n_nodes fin x ->
  2%:R * dotv u (hom_rate dim nb tau (P i) (local x i) u) = - edge_loss (local x i) u i +
  \sum_(k < m | reg (node i k)) (dotv (tr nb (local x i) k) (wind_matrix nb (W i) k *m tr nb (local x i) k) -
     2%:R * dotv (tr nb (local x i) k) (full_flux dim nb tau (P i) (local x i) u k)).
Proof.
move=> hi ox; apply: (@edge_law F dim nb nf tau (P i) (W i) (fun k => reg (node i k)) (hW i)) => // k.
rewrite tr_local /regular negb_and !negbK => hk.
case hf : (fin (node i k)); first by left; rewrite (free_node (node_lt k hi) ox).
by right => s hs; apply: (hleave hi (ltn_ord k)) => //; move: hk; rewrite hf.
Qed.
(** All hyperedges together: the fluxes through regular faces remain. *)
Lemma sum_rate (x : seq F) (u : nat -> 'cV[F]_nf) : adv_free dim p n_nodes fin x ->
  \sum_(i < size nodes) 2%:R * dotv (u i) (hom_rate dim nb tau (P i) (local x i) (u i)) =
  - (\sum_(i < size nodes) edge_loss (local x i) (u i) i) -
  2%:R * \sum_(i < size nodes) \sum_(k < m | reg (node i k))
     dotv (tr nb (local x i) k) (full_flux dim nb tau (P i) (local x i) (u i) k).
Proof.
move=> ox.
rewrite (eq_bigr (fun i : 'I_(size nodes) => - edge_loss (local x i) (u i) i +
  (\sum_(k < m | reg (node i k)) dotv (tr nb (local x i) k) (wind_matrix nb (W i) k *m tr nb (local x i) k) -
   2%:R * \sum_(k < m | reg (node i k)) dotv (tr nb (local x i) k) (full_flux dim nb tau (P i) (local x i) (u i) k)))); last first.
  by move=> i _; rewrite edge_rate // sumrB mulr_sumr.
by rewrite big_split sumrN /= sumrB wind_cancel // sub0r mulr_sumr.
Qed.
Notation norm2 S := (dotv (adv_u nf S) (adv_u nf S)).
Lemma adv_energyE data : adv_energy dim p nodes P data = \sum_(i < size nodes) ap_area (P i) * norm2 (nth st0 data i).
Proof.
apply: eq_bigr => i _; congr (_ * _); rewrite /dotv; apply: eq_bigr => j _; by rewrite !mxE expr2.
Qed.
Section ZeroData.
Hypothesis zd : adv_zero_data dim p nodes P.
Lemma zero_rate (x : seq (seq F)) (u : 'cV[F]_nf) i : (i < size nodes)%N ->
  adv_rate dim nb dirs bnds tau (P i) x u = hom_rate dim nb tau (P i) x u.
Proof.
move=> hi; have [h1 h2] := zd hi; rewrite adv_rateE.
rewrite (_ : col_of nf (ap_src (P i)) = 0) ?big1 ?subrr ?addr0 // => [k _|]; apply/colP => j; rewrite !mxE.
  exact: h2.
exact: h1.
Qed.
Definition adv_quasi (x0 : seq F) data := forall i, (i < size nodes)%N ->
  [/\ adv_state_ok dim nb nf (nth st0 data i),
      (1 - theta) *: adv_old_rate nf (nth st0 data i) =
        (1 - theta) *: hom_rate dim nb tau (P i) (local x0 i) (adv_u nf (nth st0 data i))
    & forall k : 'I_m, (1 - theta) *: adv_old_flux nb (nth st0 data i) k =
        (1 - theta) *: adv_flux dim nb outs bnds tau (P i) (local x0 i) (adv_u nf (nth st0 data i)) k].
Lemma adv_quasi_energy data (x0 x : seq F) data' : size data = size nodes -> size x0 = N ->
  adv_free dim p n_nodes fin x0 -> adv_quasi x0 data -> 1 <= 2%:R * theta ->
  adv_time_step gesv dim p dirs outs bnds tau theta dt nodes n_nodes junk fin P data x data' ->
  adv_energy dim p nodes P data' <= adv_energy dim p nodes P data.
Proof.
move=> sd sx0 ox0 hq hth [sx ox hr hs'].
have hok : adv_states_ok dim p nodes data by split=> // i /hq [].
have [data2 [h1 _ h3]] := adv_glob_step sx ox hok.
move: h1 h3; rewrite hs' => -[<-] h3.
pose xm := axpy theta x [seq (1 - theta) * a | a <- x0].
have sxm : size xm = N by rewrite size_axpy.
have xmE d : (d < N)%N -> nth 0 xm d = theta * nth 0 x d + (1 - theta) * nth 0 x0 d.
  by move=> hd; rewrite nth_axpy ?sx // (nth_map 0) ?sx0.
have oxm : adv_free dim p n_nodes fin xm by move=> d hd hf; rewrite xmE // ox // ox0 // !mulr0 addr0.
have trm i (k : 'I_m) : (i < size nodes)%N ->
   tr nb (local xm i) k = theta *: tr nb (local x i) k + (1 - theta) *: tr nb (local x0 i) k.
  move=> hi; rewrite !tr_local; apply/colP => j; rewrite !mxE xmE //; apply: dof_lt; exact: node_lt.
pose v i := adv_u nf (nth st0 data' i); pose v0 i := adv_u nf (nth st0 data i).
pose um i := theta *: v i + (1 - theta) *: v0 i.
have stp i : (i < size nodes)%N -> adv_step dim nb dirs bnds tau theta dt (P i) (nth st0 data i) (local x i) (v i).
  by move=> hi; have [u [a1 [_ a2 _ _]]] := h3 i hi; rewrite /v a2.
have key i : (i < size nodes)%N -> ap_area (P i) *: (v i - v0 i) = dt *: hom_rate dim nb tau (P i) (local xm i) (um i).
  move=> hi; have := stp i hi; rewrite /adv_step zero_rate // => ->.
  have [_ -> _] := hq i hi; rewrite (@rate_mix _ _ _ _ _ _ theta (local x i) (local x0 i)) // => k; exact: trm.
have h0 := res_pair sx sxm hr.
have pairE i : (i < size nodes)%N -> fdot (local_part dim nb (nth [::] nodes i) xm)
    (psi data i (local_part dim nb (nth [::] nodes i) x)) = \sum_(k < m | reg (node i k))
     dotv (tr nb (local xm i) k) (full_flux dim nb tau (P i) (local xm i) (um i) k).
  move=> hi; rewrite fdot_local [RHS]big_mkcond; apply: eq_bigr => k _.
  rewrite (psi_row k hi (stp i hi)) /regular; case hf : (fin _) => /=; first by rewrite dotv0r.
  have [_ _ ->] := hq i hi; rewrite -(@flux_mix _ _ _ _ _ _ theta outs bnds (local x i) (local x0 i) (local xm i)); last first.
    by move=> k'; exact: trm.
  have [_ ho] := hc hi (ltn_ord k).
  case hf' : (fout _) => /=; first by rewrite outflow_flux ?ho // dotv0r.
  by rewrite /adv_flux ho hf'.
rewrite -subr_ge0 !adv_energyE -sumrB.
rewrite (eq_bigr (fun i : 'I_(size nodes) => ap_area (P i) * ((2%:R * theta - 1) * dotv (v i - v0 i) (v i - v0 i)) -
   dt * (2%:R * dotv (um i) (hom_rate dim nb tau (P i) (local xm i) (um i))))); last first.
  move=> i _; have /(congr1 (fun a => 2%:R * dotv (um i) a)) := key i (ltn_ord i); rewrite !dotvZr.
  rewrite [2%:R * (dt * _)]mulrCA => <-; rewrite [2%:R * (_ * _)]mulrCA dot_mix -/(v i) -/(v0 i).
  by move: (dotv _ _) (dotv _ _) (dotv _ _) => *; ring.
rewrite sumrB -mulr_sumr (sum_rate (fun i => um i) oxm).
rewrite (_ : \sum_(i < size nodes) \sum_(k < m | _) _ = 0) ?mulr0 ?subr0; last first.
  by rewrite -[RHS]h0; apply: eq_bigr => i _; rewrite pairE.
rewrite mulrN opprK; apply: addr_ge0.
  apply: sumr_ge0 => i _; rewrite mulr_ge0 ?(ltW (up_area (hW i))) // mulr_ge0 ?dotv_ge0 //; by rewrite subr_ge0.
rewrite mulr_ge0 ?(ltW dt0) //; apply: sumr_ge0 => i _; exact: edge_loss_ge0.
Qed.
Lemma adv_settled_quasi (x0 : seq F) data : adv_settled dim p dirs outs bnds tau nodes n_nodes fin P x0 data -> adv_quasi x0 data.
Proof.
case=> _ _ _ h i hi; have [u [h2 h3 h4 h5]] := h i hi; rewrite h3; split=> //.
  by rewrite h4 zero_rate.
by move=> k; rewrite h5.
Qed.
Lemma adv_stable data (x0 x : seq F) data' : 1 <= 2%:R * theta ->
  adv_settled dim p dirs outs bnds tau nodes n_nodes fin P x0 data ->
  adv_time_step gesv dim p dirs outs bnds tau theta dt nodes n_nodes junk fin P data x data' ->
  adv_energy dim p nodes P data' <= adv_energy dim p nodes P data.
Proof.
move=> hth hs ht1; have [sd sx0 ox0 _] := hs.
exact: adv_quasi_energy sd sx0 ox0 (adv_settled_quasi hs) hth ht1.
Qed.
Lemma adv_stable_euler data (x : seq F) data' : theta = 1 -> adv_states_ok dim p nodes data ->
  adv_time_step gesv dim p dirs outs bnds tau theta dt nodes n_nodes junk fin P data x data' ->
  adv_energy dim p nodes P data' <= adv_energy dim p nodes P data.
Proof.
move=> th1 hs ht1; apply: (@adv_quasi_energy data (nseq N 0) x data') => //.
- by case: hs.
- by rewrite size_nseq.
- by move=> d hd _; rewrite nth_nseq if_same.
- by case: hs => _ hs i hi; split=> [|//|k]; [exact: hs | rewrite th1 subrr !scale0r | rewrite th1 subrr !scale0r].
- by rewrite th1 mulr1 ler1n.
Qed.
Lemma adv_stable_run n (xs : nat -> seq F) (ds : nat -> seq (ap_state F)) : 1 <= 2%:R * theta ->
  adv_settled dim p dirs outs bnds tau nodes n_nodes fin P (xs 0%N) (ds 0%N) ->
  (forall k, (k < n)%N ->
     adv_time_step gesv dim p dirs outs bnds tau theta dt nodes n_nodes junk fin P (ds k) (xs k.+1) (ds k.+1)) ->
  adv_energy dim p nodes P (ds n) <= adv_energy dim p nodes P (ds 0%N).
Proof.
move=> hth h0 hn.
have hs k : (k <= n)%N -> adv_settled dim p dirs outs bnds tau nodes n_nodes fin P (xs k) (ds k).
  elim: k => [//|k IH] hk; apply: adv_step_settled (hn k hk); exact: adv_settled_ok (IH (ltnW hk)).
suff h k : (k <= n)%N -> adv_energy dim p nodes P (ds k) <= adv_energy dim p nodes P (ds 0%N) by exact: h.
elim: k => [//|k IH] hk; apply: le_trans (IH (ltnW hk)).
exact: adv_stable hth (hs k (ltnW hk)) (hn k hk).
Qed.
End ZeroData.

(** ** Solvability *)
Lemma phi_row data (x : seq F) i u (k : 'I_m) : (i < size nodes)%N ->
  hom_adv_step dim nb tau theta dt (P i) (local x i) u ->
  (row k (phi data i (local_part dim nb (nth [::] nodes i) x)))^T = (if fin (node i k) then 0 else
     theta *: adv_flux dim nb outs bnds tau (P i) (local x i) (u : 'cV[F]_nf) k).
Proof.
move=> hi hs.
have [y [u' [hy hs2 [sy fy]]]] := adv_trace_to_flux dirs outs bnds (hP i) hg t0 c0 (nth st0 data i) (local_trace dim p nodes x i) hz.
have eu := adv_hom_unique (hP i) t0 c0 hs2 hs; rewrite eu in fy.
have := af_phi (local_trace dim p nodes x i) hy; rewrite !local_dmx => ->.
have [<- _] := hc hi (ltn_ord k); rewrite -fy; apply/colP => j; by rewrite !mxE.
Qed.
Section Definite.
Hypothesis hdef : wind_definite dim p nodes n_nodes fin fout W.
Notation op data x := (glob_adv_op gesv dim p dirs outs bnds tau theta dt nodes n_nodes junk P data x).
Notation res data x := (glob_adv_res gesv dim p dirs outs bnds tau theta dt nodes n_nodes junk P data x).
Lemma adv_inj data (x : seq F) : size x = N -> adv_free dim p n_nodes fin x -> op data x = Ok (nseq N 0) ->
  forall d, (d < N)%N -> ~~ fout (d %/ nb) -> nth 0 x d = 0.
Proof.
move=> sx ox hx.
pose u i : 'cV[F]_nf := if ap_solve_local_problem gesv dim p dirs bnds tau theta dt (P i) (nth st0 data i) 0 (local x i) is Ok X
   then col_of nf (nth 0 X) else 0.
have hu i : hom_adv_step dim nb tau theta dt (P i) (local x i) (u i).
  by have [X [e _ h]] := adv_solve0 dirs bnds (hP i) hg t0 c0 (nth st0 data i) (local_trace dim p nodes x i); rewrite /u e.
have pr : \sum_(i < size nodes) \sum_(k < m | reg (node i k))
     dotv (tr nb (local x i) k) (full_flux dim nb tau (P i) (local x i) (u i) k) = 0.
  apply: (mulfI (lt0r_neq0 th0)); rewrite mulr0.
  transitivity (vdot N x (nseq N 0)); last by rewrite /vdot big1 // => d _; rewrite nth_nseq if_same mulr0.
  rewrite (masked_pair (@af_ok data) hv hj sx sx hx) (big_nth ([::], 0%N)) big_mkord size_indexed mulr_sumr.
  apply: eq_bigr => i _; rewrite indexed_nth // fdot_local [in LHS]big_mkcond mulr_sumr; apply: eq_bigr => k _.
  rewrite (phi_row data k (ltn_ord i) (hu i)) /regular; have [_ ho] := hc (ltn_ord i) (ltn_ord k).
  case: (fin _) => /=; first by rewrite dotv0r mulr0.
  rewrite dotvZr; case hf : (fout _) => /=; first by rewrite outflow_flux ?ho // dotv0r.
  by rewrite /adv_flux ho hf.
have tot : \sum_(i < size nodes) (2%:R * (ap_area (P i) * dotv (u i) (u i)) + theta * dt * edge_loss (local x i) (u i) i) = 0.
  rewrite big_split -mulr_sumr -mulr_sumr /=.
  have -> : 2%:R * (\sum_(i < size nodes) ap_area (P i) * dotv (u i) (u i)) =
     theta * dt * (\sum_(i < size nodes) 2%:R * dotv (u i) (hom_rate dim nb tau (P i) (local x i) (u i))).
    rewrite !mulr_sumr; apply: eq_bigr => i _; rewrite -dotvZr hu dotvZr mulrCA //.
  by rewrite (sum_rate u ox) pr mulr0 subr0 mulrN addNr.
have c1 : 0 < theta * dt by rewrite mulr_gt0.
have ge (i : 'I_(size nodes)) : true -> 0 <= 2%:R * (ap_area (P i) * dotv (u i) (u i)) + theta * dt * edge_loss (local x i) (u i) i.
  move=> _; apply: addr_ge0; last by rewrite mulr_ge0 ?edge_loss_ge0.
  by rewrite mulr_ge0 ?ler0n // mulr_ge0 ?dotv_ge0 // ltW // (up_area (hW i)).
have zero i : (i < size nodes)%N -> u i = 0 /\ edge_loss (local x i) (u i) i = 0.
  move=> hi; have := @psumr_eq0P _ _ _ _ ge tot (Ordinal hi) isT => /= /eqP.
  rewrite paddr_eq0 ?mulr_ge0 ?dotv_ge0 ?edge_loss_ge0 ?ler0n ?(ltW (up_area (hW i))) ?(ltW th0) ?(ltW dt0) //.
  rewrite !mulf_eq0 pnatr_eq0 /= (gt_eqF (up_area (hW i))) (gt_eqF th0) (gt_eqF dt0) /= dotv_eq0.
  by case/andP => /eqP -> /eqP ->.
move=> d hd hf; case hfi : (fin (d %/ nb)); first by rewrite ox.
have hlt : (d %/ nb < n_nodes)%N by rewrite ltn_divLR.
have hm : (d %% nb < nb)%N by rewrite ltn_mod.
have hr : reg (d %/ nb) by rewrite /regular hfi hf.
have : at_node x (d %/ nb) = 0; last by move/colP/(_ (Ordinal hm)); rewrite !mxE /= -divn_eq.
apply: (hdef hlt hr) => i k s hi hk ek hs; have [ui li] := zero i hi.
have l1 : forall k' : 'I_m, true -> 0 <= \sum_(s < up_n (W i) k') `|up_w (W i) k' s| *
     (pval (up_phi (W i) k' s) (u i) - pval (up_psi (W i) k' s) (tr nb (cut dim (fun k => reg (node i k)) (local x i)) k')) ^+ 2.
  by move=> k' _; apply: sumr_ge0 => s' _; rewrite mulr_ge0 ?normr_ge0 ?sqr_ge0.
have := @psumr_eq0P _ _ _ _ l1 li (Ordinal hk) isT => /= l2.
have l3 (s' : 'I_(up_n (W i) k)) : true -> 0 <= `|up_w (W i) k s'| *
     (pval (up_phi (W i) k s') (u i) - pval (up_psi (W i) k s') (tr nb (cut dim (fun k => reg (node i k)) (local x i)) (Ordinal hk))) ^+ 2.
  by move=> _; rewrite mulr_ge0 ?normr_ge0 ?sqr_ge0.
have := @psumr_eq0P _ _ _ _ l3 l2 (Ordinal hs) isT => /= /eqP.
rewrite ui pval0 sub0r sqrrN mulf_eq0 normr_eq0 sqrf_eq0 => /orP[/eqP|/eqP]; first by left.
by rewrite tr_cut /= ek hr (tr_local x i (Ordinal hk)) /= ek; right.
Qed.
Notation dir := (masked_dofs nb n_nodes fx).
Lemma moff_both (x : seq F) : moff nb n_nodes fx x <-> adv_free dim p n_nodes fin x /\ out_free dim p n_nodes fout x.
Proof.
split=> [h|[h1 h2] d hd /orP[]]; [split=> d hd hf; apply: h => //; by rewrite hf ?orbT | exact: h1 | exact: h2].
Qed.
Lemma adv_solution data : adv_ready dim p outs bnds theta P data -> exists x,
  [/\ size x = N, adv_free dim p n_nodes fin x, out_free dim p n_nodes fout x, res data x = Ok (nseq N 0)
    & forall x', size x' = N -> adv_free dim p n_nodes fin x' -> res data x' = Ok (nseq N 0) ->
      forall d, (d < N)%N -> ~~ fout (d %/ nb) -> nth 0 x' d = nth 0 x d].
Proof.
move=> hrd.
have opE x : size x = N -> op data x = elliptic_flux nb N dir junk (indexed nodes) (f data) x.
  exact: (masked_opE (mk := mk) (@af_ok data) (@af_ok data) (@af_mask data) nb0 hv hj mask_nodes).
have inj x : size x = N -> off_dir dir x -> elliptic_flux nb N dir junk (indexed nodes) (f data) x = Ok (nseq N 0) ->
    x = nseq N 0.
  move=> sx /moffE/moff_both[o1 o2]; rewrite -opE // => hx.
  apply: (@eq_from_nth _ 0); rewrite ?size_nseq // sx => d hd; rewrite nth_nseq hd.
  case hf : (fout (d %/ nb)); first exact: o2.
  by apply: (adv_inj sx o1 hx); rewrite ?hf.
have resP x (sx : size x = N) := masked_resP (mk := mk) (@af_ok data) (@ag_ok data) (@af_mask data) (ag_mask hrd) (@af_linear data)
   (@ag_affine data) nb0 (fx := fx) hv hj mask_nodes sx.
have [r0 [h0 s0 o0 _]] := resP _ (size_nseq N 0).
have P1 x' : size x' = N -> res data x' = Ok (nseq N 0) <-> op data x' = Ok (neg_res0 r0).
  by move=> sx'; have [r1 [h1 s1 o1 h2]] := resP x' sx'; move: h1; rewrite h0 => -[->]; exact: h2.
have [||x [sx ox hx ux]] := flux_solvable (phi_computes (@af_ok data)) (@af_linear data) hv hj (masked_lt nb n_nodes fx) inj
  (r := neg_res0 r0).
- by rewrite size_map.
- apply/moffE => d hd hf; rewrite (nth_map 0) ?s0 // o0 // oppr0 //.
have /moffE/moff_both[o1 o2] := ox.
exists x; split=> //; first by apply/P1 => //; rewrite opE.
move=> x' sx' ox' /P1 hx' d hd hf.
have hx1 : op data x = Ok (neg_res0 r0) by rewrite opE.
have := hx' sx'.
have sy : size (axpy (-1) x x') = N by rewrite size_axpy.
have yE d' : (d' < N)%N -> nth 0 (axpy (-1) x x') d' = nth 0 x' d' - nth 0 x d'.
  by move=> hd'; rewrite nth_axpy ?sx // mulN1r addrC.
have oy : adv_free dim p n_nodes fin (axpy (-1) x x') by move=> d' hd' hf'; rewrite yE // ox' // o1 // subrr.
have [z [hz1 sz ez]] := elliptic_fluxE (phi_computes (@af_ok data)) hv hj sx (isT : all _ [::]).
have [z' [hz' sz' ez']] := elliptic_fluxE (phi_computes (@af_ok data)) hv hj sx' (isT : all _ [::]).
have [w [hw sw ew]] := elliptic_fluxE (phi_computes (@af_ok data)) hv hj sy (isT : all _ [::]).
move: hx1; rewrite /glob_adv_op hz1 hz' => -[e1] [e2].
have hw0 : op data (axpy (-1) x x') = Ok (nseq N 0).
  rewrite /glob_adv_op hw; congr Ok; apply: (@eq_from_nth _ 0); rewrite ?size_nseq sw sy // => d' hd'.
  rewrite nth_nseq hd' ew in_nil (global_linear _ _ _ _ hv (@af_linear data)); last by rewrite sx.
  have := ez d'; have := ez' d'; rewrite !in_nil e1 e2 => <- <-; by rewrite mulN1r addNr.
by have /eqP := adv_inj sy oy hw0 hd hf; rewrite yE // subr_eq0 => /eqP.
Qed.
Lemma adv_step_exists data : adv_ready dim p outs bnds theta P data -> adv_states_ok dim p nodes data -> exists x data',
  adv_time_step gesv dim p dirs outs bnds tau theta dt nodes n_nodes junk fin P data x data' /\
  adv_settled dim p dirs outs bnds tau nodes n_nodes fin P x data'.
Proof.
move=> hrd hd; have [x [sx ox _ hr _]] := adv_solution hrd.
have [data' [h1 _ _]] := adv_glob_step sx ox hd.
have hts : adv_time_step gesv dim p dirs outs bnds tau theta dt nodes n_nodes junk fin P data x data' by split.
by exists x, data'; split=> //; exact: adv_step_settled hts.
Qed.
End Definite.
End Stable.

(** ** Balance of mass *)
Lemma firstE n (v : 'cV[F]_n) (n0 : (0 < n)%N) : first v = v (Ordinal n0) 0.
Proof. by rewrite /first (big_pred1 (Ordinal n0)). Qed.
Lemma dot_e0 n (v : 'cV[F]_n) : (0 < n)%N -> dotv (e0 n 1) v = first v.
Proof.
move=> n0; rewrite firstE /dotv (bigD1 (Ordinal n0)) //= !mxE /= mul1r big1 ?addr0 // => j hj'.
rewrite mxE; case: eqP => e; rewrite ?mul0r //; case/eqP: hj'; exact: val_inj.
Qed.
Lemma adv_mass_balance (P0 : nat -> ap_data F) data (x0 x : seq F) data' : (forall i, adv_data dim nb nf (P0 i)) ->
  adv_classes dim dirs outs bnds nodes fin fout P0 ->
  adv_settled dim p dirs outs bnds tau nodes n_nodes fin P0 x0 data ->
  adv_time_step gesv dim p dirs outs bnds tau theta dt nodes n_nodes junk fin P data x data' ->
  adv_mass dim p nodes P data' - adv_mass dim p nodes P data = dt *
    (theta * (adv_sources nodes P - adv_leaving dim p tau nodes fin fout P x data') +
     (1 - theta) * (adv_sources nodes P0 - adv_leaving dim p tau nodes fin fout P0 x0 data)).
Proof.
move=> hP0 hc0 hs [sx ox hr hs']; have [sd sx0 ox0 hst] := hs.
have hok : adv_states_ok dim p nodes data by split=> // i /hst [u []].
have [data2 [h1 h2 h3]] := adv_glob_setP sx hok.
move: h1 h2 h3; rewrite hs' => -[<-] _ h3.
have nf0 : (0 < nf)%N by rewrite muln_gt0 nb0 addn1.
pose v i := adv_u nf (nth st0 data' i); pose v0 i := adv_u nf (nth st0 data i).
pose A i (k : 'I_m) := first (full_flux dim nb tau (P i) (local x i) (v i) k).
pose A0 i (k : 'I_m) := first (full_flux dim nb tau (P0 i) (local x0 i) (v0 i) k).
pose D (Q : nat -> ap_data F) i (k : 'I_m) := if fin (node i k) then ap_dirval (Q i) 0%N k else 0.
have st i : (i < size nodes)%N -> adv_stored dim nb dirs outs bnds tau (P0 i) (local x0 i) (v0 i) (nth st0 data i).
  by move=> hi; have [u hu] := hst i hi; have e : v0 i = u by [case: hu]; rewrite e.
have stp i : (i < size nodes)%N -> adv_step dim nb dirs bnds tau theta dt (P i) (nth st0 data i) (local x i) (v i).
  move=> hi; have [_ hd] := hok.
  have [S' [u [hS' hh [_ e _ _]]]] := adv_set_free outs (hP i) hg t0 c0 (local_trace dim p nodes x i) (free_local hi ox) (hd i hi).
  by have := h3 i hi; rewrite /adv_set_at hS' /v => -[<-]; rewrite e.
have bal i : (i < size nodes)%N -> ap_area (P i) * (nth 0 (ap_u_old (nth st0 data' i)) 0 - nth 0 (ap_u_old (nth st0 data i)) 0) =
    dt * (theta * (ap_src (P i) 0%N - \sum_(k < m) (A i k + D P i k)) +
          (1 - theta) * (ap_src (P0 i) 0%N - \sum_(k < m) (A0 i k + D P0 i k))).
  move=> hi; have [S' [u [e1 e2 e3]]] := adv_balance (hP i) hg t0 c0 (hP0 i) (st i hi) (local_trace dim p nodes x i) (free_local hi ox).
  have := h3 i hi; rewrite /adv_set_at e1 => -[eS]; rewrite eS in e2.
  have := e3 (Ordinal nf0) (Ordinal nb0) erefl erefl; rewrite -e2 !mxE /= => ->.
  have sp (Q : nat -> ap_data F) (z : seq F) w : adv_classes dim dirs outs bnds nodes fin fout Q ->
     ap_src (Q i) 0%N - \sum_(k < m) full_flux dim nb tau (Q i) (local z i) w k (Ordinal nb0) 0 -
     \sum_(k < m | inflow_face dirs bnds (Q i) k) ap_dirval (Q i) 0%N k =
     ap_src (Q i) 0%N - \sum_(k < m) (first (full_flux dim nb tau (Q i) (local z i) (w : 'cV[F]_nf) k) + D Q i k).
    move=> hQ; rewrite big_split opprD addrA; congr (_ - _ - _); first by apply: eq_bigr => k _; rewrite firstE.
    by rewrite [LHS]big_mkcond /=; apply: eq_bigr => k _; rewrite /D; have [-> _] := hQ i k hi (ltn_ord k).
  by rewrite !sp // e2.
pose y := mkseq (fun d => if reg (d %/ nb)%N && (d %% nb == 0)%N then 1 else 0 : F) N.
have ty i (k : 'I_m) : (i < size nodes)%N -> tr nb (local y i) k = if reg (node i k) then e0 nb 1 else 0.
  move=> hi; rewrite tr_local; apply/colP => j; rewrite mxE nth_mkseq; last by apply: dof_lt; exact: node_lt.
  rewrite divnMDl // divn_small // addn0 modnMDl modn_small //.
  by case: (reg _); rewrite mxE.
have z0 : \sum_(i < size nodes) \sum_(k < m | reg (node i k)) (theta * A i k + (1 - theta) * A0 i k) = 0.
  have := @res_pair data x y sx (size_mkseq _ _) hr => h0; rewrite -[RHS]h0.
  apply: eq_bigr => i _; rewrite fdot_local [LHS]big_mkcond; apply: eq_bigr => k _.
  rewrite ty //; case hr' : (reg _); last by rewrite dotv0l.
  rewrite (psi_row k (ltn_ord i) (stp i (ltn_ord i))) dot_e0 //.
  have [_ _ _ ->] := st i (ltn_ord i).
  move: hr'; rewrite /regular => /andP[/negbTE -> /negbTE hf].
  have [_ ho] := hc (ltn_ord i) (ltn_ord k); have [_ ho0] := hc0 i k (ltn_ord i) (ltn_ord k).
  rewrite /adv_flux ho ho0 hf /A /A0 !(firstE _ nb0).
  by move: (full_flux _ _ _ (P i) _ _ _) (full_flux _ _ _ (P0 i) _ _ _) => a b; rewrite !mxE.
have lv (Q : nat -> ap_data F) (B : nat -> 'I_m -> F) :
    \sum_(i < size nodes) (ap_src (Q i) 0%N - \sum_(k < m) (B i k + D Q i k)) =
    adv_sources nodes Q - (\sum_(i < size nodes) \sum_(k < m | ~~ reg (node i k)) (B i k + D Q i k)) -
    \sum_(i < size nodes) \sum_(k < m | reg (node i k)) B i k.
  rewrite /adv_sources -!sumrB; apply: eq_bigr => i _; rewrite -addrA -opprD; congr (_ - _).
  rewrite (bigID (fun k : 'I_m => reg (node i k))) /= addrC; congr (_ + _); apply: eq_bigr => k.
  by rewrite /D /regular => /andP[/negbTE -> _]; rewrite addr0.
rewrite /adv_mass -sumrB (eq_bigr (fun i : 'I_(size nodes) =>
    dt * (theta * (ap_src (P i) 0%N - \sum_(k < m) (A i k + D P i k)) +
          (1 - theta) * (ap_src (P0 i) 0%N - \sum_(k < m) (A0 i k + D P0 i k))))); last first.
  by move=> i _; rewrite -mulrBr bal.
rewrite -mulr_sumr big_split -mulr_sumr -mulr_sumr /= !lv; congr (_ * _).
move: z0; rewrite (eq_bigr (fun i : 'I_(size nodes) => theta * (\sum_(k < m | reg (node i k)) A i k) +
   (1 - theta) * (\sum_(k < m | reg (node i k)) A0 i k))); last by move=> i _; rewrite big_split !mulr_sumr.
rewrite big_split -!mulr_sumr /= -/(adv_leaving dim p tau nodes fin fout P x data') -/(adv_leaving dim p tau nodes fin fout P0 x0 data).
move: (\sum_(i < _) \sum_(k < _ | _) A i k) (\sum_(i < _) \sum_(k < _ | _) A0 i k) => a b.
move: (adv_sources nodes P) (adv_sources nodes P0) (adv_leaving _ _ _ _ _ _ P _ _) (adv_leaving _ _ _ _ _ _ P0 _ _) => s1 s2 l1 l2 e.
transitivity (theta * (s1 - l1) + (1 - theta) * (s2 - l2) - (theta * a + (1 - theta) * b)); first by ring.
by rewrite e subr0.
Qed.

(** ** Constants *)
Lemma seq_nondeg (r : seq F) : size r = N -> vdot N r r = 0 -> r = nseq N 0.
Proof.
move=> sr h; apply: (@eq_from_nth _ 0); rewrite ?size_nseq // sr => d hd; rewrite nth_nseq hd.
have ge (i : 'I_N) : true -> 0 <= nth 0 r i * nth 0 r i by move=> _; rewrite -expr2 sqr_ge0.
by have /eqP := @psumr_eq0P _ _ _ _ ge h (Ordinal hd) isT; rewrite mulf_eq0 orbb => /eqP.
Qed.
Lemma adv_constants data (x : seq F) c : wind_conserved dim p nodes n_nodes fin fout W ->
  (forall i, (i < size nodes)%N -> (forall j, (j < nf)%N -> ap_src (P i) j = 0) /\
     forall j k, (j < nf)%N -> (k < m)%N -> inflow_face dirs bnds (P i) k -> ap_dirval (P i) j k = c * ap_bpn (P i) j 0 k) ->
  size data = size nodes -> size x = N ->
  (forall v (j : 'I_nb), (v < n_nodes)%N -> nth 0 x (v * nb + j) = if fin v then 0 else c *+ (j == 0%N :> nat)) ->
  (forall i, (i < size nodes)%N -> adv_stored dim nb dirs outs bnds tau (P i) (local x i) (e0 nf c) (nth st0 data i)) ->
  exists data', adv_time_step gesv dim p dirs outs bnds tau theta dt nodes n_nodes junk fin P data x data' /\
    forall i, (i < size nodes)%N -> adv_stored dim nb dirs outs bnds tau (P i) (local x i) (e0 nf c) (nth st0 data' i).
Proof.
move=> hcons hd sd sx hx hst.
have nf0 : (0 < nf)%N by rewrite muln_gt0 nb0 addn1.
have ox : adv_free dim p n_nodes fin x.
  move=> d hd' hf; have hlt : (d %/ nb < n_nodes)%N by rewrite ltn_divLR.
  have hm : (d %% nb < nb)%N by rewrite ltn_mod.
  by have := hx _ (Ordinal hm) hlt; rewrite hf /= -divn_eq.
have tx i (k : 'I_m) : (i < size nodes)%N -> tr nb (local x i) k = if inflow_face dirs bnds (P i) k then 0 else e0 nb c.
  move=> hi; rewrite tr_local; have [-> _] := hc hi (ltn_ord k); apply/colP => j; rewrite mxE hx ?node_lt //.
  by case: (fin _); rewrite mxE //; case: eqP.
have r0 i : (i < size nodes)%N -> adv_rate dim nb dirs bnds tau (P i) (local x i) (e0 nf c) = 0.
  move=> hi; have [h1 h2] := hd i hi; apply: (const_rate (hW i)) => // [k|k j hj' hf]; first exact: tx.
  exact: h2.
have hok : adv_states_ok dim p nodes data by split=> // i hi; have [] := hst i hi.
have st i : (i < size nodes)%N -> exists S', [/\ adv_set_at gesv dim p dirs outs bnds tau theta dt P i (local x i) (nth st0 data i) = Ok S',
    adv_stored dim nb dirs outs bnds tau (P i) (local x i) (e0 nf c) S'
  & adv_step dim nb dirs bnds tau theta dt (P i) (nth st0 data i) (local x i) (e0 nf c)].
  move=> hi; have [S' [h1 h2 _]] := adv_steady (hP i) hg t0 c0 (hst i hi) (r0 i hi) (r0 i hi) (local_trace dim p nodes x i) (free_local hi ox) hz.
  exists S'; split=> //; have [_ e1 e2 _] := hst i hi.
  by rewrite /adv_step e1 e2 !r0 // subrr !scaler0 addr0 scaler0.
have [data' [h1 h2 h3]] := adv_glob_setP sx hok.
exists data'; split; last first.
  by move=> i hi; have [S' [e1 e2 _]] := st i hi; have := h3 i hi; rewrite e1 => -[<-].
split=> //.
have [w [hw sw ew]] := elliptic_fluxE (phi_computes (@ag_ok data)) hv hj sx (isT : all _ [::]).
have sw' : size w = N by rewrite sw.
rewrite /glob_adv_res hw (seq_nondeg sw') //.
rewrite (masked_pair (@ag_ok data) hv hj sx sw' hw) (big_nth ([::], 0%N)) big_mkord size_indexed.
transitivity (\sum_(i < size nodes) \sum_(k < m | reg (node i k)) dotv (at_node w (node i k)) (wind_matrix nb (W i) k *m e0 nb c)).
  apply: eq_bigr => i _; rewrite indexed_nth // fdot_local [RHS]big_mkcond; apply: eq_bigr => k _; rewrite tr_local.
  have [S' [_ _ stp]] := st i (ltn_ord i); rewrite (psi_row k (ltn_ord i) stp) /regular.
  have [hfi ho] := hc (ltn_ord i) (ltn_ord k); case hf : (fin _) => /=; first by rewrite dotv0r.
  have [_ _ _ ->] := hst i (ltn_ord i); rewrite -scalerDl addrC subrK scale1r.
  case hf' : (fout _) => /=; first by rewrite outflow_flux ?ho // dotv0r.
  by rewrite /adv_flux ho hf' (const_flux (hW i) (c := c)) // tx // hfi hf.
rewrite (by_nodes (fun i k => dotv (at_node w (node i k)) (wind_matrix nb (W i) k *m e0 nb c))) big1 // => v hr.
transitivity (dotv (at_node w v) ((\sum_(i < size nodes) \sum_(k < m | node i k == v) wind_matrix nb (W i) k) *m e0 nb c)).
  have dD a b : dotv (at_node w v) (a + b) = dotv (at_node w v) a + dotv (at_node w v) b by rewrite dotvDr.
  rewrite mulmx_suml dotv_sumr; apply: eq_bigr => i _.
  by rewrite mulmx_suml (big_morph _ dD (dotv0r (at_node w v))); apply: eq_bigr => k /eqP ->.
by rewrite hcons // mul0mx dotv0r.
Qed.

(** ** Hypernodes with free outflow *)
Lemma adv_singular data (x : seq F) : wind_leaves dim nodes fin fout W -> size x = N ->
  (forall d, (d < N)%N -> ~~ (fout (d %/ nb) && ~~ fin (d %/ nb)) -> nth 0 x d = 0) ->
  glob_adv_op gesv dim p dirs outs bnds tau theta dt nodes n_nodes junk P data x = Ok (nseq N 0).
Proof.
move=> hl sx hx.
have [w [hw sw ew]] := elliptic_fluxE (phi_computes (@af_ok data)) hv hj sx (isT : all _ [::]).
have sw' : size w = N by rewrite sw.
rewrite /glob_adv_op hw (seq_nondeg sw') //.
rewrite (masked_pair (@af_ok data) hv hj sx sw' hw) (big_nth ([::], 0%N)) big_mkord size_indexed big1 // => i _.
rewrite indexed_nth //=.
suff -> : phi data i (local_part dim nb (nth [::] nodes i) x) = 0.
  by rewrite /fdot big1 // => k _; rewrite big1 // => j _; rewrite [X in _ * X]mxE mulr0.
have [|y hy hy'] := adv_unseen dirs (outs := outs) (bnds := bnds) (hP i) hg t0 c0 (nth st0 data i) (hW i) tau0 (local_trace dim p nodes x i) hz hz hz.
  move=> k; rewrite tr_local; have [_ ho] := hc (ltn_ord i) (ltn_ord k).
  case h : (fout (node i k) && ~~ fin (node i k)).
    by right; rewrite ho; case/andP: h => h1 h2; split=> // s hs; apply: (hl i k s).
  left; rewrite tr_z; apply/colP => j; rewrite !mxE hx //; first by apply: dof_lt; exact: node_lt.
  by rewrite divnMDl // divn_small // addn0 h.
rewrite -local_dmx (af_phi (local_trace dim p nodes x i) hy) -(af_phi hz hy') dmx_zero.
by rewrite (local_linear0 _ (@af_linear data)).
Qed.
(** States from which a step can be made. *)
Lemma adv_settled_ready (P0 : nat -> ap_data F) (x0 : seq F) data : adv_classes dim dirs outs bnds nodes fin fout P0 ->
  adv_settled dim p dirs outs bnds tau nodes n_nodes fin P0 x0 data -> adv_ready dim p outs bnds theta P data.
Proof.
move=> hc0 [sd _ _ h] i k ho; case: (ltnP i (size nodes)) => hi.
  have [u [_ _ _ ->]] := h i hi; rewrite outflow_flux ?scaler0 //.
  by have [_ ->] := hc0 i k hi (ltn_ord k); have [_ <-] := hc hi (ltn_ord k).
rewrite nth_default ?sd //; apply/colP => j; rewrite !mxE /ap_state0 /= /M_DenseLA.mget nth_nseq if_same mulr0 //.
Qed.
Lemma adv_euler_ready data : theta = 1 -> adv_ready dim p outs bnds theta P data.
Proof. by move=> th1 i k _; rewrite th1 subrr scale0r. Qed.
End Time.
