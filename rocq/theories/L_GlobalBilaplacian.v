(** The global operator of Bilaplacian. *)
From mathcomp Require Import all_ssreflect all_algebra zify.
From Verif Require Import M_Base L_Base M_Lapack S_Lapack M_Global S_Global L_Global L_Global2 L_Global3 L_Global4.
From Verif Require Import S_Hdg S_Tpp M_DiffusionUniform M_Diffusion S_LocalSolver S_Diffusion S_TppGeo.
From Verif Require Import L_Hdg L_HdgSrc L_LocalBase L_LocalLink L_DiffusionUniform2 L_Diffusion2 L_GlobalUniform L_GlobalDiffusion.
From Verif Require Import M_Bilaplacian S_Bilaplacian L_Bilaplacian L_Bilaplacian3 L_Bilaplacian4 L_Bilaplacian5.
Set Implicit Arguments. Unset Strict Implicit. Unset Printing Implicit Defensive.
Import Order.TTheory GRing.Theory Num.Theory.
Local Open Scope ring_scope.

(** Global vectors with 2 nb dofs per node: the first and the second nb of every node. *)
Section Halves.
Variables (F : realFieldType) (E : Type) (dim nb n_nodes : nat).
Local Notation m := (2 * dim)%N.
Notation n2 := (2 * nb)%N.
Definition glo (x : seq F) : seq F := mkseq (fun d => nth 0 x (d %/ nb * n2 + d %% nb)) (n_nodes * nb).
Definition gup (x : seq F) : seq F := mkseq (fun d => nth 0 x (d %/ nb * n2 + (nb + d %% nb))) (n_nodes * nb).
Definition gmerge (a b : seq F) : seq F :=
  mkseq (fun d => if (d %% n2 < nb)%N then nth 0 a (d %/ n2 * nb + d %% n2) else nth 0 b (d %/ n2 * nb + (d %% n2 - nb)))
    (n_nodes * n2).
Lemma at_lt n v j : (v < n_nodes)%N -> (j < n)%N -> (v * n + j < n_nodes * n)%N.
Proof. by move=> hv hj; apply: (@leq_trans (v.+1 * n)); [rewrite mulSnr ltn_add2l | rewrite leq_mul2r hv orbT]. Qed.
Lemma divmod_at n v j : (j < n)%N -> ((v * n + j) %/ n = v)%N /\ ((v * n + j) %% n = j)%N.
Proof. by move=> hj; rewrite divnMDl ?modnMDl ?divn_small ?modn_small ?addn0 //; lia. Qed.
Lemma nth_glo x v j : (v < n_nodes)%N -> (j < nb)%N -> nth 0 (glo x) (v * nb + j) = nth 0 x (v * n2 + j).
Proof. by move=> hv hj; rewrite nth_mkseq ?at_lt //; have [-> ->] := divmod_at v hj. Qed.
Lemma nth_gup x v j : (v < n_nodes)%N -> (j < nb)%N -> nth 0 (gup x) (v * nb + j) = nth 0 x (v * n2 + (nb + j)).
Proof. by move=> hv hj; rewrite nth_mkseq ?at_lt //; have [-> ->] := divmod_at v hj. Qed.
Lemma merge_lo a b v j : (v < n_nodes)%N -> (j < nb)%N -> nth 0 (gmerge a b) (v * n2 + j) = nth 0 a (v * nb + j).
Proof.
move=> hv hj; have hj2 : (j < n2)%N by lia.
by rewrite nth_mkseq ?at_lt //; have [-> ->] := divmod_at v hj2; rewrite hj.
Qed.
Lemma merge_hi a b v j : (v < n_nodes)%N -> (j < nb)%N -> nth 0 (gmerge a b) (v * n2 + (nb + j)) = nth 0 b (v * nb + j).
Proof.
move=> hv hj; have hj2 : (nb + j < n2)%N by lia.
rewrite nth_mkseq ?at_lt //; have [-> ->] := divmod_at v hj2.
by rewrite ltnNge leq_addr addKn.
Qed.
Lemma dof_split n d : (0 < n)%N -> (d < n_nodes * n)%N -> (d %/ n < n_nodes)%N /\ (d %% n < n)%N.
Proof. by move=> n0 hd; rewrite ltn_divLR // ltn_mod. Qed.
Lemma vec_ext n (x y : seq F) : size x = (n_nodes * n)%N -> size y = (n_nodes * n)%N ->
  (forall v j, (v < n_nodes)%N -> (j < n)%N -> nth 0 x (v * n + j) = nth 0 y (v * n + j)) -> x = y.
Proof.
move=> sx sy h; case: (posnP n) => [n0|n0].
  by move: sx sy; rewrite n0 muln0 => /size0nil -> /size0nil ->.
apply: (@eq_from_nth _ 0); rewrite ?sx ?sy // => d hd; rewrite (divn_eq d n).
by have [h1 h2] := dof_split n0 hd; exact: h.
Qed.
Lemma vec_ext2 (x y : seq F) : size x = (n_nodes * n2)%N -> size y = (n_nodes * n2)%N ->
  glo x = glo y -> gup x = gup y -> x = y.
Proof.
move=> sx sy e1 e2; apply: (vec_ext sx sy) => v j hv hj; case: (ltnP j nb) => hjb.
  by rewrite -!nth_glo // e1.
have -> : j = (nb + (j - nb))%N by lia.
by rewrite -!nth_gup ?e2 //; lia.
Qed.
Lemma glo_merge a b : size a = (n_nodes * nb)%N -> glo (gmerge a b) = a.
Proof.
move=> sa; apply: (vec_ext (size_mkseq _ _) sa) => v j hv hj; by rewrite nth_glo // merge_lo.
Qed.
Lemma gup_merge a b : size b = (n_nodes * nb)%N -> gup (gmerge a b) = b.
Proof.
move=> sb; apply: (vec_ext (size_mkseq _ _) sb) => v j hv hj; by rewrite nth_gup // merge_hi.
Qed.

(** Contributions to the dofs of a node. *)
Lemma scattered_at n (nodes : seq nat) (A : 'M[F]_(m, n)) v (j : 'I_n) :
  scattered nodes A (v * n + j) = \sum_(k < m) (if nth 0%N nodes k == v then A k j else 0).
Proof.
apply: eq_bigr => k _; rewrite (sum_ord1 (i := j)) => [|i hne].
  have n0 : (n == 0)%N = false by apply: negbTE; rewrite -lt0n; apply: leq_trans (ltn_ord j).
  by rewrite eqn_add2r eqn_mul2r n0.
case: eqP => // h; case/negP: hne; apply/eqP.
have [_ <-] := divmod_at (nth 0%N nodes k) (ltn_ord i).
by rewrite h; have [_ ->] := divmod_at v (ltn_ord j).
Qed.
Definition lo_ord (j : 'I_nb) : 'I_n2 := Ordinal (leq_trans (ltn_ord j) (leq_pmull nb (isT : 0 < 2)%N)).
Lemma hi_lt (j : 'I_nb) : (nb + j < n2)%N. Proof. by have := ltn_ord j; lia. Qed.
Definition hi_ord (j : 'I_nb) : 'I_n2 := Ordinal (hi_lt j).
Definition lo_mx (A : 'M[F]_(m, n2)) : 'M[F]_(m, nb) := \matrix_(k, j) A k (lo_ord j).
Definition hi_mx (A : 'M[F]_(m, n2)) : 'M[F]_(m, nb) := \matrix_(k, j) A k (hi_ord j).
Lemma dmx_lower (x : seq (seq F)) : dmx dim nb (lower nb x) = lo_mx (dmx dim n2 x).
Proof. by apply/matrixP => k j; rewrite !mxE -!/(lambda_at _ _ _) lower_at. Qed.
Lemma dmx_upper (x : seq (seq F)) : dmx dim nb (upper nb x) = hi_mx (dmx dim n2 x).
Proof. by apply/matrixP => k j; rewrite !mxE -!/(lambda_at _ _ _) upper_at. Qed.
Section Part.
Variable nodes : seq nat.
Hypotheses (hs : size nodes = m) (hn : all (fun i => i < n_nodes)%N nodes).
Let hk (k : 'I_m) : (nth 0%N nodes k < n_nodes)%N.
Proof. by apply: (allP hn); rewrite mem_nth ?hs. Qed.
Lemma part_lo x : lo_mx (local_part dim n2 nodes x) = local_part dim nb nodes (glo x).
Proof. by apply/matrixP => k j; rewrite !mxE nth_glo. Qed.
Lemma part_hi x : hi_mx (local_part dim n2 nodes x) = local_part dim nb nodes (gup x).
Proof. by apply/matrixP => k j; rewrite !mxE nth_gup. Qed.
End Part.
Lemma valid_in (edges : seq (seq nat * E)) e : valid_graph dim n_nodes edges -> List.In e edges ->
  size e.1 = m /\ all (fun i => i < n_nodes)%N e.1.
Proof. by elim: edges => [//|a l IH] /= /andP[/andP[/eqP h1 h2] hv] [<-|]; [|exact: IH]. Qed.
End Halves.

Section Bilaplacian.
Variables (F : realFieldType) (E : Type) (dim p : nat) (dat : E -> bl_data F).
Variables (gesv : nat -> nat -> seq F -> seq F -> sv_result F) (tau : F).
Hypotheses (dim0 : (0 < dim)%N) (hD : forall e, diffusion_data dim p (bl_df (dat e))).
Hypotheses (hg : gesv_correct gesv) (tau0 : 0 < tau).
Variables dirs laps : seq nat.
Notation nb := ((p + 1) ^ (dim - 1))%N.
Notation n2 := (2 * nb)%N.
Local Notation m := (2 * dim)%N.
Notation zt := (zero_trace F dim n2).
Definition bl_fun : local_fun F E := fun e => bl_trace_to_flux gesv dim p dirs laps tau (dat e).
Definition bl_res_fun : local_fun F E := fun e => bl_residual_flux gesv dim p dirs laps tau (dat e).
Notation phi := (@phi_of F E dim n2 bl_fun).
Notation psi := (@phi_of F E dim n2 bl_res_fun).
(** The diffusion problem for w, and the one for u. *)
Let wdat e := w_problem (dat e).
Let hW e : diffusion_data dim p (wdat e). Proof. exact: w_data. Qed.
Notation dphi ds := (@phi_of F E dim nb (@diff_fun F E dim p wdat gesv tau ds)).

Lemma bl_fun_ok e x : is_trace m n2 x -> exists2 y, bl_fun e x (nseq m (nseq n2 0)) = Ok y & is_trace m n2 y.
Proof.
move=> hx; have [y hy [q [u [r [w [_ [sy _ _]]]]]]] := bilap_flux dirs laps dim0 (hD e) hg tau0 hx zt.
by exists y.
Qed.
Lemma bl_res_ok e x : is_trace m n2 x -> exists2 y, bl_res_fun e x (nseq m (nseq n2 0)) = Ok y & is_trace m n2 y.
Proof.
move=> hx; have [y hy [q [u [r [w [_ [sy _ _]]]]]]] := bilap_residual dirs laps dim0 (hD e) hg tau0 hx zt.
by exists y.
Qed.
Lemma bl_phi e x y : is_trace m n2 x -> bl_fun e x (nseq m (nseq n2 0)) = Ok y ->
  phi e (dmx dim n2 x) = dmx dim n2 y.
Proof. by move=> hx hy; rewrite /phi_of (rows_of_dmx hx) hy. Qed.
Lemma bl_linear : local_linear phi.
Proof.
move=> e a A B.
have [y [y' [hy hy' hc]]] := bilap_linear dirs laps dim0 (hD e) hg tau0 a (rows_trace A) (rows_trace B) zt zt zt.
have := bl_phi (comb_is_trace _ _ a (rows_of A) (rows_of B)) hc.
by rewrite !dmx_comb !rows_ofK => ->; rewrite -(bl_phi (rows_trace A) hy)
  -(bl_phi (rows_trace B) hy') !rows_ofK.
Qed.
(** The first halves of the fluxes are those of the diffusion problem with the second halves of the traces. *)
Lemma phi_lo e A : lo_mx (phi e A) = dphi dirs e (hi_mx A).
Proof.
have [y hy [q [u [r [w [[l1 _] [sy f1 _]]]]]]] := bilap_flux dirs laps dim0 (hD e) hg tau0 (rows_trace A) zt.
have := bl_phi (rows_trace A) hy; rewrite rows_ofK => ->; rewrite -dmx_lower.
have su := upper_trace (rows_trace A).
have [y' hy' fy'] := diffusion_flux dirs dim0 (hW e) hg tau0 su (zero_trace F dim nb).
have -> : hi_mx A = dmx dim nb (upper nb (rows_of A)) by rewrite dmx_upper rows_ofK.
rewrite (diff_phi su hy'); congr dmx.
by apply: (fs_unique (data_ok dim0 (hW e)) tau0 _ _ _ fy') => //; split; [exact: lower_trace sy | exists r, w].
Qed.
(** Without traces of w the second halves are those of the diffusion problem with the first halves. *)
Lemma phi_hi e A : hi_mx A = 0 -> hi_mx (phi e A) = dphi laps e (lo_mx A).
Proof.
move=> h0.
have [y hy [q [u [r [w [[l1 l2] [sy _ f2]]]]]]] := bilap_flux dirs laps dim0 (hD e) hg tau0 (rows_trace A) zt.
have := bl_phi (rows_trace A) hy; rewrite rows_ofK => ->; rewrite -dmx_upper.
have hz (f : 'I_m) : tr nb (upper nb (rows_of A)) f = 0 :> 'cV[F]_nb.
  apply/colP => j; have := dmx_upper dim nb (rows_of A); rewrite rows_ofK h0 => /matrixP/(_ f j).
  by rewrite !mxE.
have [er ew] := src_unique (data_ok dim0 (hW e)) tau0 l1 (zero_loc tau (dat e) hz).
rewrite ew mulmx0 addr0 in l2.
have su := lower_trace (rows_trace A).
have [y' hy' fy'] := diffusion_flux laps dim0 (hW e) hg tau0 su (zero_trace F dim nb).
have -> : lo_mx A = dmx dim nb (lower nb (rows_of A)) by rewrite dmx_lower rows_ofK.
rewrite (diff_phi su hy'); congr dmx.
have fy : flux_src (df_hdg dim p (wdat e)) tau (face_dirichlet laps (wdat e)) (lower nb (rows_of A)) (fun=> 0) 0 (upper nb y).
  by split; [exact: upper_trace sy | exists q, u].
exact: (fs_unique (data_ok dim0 (hW e)) tau0 _ _ fy fy').
Qed.

Variables (n_nodes : nat) (edges : seq (seq nat * E)) (junk : seq (seq F)) (nt : nat -> nat).
Hypotheses (hv : valid_graph dim n_nodes edges) (hj : size junk = m).
Hypothesis ht : types_agree (fun e => bl_df (dat e)) nt edges.
Notation N := (n_nodes * n2)%N.
Notation N1 := (n_nodes * nb)%N.
Notation op x := (elliptic_flux n2 N [::] junk edges bl_fun x).
Notation res x := (elliptic_flux n2 N [::] junk edges bl_res_fun x).
Notation dop ds x := (elliptic_flux nb N1 [::] junk edges (@diff_fun F E dim p wdat gesv tau ds) x).
Notation glo := (glo nb n_nodes). Notation gup := (gup nb n_nodes). Notation gmerge := (gmerge nb n_nodes).
Definition bl_off (x : seq F) : Prop := forall v j, (v < n_nodes)%N -> (j < nb)%N ->
  (nt v \in dirs -> nth 0 x (v * n2 + j) = 0) /\ (nt v \in laps -> nth 0 x (v * n2 + (nb + j)) = 0).

Lemma global_lo x v (j : 'I_nb) : global_op edges phi x (v * n2 + j) = global_op edges (dphi dirs) (gup x) (v * nb + j).
Proof.
rewrite /global_op; move: hv; elim: (edges) => [|e l IH] /=; first by rewrite !big_nil.
move=> /andP[/andP[/eqP h1 h2] hl]; rewrite !big_cons IH //; congr (_ + _).
rewrite -[(v * n2 + j)%N]/(v * n2 + lo_ord j)%N !scattered_at; apply: eq_bigr => k _; case: ifP => // _.
by rewrite -(part_hi nb h1 h2) -phi_lo mxE.
Qed.
Lemma global_hi x v (j : 'I_nb) : gup x = nseq N1 0 ->
  global_op edges phi x (v * n2 + (nb + j)) = global_op edges (dphi laps) (glo x) (v * nb + j).
Proof.
move=> h0; rewrite /global_op; move: hv; elim: (edges) => [|e l IH] /=; first by rewrite !big_nil.
move=> /andP[/andP[/eqP h1 h2] hl]; rewrite !big_cons IH //; congr (_ + _).
rewrite -[(v * n2 + (nb + j))%N]/(v * n2 + hi_ord j)%N !scattered_at; apply: eq_bigr => k _; case: ifP => // _.
rewrite -(part_lo nb h1 h2) -phi_hi ?mxE // (part_hi nb h1 h2) h0.
by apply/matrixP => k' j'; rewrite !mxE nth_nseq if_same.
Qed.
Lemma opP x : size x = N -> exists z, [/\ op x = Ok z, size z = N & forall d, nth 0 z d = global_op edges phi x d].
Proof.
move=> sx; have [z [hz sz ez]] := elliptic_fluxE (phi_computes bl_fun_ok) hv hj sx (isT : all _ [::]).
by exists z; split => //; rewrite sz.
Qed.
Lemma dopP ds x : size x = N1 ->
  exists z, [/\ dop ds x = Ok z, size z = N1 & forall d, nth 0 z d = global_op edges (dphi ds) x d].
Proof.
move=> sx; have hok := phi_computes (diff_ok dim0 hW hg tau0 ds).
have [z [hz sz ez]] := elliptic_fluxE hok hv hj sx (isT : all _ [::]).
by exists z; split => //; rewrite sz.
Qed.
(** op (a, b) = (S b, S a + K b). *)
Lemma op_lo x z : size x = N -> op x = Ok z -> dop dirs (gup x) = Ok (glo z).
Proof.
move=> sx; have [z' [-> sz ez]] := opP sx => -[<-].
have [y [-> sy ey]] := dopP dirs (size_mkseq _ _ : size (gup x) = N1); congr Ok.
apply: (vec_ext sy (size_mkseq _ _)) => v j hvn hjn; rewrite nth_glo // ey ez.
by rewrite -(global_lo x v (Ordinal hjn)).
Qed.
Lemma op_hi x z : size x = N -> gup x = nseq N1 0 -> op x = Ok z -> dop laps (glo x) = Ok (gup z).
Proof.
move=> sx h0; have [z' [-> sz ez]] := opP sx => -[<-].
have [y [-> sy ey]] := dopP laps (size_mkseq _ _ : size (glo x) = N1); congr Ok.
apply: (vec_ext sy (size_mkseq _ _)) => v j hvn hjn; rewrite nth_gup // ey ez.
by rewrite -(global_hi v (Ordinal hjn) h0).
Qed.

(** * Symmetry *)
Lemma local_off x e : List.In e edges -> bl_off x ->
  bi_vanishes dim p dirs laps (dat e.2) (rows_of (local_part dim n2 e.1 x)).
Proof.
move=> he ox; have [hs hn] := valid_in hv he.
have hk (f : 'I_m) : (nth 0%N e.1 f < n_nodes)%N by apply: (allP hn); rewrite mem_nth ?hs.
have hty ds (f : 'I_m) : face_dirichlet ds (bl_df (dat e.2)) f = (nt (nth 0%N e.1 f) \in ds).
  by rewrite /face_dirichlet /is_dirichlet (ht he) // hs.
split; apply/vanishesP => f; rewrite hty => hf; apply/colP => j.
  have /matrixP/(_ f j) := dmx_lower dim nb (rows_of (local_part dim n2 e.1 x)).
  by rewrite rows_ofK !mxE => ->; have [-> //] := ox _ _ (hk f) (ltn_ord j).
have /matrixP/(_ f j) := dmx_upper dim nb (rows_of (local_part dim n2 e.1 x)).
by rewrite rows_ofK !mxE => ->; have [_ -> //] := ox _ _ (hk f) (ltn_ord j).
Qed.
Lemma global_bilap_symmetric x y : size x = N -> size y = N -> bl_off x -> bl_off y ->
  exists u v, [/\ op x = Ok u, op y = Ok v & vdot N y u = vdot N x v].
Proof.
move=> sx sy ox oy; have [u [hu su eu]] := opP sx; have [v [hv' sv ev]] := opP sy.
exists u, v; split => //.
have dot z t a : (forall d, nth 0 t d = global_op edges phi a d) ->
    vdot N z t = \sum_(e <- edges) fdot (local_part dim n2 e.1 z) (phi e.2 (local_part dim n2 e.1 a)).
  by move=> ht'; rewrite -(global_dot _ _ _ hv); apply: eq_bigr => d _; rewrite ht'.
rewrite (dot y u x eu) (dot x v y ev).
have : forall e, List.In e edges -> fdot (local_part dim n2 e.1 y) (phi e.2 (local_part dim n2 e.1 x)) =
    fdot (local_part dim n2 e.1 x) (phi e.2 (local_part dim n2 e.1 y)).
  move=> e he; set X := local_part _ _ _ x; set Y := local_part _ _ _ y.
  have [a [b [ha hb hs]]] := bilap_symmetric dim0 (hD e.2) hg tau0 (rows_trace X) (rows_trace Y) zt zt
    (local_off he ox) (local_off he oy).
  by move: hs; rewrite !pairing_fdot -(bl_phi (rows_trace X) ha) -(bl_phi (rows_trace Y) hb) !rows_ofK.
elim: (edges) => [|e l IH] hl; first by rewrite !big_nil.
by rewrite !big_cons hl ?IH //; [move=> e' he'; apply: hl; right | left].
Qed.

(** * Ranges *)
Lemma phi_mask e A (k : 'I_m) (j : 'I_nb) :
  (face_dirichlet dirs (bl_df (dat e)) k -> lo_mx (phi e A) k j = 0) /\
  (face_dirichlet laps (bl_df (dat e)) k -> hi_mx (phi e A) k j = 0).
Proof.
have [y hy [q [u [r [w [_ [_ f1 f2]]]]]]] := bilap_flux dirs laps dim0 (hD e) hg tau0 (rows_trace A) zt.
have := bl_phi (rows_trace A) hy; rewrite rows_ofK => ->; rewrite -dmx_lower -dmx_upper; split=> hf.
  by have /colP/(_ j) := f1 k; rewrite hf !mxE.
by have /colP/(_ j) := f2 k; rewrite hf !mxE.
Qed.
Lemma psi_mask e A (k : 'I_m) (j : 'I_nb) :
  (face_dirichlet dirs (bl_df (dat e)) k -> lo_mx (psi e A) k j = 0) /\
  (face_dirichlet laps (bl_df (dat e)) k -> hi_mx (psi e A) k j = 0).
Proof.
have [y hy [q [u [r [w [_ [_ f1 f2]]]]]]] := bilap_residual dirs laps dim0 (hD e) hg tau0 (rows_trace A) zt.
have -> : psi e A = dmx dim n2 y by rewrite /phi_of /bl_res_fun hy.
rewrite -dmx_lower -dmx_upper; split=> hf.
  by have /colP/(_ j) := f1 k; rewrite hf !mxE.
by have /colP/(_ j) := f2 k; rewrite hf !mxE.
Qed.
Lemma face_node ds e (f : 'I_m) : List.In e edges ->
  face_dirichlet ds (bl_df (dat e.2)) f = (nt (nth 0%N e.1 f) \in ds).
Proof. by move=> he; have [hs hn] := valid_in hv he; rewrite /face_dirichlet /is_dirichlet (ht he) // hs. Qed.
Lemma range_off (ph : E -> 'M[F]_(m, n2) -> 'M[F]_(m, n2)) x z :
  (forall e A (k : 'I_m) (j : 'I_nb), (face_dirichlet dirs (bl_df (dat e)) k -> lo_mx (ph e A) k j = 0) /\
    (face_dirichlet laps (bl_df (dat e)) k -> hi_mx (ph e A) k j = 0)) ->
  (forall d, nth 0 z d = global_op edges ph x d) -> bl_off z.
Proof.
move=> hm ez v j hvn hjn; rewrite !ez /global_op.
have hf ds : forall e, List.In e edges -> forall f : 'I_m, nth 0%N e.1 f = v -> nt v \in ds ->
    face_dirichlet ds (bl_df (dat e.2)) f.
  by move=> e he f <-; rewrite -face_node.
split=> hin.
  elim: (edges) (hf dirs) => [|e l IH] hl; first by rewrite big_nil.
  rewrite big_cons IH ?addr0 => [|e' he']; last by apply: hl; right.
  rewrite -[(v * n2 + j)%N]/(v * n2 + lo_ord (Ordinal hjn))%N scattered_at big1 // => k _; case: eqP => // hk.
  have [h _] := hm e.2 (local_part dim n2 e.1 x) k (Ordinal hjn).
  by rewrite mxE in h; apply: h; apply: hl => //; left.
elim: (edges) (hf laps) => [|e l IH] hl; first by rewrite big_nil.
rewrite big_cons IH ?addr0 => [|e' he']; last by apply: hl; right.
rewrite -[(v * n2 + (nb + j))%N]/(v * n2 + hi_ord (Ordinal hjn))%N scattered_at big1 // => k _; case: eqP => // hk.
have [_ h] := hm e.2 (local_part dim n2 e.1 x) k (Ordinal hjn).
by rewrite mxE in h; apply: h; apply: hl => //; left.
Qed.
Lemma global_bilap_range x : size x = N -> exists z, [/\ op x = Ok z, size z = N & bl_off z].
Proof. by move=> sx; have [z [hz sz ez]] := opP sx; exists z; split=> //; exact: range_off phi_mask ez. Qed.
Lemma global_bilap_residual x : size x = N -> exists z, [/\ res x = Ok z, size z = N & bl_off z].
Proof.
move=> sx; have [z [hz sz ez]] := elliptic_fluxE (phi_computes bl_res_ok) hv hj sx (isT : all _ [::]).
by exists z; split=> //; [rewrite sz | exact: range_off psi_mask ez].
Qed.

(** * Solvability *)
Hypothesis hsame : forall v, (v < n_nodes)%N -> (nt v \in dirs) = (nt v \in laps).
Hypothesis hc : forall v, (v < n_nodes)%N -> anchored edges (fun v => nt v \in dirs) v.
Hypothesis hc2 : forall v, (v < n_nodes)%N -> anchored edges (fun v => nt v \in laps) v.
Let htw : types_agree wdat nt edges. Proof. by move=> e k he hk; rewrite (ht he). Qed.
Notation doff ds := (@off F dim p ds n_nodes nt).
Let nb0 : (0 < nb)%N. Proof. by rewrite expn_gt0 addn1. Qed.
Lemma off_glo x : bl_off x -> doff dirs (glo x).
Proof.
move=> ox d hd hf; have [h1 h2] := dof_split nb0 hd.
by rewrite (divn_eq d nb) nth_glo //; have [-> //] := ox _ _ h1 h2.
Qed.
Lemma off_gup x : bl_off x -> doff laps (gup x).
Proof.
move=> ox d hd hf; have [h1 h2] := dof_split nb0 hd.
by rewrite (divn_eq d nb) nth_gup //; have [_ -> //] := ox _ _ h1 h2.
Qed.
Lemma off_swap x : doff dirs x <-> doff laps x.
Proof.
by split=> h d hd; have [h1 h2] := dof_split nb0 hd; [rewrite -hsame // | rewrite hsame //] => hf; exact: h.
Qed.
Lemma off_merge a b : doff dirs a -> doff laps b -> bl_off (gmerge a b).
Proof.
move=> oa ob v j h1 h2; have [d1 d2] := divmod_at v h2; have hd := at_lt h1 h2.
by split=> hf; [rewrite merge_lo // | rewrite merge_hi //]; [apply: oa | apply: ob]; rewrite ?d1.
Qed.
Lemma size_gmerge (a b : seq F) : size (gmerge a b) = N. Proof. exact: size_mkseq. Qed.
Lemma op_axpy c x y u v : size x = N -> size y = N -> op x = Ok u -> op y = Ok v -> op (axpy c x y) = Ok (axpy c u v).
Proof.
move=> sx sy; have [u' [-> su eu]] := opP sx => -[<-]; have [v' [-> sv ev]] := opP sy => -[<-].
have sa : size (axpy c x y) = N by rewrite size_axpy.
have [z [-> sz ez]] := opP sa; congr Ok; apply: (@eq_from_nth _ 0); rewrite ?size_axpy ?sz ?su // => d hd.
by rewrite ez (global_linear _ _ _ sx hv bl_linear) nth_axpy ?su // eu ev.
Qed.
Lemma nseq_glo : glo (nseq N 0) = nseq N1 (0 : F).
Proof.
apply: (vec_ext (size_mkseq _ _) (size_nseq _ _)) => v j h1 h2.
by rewrite nth_glo // !nth_nseq !if_same.
Qed.
Lemma nseq_gup : gup (nseq N 0) = nseq N1 (0 : F).
Proof.
apply: (vec_ext (size_mkseq _ _) (size_nseq _ _)) => v j h1 h2.
by rewrite nth_gup // !nth_nseq !if_same.
Qed.
Lemma off0 ds : doff ds (nseq N1 0). Proof. by move=> d _ _; rewrite nth_nseq if_same. Qed.
Lemma dop0 ds (x : seq F) : size x = N1 -> doff ds x ->
  (forall v, (v < n_nodes)%N -> anchored edges (fun v => nt v \in ds) v) ->
  dop ds x = Ok (nseq N1 0) -> x = nseq N1 0.
Proof.
move=> sx ox ha hx.
have [z [sz oz hz uz]] := global_diffusion_solvable dim0 hW hg tau0 hv hj htw ha (size_nseq N1 0) (@off0 ds).
rewrite (uz _ sx ox hx); symmetry; apply: uz; rewrite ?size_nseq //; first exact: off0.
have [y [hy sy ey]] := dopP ds (size_nseq N1 (0 : F)); rewrite hy; congr Ok.
have e0 : axpy (-1) (nseq N1 0) (nseq N1 0) = nseq N1 0 :> seq F.
  by apply: (@eq_from_nth _ 0); rewrite ?size_axpy // => d; rewrite size_nseq => hd;
     rewrite nth_axpy ?size_nseq // nth_nseq hd mulr0 addr0.
apply: (@eq_from_nth _ 0); rewrite sy ?size_nseq // => d hd; rewrite ey -{1}e0.
rewrite (global_linear _ _ _ (size_nseq _ _) hv (diff_linear dim0 hW hg tau0 ds)).
by rewrite mulN1r addNr nth_nseq hd.
Qed.
Lemma global_bilap_injective x : size x = N -> bl_off x -> op x = Ok (nseq N 0) -> x = nseq N 0.
Proof.
move=> sx ox hx.
have h1 := op_lo sx hx; rewrite nseq_glo in h1.
have hu : gup x = nseq N1 0.
  apply: (dop0 (ds := dirs)) => //; first exact: size_mkseq.
  by apply/off_swap; exact: off_gup.
have h2 := op_hi sx hu hx; rewrite nseq_gup in h2.
have hl : glo x = nseq N1 0.
  apply: (dop0 (ds := laps)) => //; first exact: size_mkseq.
  by apply/off_swap; exact: off_glo.
by apply: (vec_ext2 (nb := nb) (n_nodes := n_nodes)); rewrite ?size_nseq ?nseq_glo ?nseq_gup.
Qed.
Lemma global_bilap_solvable r : size r = N -> bl_off r ->
  exists x, [/\ size x = N, bl_off x, op x = Ok r &
    forall x', size x' = N -> bl_off x' -> op x' = Ok r -> x' = x].
Proof.
move=> sr or.
have [b [sb ob hb _]] := global_diffusion_solvable dim0 hW hg tau0 hv hj htw hc (size_mkseq _ _ : size (glo r) = N1) (off_glo or).
have obl : doff laps b by apply/off_swap.
pose xb := gmerge (nseq N1 0) b.
have sxb : size xb = N by exact: size_gmerge.
have [k [hk sk ok]] := global_bilap_range sxb.
pose r2 := axpy (-1) (gup k) (gup r).
have sr2 : size r2 = N1 by rewrite size_axpy size_mkseq.
have or2 : doff laps r2.
  move=> d hd hf; rewrite nth_axpy ?size_mkseq //.
  by rewrite (off_gup ok hd hf) (off_gup or hd hf) mulr0 addr0.
have [a [sa oa ha _]] := global_diffusion_solvable dim0 hW hg tau0 hv hj htw hc2 sr2 or2.
have oal : doff dirs a by apply/off_swap.
pose xa := gmerge a (nseq N1 0).
have sxa : size xa = N by exact: size_gmerge.
have [z [hz sz _]] := global_bilap_range sxa.
have hzr := op_axpy 1 sxa sxb hz hk.
have zl : dop dirs (gup xa) = Ok (glo z) := op_lo sxa hz.
have kl : dop dirs (gup xb) = Ok (glo k) := op_lo sxb hk.
have zu : dop laps (glo xa) = Ok (gup z).
  by apply: op_hi => //; rewrite gup_merge ?size_nseq.
have x0 : axpy 1 xa xb = gmerge a b.
  apply: (vec_ext (n_nodes := n_nodes) (n := n2)); rewrite ?size_axpy ?size_gmerge // => v j h1 h2.
  rewrite nth_axpy ?sxa ?at_lt // mul1r; case: (ltnP j nb) => hjb.
    by rewrite !merge_lo // nth_nseq if_same addr0.
  have -> : j = (nb + (j - nb))%N by lia.
  by rewrite !merge_hi ?nth_nseq ?if_same ?add0r //; lia.
have ex : op (gmerge a b) = Ok r.
  rewrite -x0 hzr; congr Ok.
  have e1 : glo z = nseq N1 0.
    move: zl; rewrite gup_merge ?size_nseq //.
    have [y [hy sy ey]] := dopP dirs (size_nseq N1 (0 : F)); rewrite hy => -[<-].
    have e0 : axpy (-1) (nseq N1 0) (nseq N1 0) = nseq N1 0 :> seq F.
      by apply: (@eq_from_nth _ 0); rewrite ?size_axpy // => d; rewrite size_nseq => hd;
         rewrite nth_axpy ?size_nseq // nth_nseq hd mulr0 addr0.
    apply: (@eq_from_nth _ 0); rewrite sy ?size_nseq // => d hd; rewrite ey -{1}e0.
    rewrite (global_linear _ _ _ (size_nseq _ _) hv (diff_linear dim0 hW hg tau0 dirs)).
    by rewrite mulN1r addNr nth_nseq hd.
  have e2 : glo k = glo r by move: kl; rewrite gup_merge // hb => -[].
  have e3 : gup z = r2 by move: zu; rewrite glo_merge // ha => -[].
  apply: (vec_ext (n_nodes := n_nodes) (n := n2)); rewrite ?size_axpy // => v j h1 h2.
  rewrite nth_axpy ?sz ?at_lt // mul1r; case: (ltnP j nb) => hjb.
    by rewrite -!(nth_glo _ h1 hjb) e1 e2 nth_nseq if_same add0r.
  have hj2 : (j - nb < nb)%N by lia.
  have -> : j = (nb + (j - nb))%N by lia.
  rewrite -!(nth_gup _ h1 hj2) e3 nth_axpy ?size_mkseq ?at_lt // mulN1r.
  by rewrite addrAC addNr add0r.
exists (gmerge a b); split=> //; [exact: size_gmerge | exact: off_merge |].
move=> x' sx' ox' hx'.
have sg := size_gmerge a b; have og := off_merge oal obl.
have hd := op_axpy (-1) sg sx' ex hx'.
have e0 : axpy (-1) r r = nseq N 0.
  apply: (@eq_from_nth _ 0); rewrite ?size_axpy ?size_nseq ?sr // => d hd'.
  by rewrite nth_axpy ?sr // nth_nseq hd' mulN1r addNr.
rewrite e0 in hd.
have := global_bilap_injective _ _ hd; rewrite size_axpy => /(_ sg) h.
have {}h : axpy (-1) (gmerge a b) x' = nseq N 0.
  apply: h => v j h1 h2; have [o1 o2] := og v j h1 h2; have [o3 o4] := ox' v j h1 h2.
  have l1 : (v * n2 + j < N)%N by apply: at_lt => //; lia.
  have l2 : (v * n2 + (nb + j) < N)%N by apply: at_lt => //; lia.
  by split=> hf; rewrite nth_axpy ?sg // ?o1 ?o2 ?o3 ?o4 // mulr0 addr0.
apply: (@eq_from_nth _ 0); rewrite ?sx' ?sg // => d hd'.
have : nth 0 (axpy (-1) (gmerge a b) x') d = 0 by rewrite h nth_nseq if_same.
by rewrite nth_axpy ?sg // mulN1r addrC => /subr0_eq.
Qed.
(** The system of the drivers: the right-hand side is minus the residual at zero. *)
Lemma global_bilap_solution : exists r0 x, [/\ res (nseq N 0) = Ok r0, size x = N, bl_off x,
    op x = Ok (map -%R r0) & forall x', size x' = N -> bl_off x' -> op x' = Ok (map -%R r0) -> x' = x].
Proof.
have [r0 [h0 s0 o0]] := global_bilap_residual (size_nseq N (0 : F)).
have sr : size (map -%R r0) = N by rewrite size_map.
have or : bl_off (map -%R r0).
  move=> v j h1 h2; have [o1 o2] := o0 v j h1 h2.
  have l1 : (v * n2 + j < N)%N by apply: at_lt => //; lia.
  have l2 : (v * n2 + (nb + j) < N)%N by apply: at_lt => //; lia.
  by split=> hf; rewrite (nth_map 0) ?s0 // ?o1 ?o2 // oppr0.
by have [x [sx ox hx ux]] := global_bilap_solvable sr or; exists r0, x.
Qed.
End Bilaplacian.
