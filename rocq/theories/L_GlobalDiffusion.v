(** The global operator of Diffusion. *)
From mathcomp Require Import all_ssreflect all_algebra zify.
From Verif Require Import M_Base L_Base M_Lapack S_Lapack M_Global S_Global L_Global L_Global2 L_Global3 L_Global4.
From Verif Require Import S_Hdg S_Tpp M_DiffusionUniform M_Diffusion S_LocalSolver S_Diffusion S_TppGeo.
From Verif Require Import L_HdgSrc L_LocalBase L_LocalLink L_DiffusionUniform2 L_Diffusion2 L_GlobalUniform.
Set Implicit Arguments. Unset Strict Implicit. Unset Printing Implicit Defensive.
Import Order.TTheory GRing.Theory Num.Theory.
Local Open Scope ring_scope.

Section Diffusion.
Variables (F : realFieldType) (E : Type) (dim p : nat) (dat : E -> df_data F).
Variables (gesv : nat -> nat -> seq F -> seq F -> sv_result F) (tau : F).
Hypotheses (dim0 : (0 < dim)%N) (hD : forall e, diffusion_data dim p (dat e)).
Hypotheses (hg : gesv_correct gesv) (tau0 : 0 < tau).
Notation nb := ((p + 1) ^ (dim - 1))%N.
Local Notation m := (2 * dim)%N.
Notation zt := (zero_trace F dim nb).

Section Local.
Variable dirs : seq nat.
Definition diff_fun : local_fun F E := fun e => df_trace_to_flux gesv dim p dirs tau (dat e).
Definition resi_fun : local_fun F E := fun e => df_residual_flux gesv dim p dirs tau (dat e).
Notation phi := (@phi_of F E dim nb diff_fun).
Notation psi := (@phi_of F E dim nb resi_fun).
Lemma diff_ok e x : is_trace m nb x ->
  exists2 y, diff_fun e x (nseq m (nseq nb 0)) = Ok y & is_trace m nb y.
Proof.
move=> hx; have [y hy [sy _]] := diffusion_flux dirs dim0 (hD e) hg tau0 hx zt.
by exists y.
Qed.
Lemma resi_ok e x : is_trace m nb x ->
  exists2 y, resi_fun e x (nseq m (nseq nb 0)) = Ok y & is_trace m nb y.
Proof.
move=> hx; have [y hy [sy _]] := diffusion_residual dirs dim0 (hD e) hg tau0 hx zt.
by exists y.
Qed.
Lemma diff_phi e x y : is_trace m nb x -> diff_fun e x (nseq m (nseq nb 0)) = Ok y ->
  phi e (dmx dim nb x) = dmx dim nb y.
Proof. by move=> hx hy; rewrite /phi_of (rows_of_dmx hx) hy. Qed.
Lemma resi_psi e x y : is_trace m nb x -> resi_fun e x (nseq m (nseq nb 0)) = Ok y ->
  psi e (dmx dim nb x) = dmx dim nb y.
Proof. by move=> hx hy; rewrite /phi_of (rows_of_dmx hx) hy. Qed.
Lemma diff_linear : local_linear phi.
Proof.
move=> e a A B.
have [y [y' [hy hy' hc]]] := diffusion_linear dirs dim0 (hD e) hg tau0 a (rows_trace A) (rows_trace B) zt zt zt.
have := diff_phi (comb_is_trace _ _ a (rows_of A) (rows_of B)) hc.
by rewrite !dmx_comb !rows_ofK => ->; rewrite -(diff_phi (rows_trace A) hy)
  -(diff_phi (rows_trace B) hy') !rows_ofK.
Qed.
Lemma resi_affine e A : psi e A = phi e A + psi e 0.
Proof.
have [y [y0 [hy hy0 hr]]] := diffusion_affine dirs dim0 (hD e) hg tau0 (rows_trace A) zt zt zt.
have := resi_psi (rows_trace A) hr; rewrite rows_ofK dmx_comb scale1r => ->.
rewrite -(diff_phi (rows_trace A) hy) rows_ofK; congr (_ + _).
have := resi_psi (e := e) zt hy0; rewrite dmx_zero => -> //.
Qed.
End Local.

(** Without Dirichlet faces. *)
Notation phi0 := (@phi_of F E dim nb (diff_fun [::])).
Lemma no_mask e (x : seq (seq F)) : vanishes (face_dirichlet [::] (dat e)) m nb x.
Proof. by move=> f j _ _. Qed.
Lemma diff0_sym e A B : fdot A (phi0 e B) = fdot B (phi0 e A).
Proof.
have [y [y' [hy hy' hs]]] := diffusion_symmetric dim0 (hD e) hg tau0 (rows_trace A) (rows_trace B) zt zt
  (@no_mask e _) (@no_mask e _).
have e1 := diff_phi (rows_trace A) hy; have e2 := diff_phi (rows_trace B) hy'.
by move: hs; rewrite !pairing_fdot -e1 -e2 !rows_ofK => ->.
Qed.
Lemma diff0_neg e A : fdot A (phi0 e A) <= 0.
Proof.
have [y hy [hs _]] := diffusion_negative dim0 (hD e) hg tau0 (rows_trace A) zt (@no_mask e _).
by move: hs; rewrite pairing_fdot -(diff_phi (rows_trace A) hy) !rows_ofK.
Qed.
Lemma diff0_ker e A : fdot A (phi0 e A) = 0 ->
  exists c, forall k j, A k j = if (j : nat) == 0%N then c else 0.
Proof.
have [y hy [_ hs]] := diffusion_negative dim0 (hD e) hg tau0 (rows_trace A) zt (@no_mask e _).
move: hs; rewrite pairing_fdot -(diff_phi (rows_trace A) hy) !rows_ofK => hs /hs [c hc].
by exists c => k j; rewrite -rows_ofE hc nth_nseq ltn_ord nth_mkseq.
Qed.

Variable dirs : seq nat.
Notation phi := (@phi_of F E dim nb (diff_fun dirs)).
Notation psi := (@phi_of F E dim nb (resi_fun dirs)).
Lemma diff_mask e A (k : 'I_m) j : phi e A k j = if face_dirichlet dirs (dat e) k then 0 else phi0 e A k j.
Proof.
have [y hy fy] := diffusion_flux dirs dim0 (hD e) hg tau0 (rows_trace A) zt.
have [y0 hy0 fy0] := diffusion_flux [::] dim0 (hD e) hg tau0 (rows_trace A) zt.
have := diff_phi (rows_trace A) hy; rewrite rows_ofK => ->.
have := diff_phi (rows_trace A) hy0; rewrite rows_ofK => ->.
case: fy fy0 => _ [q [u [h1 f1]]] [_ [q0 [u0 [h2 f2]]]].
have [eq eu] := src_unique (data_ok dim0 (hD e)) tau0 h1 h2.
have /colP/(_ j) := f1 k; have /colP/(_ j) := f2 k; rewrite !mxE => -> ->.
by case: (face_dirichlet dirs _ _); rewrite ?mxE // eu; under eq_bigr => d _ do rewrite eq.
Qed.
Lemma resi_zero e A (k : 'I_m) j : face_dirichlet dirs (dat e) k -> psi e A k j = 0.
Proof.
move=> hm; have [y hy fy] := diffusion_residual dirs dim0 (hD e) hg tau0 (rows_trace A) zt.
have := resi_psi (rows_trace A) hy; rewrite rows_ofK => ->.
by rewrite mxE; exact: (fs_vanishes fy).
Qed.

Variables (n_nodes : nat) (edges : seq (seq nat * E)) (junk : seq (seq F)) (nt : nat -> nat).
Hypotheses (hv : valid_graph dim n_nodes edges) (hj : size junk = m) (ht : types_agree dat nt edges).
Notation N := (n_nodes * nb)%N.
Notation fixed d := (nt (d %/ nb)%N \in dirs).
Definition fixed_dofs : seq nat := [seq d <- iota 0 N | fixed d].
Lemma fixed_dofsE d : (d \in fixed_dofs) = fixed d && (d < N)%N.
Proof. by rewrite mem_filter mem_iota add0n. Qed.
Lemma fixed_lt : all (fun i => i < N)%N fixed_dofs.
Proof. by apply/allP => d; rewrite fixed_dofsE => /andP[]. Qed.
Notation op x := (elliptic_flux nb N [::] junk edges (diff_fun dirs) x).
Notation res x := (elliptic_flux nb N [::] junk edges (resi_fun dirs) x).
Notation op0 x := (elliptic_flux nb N fixed_dofs junk edges (diff_fun [::]) x).
Definition off x := forall d, (d < N)%N -> fixed d -> nth 0 x d = 0 :> F.
Lemma offE x : off x <-> off_dir fixed_dofs x.
Proof.
split=> h d; first by rewrite fixed_dofsE => /andP[h1 h2]; exact: h.
by move=> h1 h2; apply: h; rewrite fixed_dofsE h1 h2.
Qed.
Lemma mask_fixed e (k : 'I_m) (j : 'I_nb) : List.In e edges ->
  face_dirichlet dirs (dat e.2) k = fixed (nth 0%N e.1 k * nb + j).
Proof.
move=> he; rewrite /face_dirichlet /is_dirichlet ht ?divnMDl ?divn_small ?addn0 ?nb0 //.
have : size e.1 = m.
  move: hv; elim: (edges) he => [//|a l IH] /= [-> /andP[/andP[/eqP -> _] _]//|hin /andP[_]]; exact: IH.
by move=> ->.
Qed.
Lemma global_eq x d : (d < N)%N ->
  global_op edges phi x d = if fixed d then 0 else global_op edges phi0 x d.
Proof.
move=> hd; rewrite /global_op.
have : forall e, List.In e edges -> forall (k : 'I_m) (j : 'I_nb),
   face_dirichlet dirs (dat e.2) k = fixed (nth 0%N e.1 k * nb + j).
  by move=> e he k j; exact: mask_fixed.
elim: (edges) => [|e l IH] hm; first by rewrite !big_nil if_same.
rewrite !big_cons IH; last by move=> e' he'; apply: hm; right.
have -> : scattered e.1 (phi e.2 (local_part dim nb e.1 x)) d =
   if fixed d then 0 else scattered e.1 (phi0 e.2 (local_part dim nb e.1 x)) d.
  rewrite /scattered; case hf : (fixed d); last first.
    apply: eq_bigr => k _; apply: eq_bigr => j _; case: eqP => // hk.
    by rewrite diff_mask (hm e _ _ j) ?hk ?hf //; left.
  rewrite big1 // => k _; rewrite big1 // => j _; case: eqP => // hk.
  by rewrite diff_mask (hm e _ _ j) ?hk ?hf //; left.
by case: ifP => // _; rewrite addr0.
Qed.
Lemma op_eq x : size x = N -> op x = op0 x.
Proof.
move=> sx.
have [z [-> sz ez]] := elliptic_fluxE (phi_computes (diff_ok dirs)) hv hj sx (isT : all _ [::]).
have [z0 [-> sz0 ez0]] := elliptic_fluxE (phi_computes (diff_ok [::])) hv hj sx fixed_lt.
congr Ok; apply: (@eq_from_nth _ 0); rewrite ?sz ?sz0 // sx => d hN.
by rewrite ez ez0 fixed_dofsE hN andbT in_nil global_eq.
Qed.
Lemma anchored_dofs v : anchored edges (fun v => nt v \in dirs) v -> (v < n_nodes)%N ->
  anchored edges (fixed_node nb fixed_dofs) v.
Proof.
elim=> [w hw hlt|e w w' he hw hw' _ IH hlt].
  apply: anchored_fixed => j hjb; rewrite fixed_dofsE divnMDl ?nb0 // divn_small // addn0 hw /=.
  apply: (@leq_trans (w * nb + nb)); first by rewrite ltn_add2l.
  by rewrite -mulSnr leq_mul2r hlt orbT.
apply: (anchored_step he hw hw'); apply: IH.
move: hv he hw; elim: (edges) => [//|a l IH] /= /andP[/andP[_ ha] hl] [<-|] hw; last exact: IH hl hw.
exact: (allP ha _ hw).
Qed.

Lemma global_diffusion_symmetric x y : size x = N -> size y = N -> off x -> off y ->
  exists u v, [/\ op x = Ok u, op y = Ok v & vdot N y u = vdot N x v].
Proof.
move=> sx sy /offE ox /offE oy; rewrite !op_eq //.
exact: (flux_symmetric (phi_computes (diff_ok [::])) diff0_sym hv hj sx sy fixed_lt ox oy).
Qed.
Hypothesis hc : forall v, (v < n_nodes)%N -> anchored edges (fun v => nt v \in dirs) v.
Let hc' v : (v < n_nodes)%N -> anchored edges (fixed_node nb fixed_dofs) v.
Proof. by move=> h; apply: anchored_dofs (hc h) h. Qed.
Lemma global_diffusion_definite x : size x = N -> off x ->
  exists u, [/\ op x = Ok u, vdot N x u <= 0 & vdot N x u = 0 -> x = nseq N 0].
Proof.
move=> sx /offE ox; rewrite op_eq //.
exact: (flux_definite (phi_computes (diff_ok [::])) hv hj fixed_lt diff0_neg diff0_ker hc' sx ox).
Qed.
Lemma global_diffusion_solvable r : size r = N -> off r ->
  exists x, [/\ size x = N, off x, op x = Ok r &
    forall x', size x' = N -> off x' -> op x' = Ok r -> x' = x].
Proof.
move=> sr /offE or.
have [x [sx ox hx ux]] := flux_unique_solution (phi_computes (diff_ok [::])) hv hj fixed_lt diff0_neg
  diff0_ker hc' (diff_linear [::]) sr or.
exists x; split=> //; [exact/offE | by rewrite op_eq |].
by move=> x' sx' /offE ox'; rewrite op_eq // => hx'; exact: ux.
Qed.
(** The discrete problem with source and Dirichlet values has exactly one solution. *)
Lemma global_diffusion_solution : exists x, [/\ size x = N, off x, res x = Ok (nseq N 0) &
    forall x', size x' = N -> off x' -> res x' = Ok (nseq N 0) -> x' = x].
Proof.
pose b d := global_op edges (fun e (_ : 'M[F]_(m, nb)) => psi e 0) [::] d.
have hb0 x d : global_op edges psi x d = global_op edges phi x d + b d.
  by rewrite (global_affine _ _ _ (resi_affine dirs)).
have b0 d : (d < N)%N -> fixed d -> b d = 0.
  move=> hN hf; rewrite /b /global_op.
  have : forall e, List.In e edges -> forall (k : 'I_m) (j : 'I_nb),
     face_dirichlet dirs (dat e.2) k = fixed (nth 0%N e.1 k * nb + j).
    by move=> e he k j; exact: mask_fixed.
  elim: (edges) => [|e l IH] hm; first by rewrite big_nil.
  rewrite big_cons IH ?addr0; last by move=> e' he'; apply: hm; right.
  rewrite /scattered big1 // => k _; rewrite big1 // => j _; case: eqP => // hk.
  by rewrite resi_zero // (hm e _ _ j) ?hk //; left.
have opP x : size x = N -> exists z, [/\ op x = Ok z, size z = N & forall d, nth 0 z d = global_op edges phi x d].
  move=> sx; have [z [hz sz ez]] := elliptic_fluxE (phi_computes (diff_ok dirs)) hv hj sx (isT : all _ [::]).
  by exists z; split => //; rewrite sz.
have resP x : size x = N -> (res x = Ok (nseq N 0) <-> op x = Ok (mkseq (fun d => - b d) N)).
  move=> sx; have [z [hz sz ez]] := opP x sx.
  have [w [hw sw ew]] := elliptic_fluxE (phi_computes (resi_ok dirs)) hv hj sx (isT : all _ [::]).
  rewrite hw hz; split=> -[h]; congr Ok; apply: (@eq_from_nth _ 0);
    rewrite ?size_mkseq ?size_nseq ?sz ?sw ?sx // => d hN.
    rewrite nth_mkseq // ez; apply/eqP; rewrite -subr_eq0 opprK -hb0.
    by have := ew d; rewrite in_nil h nth_nseq hN => <-.
  by rewrite ew in_nil hb0 -ez h nth_mkseq // nth_nseq hN addNr.
have [x [sx ox hx ux]] := @global_diffusion_solvable (mkseq (fun d => - b d) N) (size_mkseq _ _)
  (fun d hN hf => etrans (nth_mkseq 0 _ hN) (etrans (congr1 -%R (b0 d hN hf)) (oppr0 _))).
exists x; split=> //; first exact/resP.
by move=> x' sx' ox' /resP h; apply: ux => //; exact: h.
Qed.
End Diffusion.
