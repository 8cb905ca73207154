(** The global operator of DiffusionAdvectionReaction. *)
From mathcomp Require Import all_ssreflect all_algebra zify.
From Verif Require Import M_Base L_Base M_Lapack S_Lapack M_Global S_Global L_Global L_Global2 L_Global3 L_Global4.
From Verif Require Import S_Hdg S_Tpp M_DiffusionUniform M_Diffusion S_LocalSolver S_Diffusion S_TppGeo.
From Verif Require Import L_Hdg L_HdgSrc L_LocalBase L_LocalLink L_DiffusionUniform2 L_Diffusion2 L_GlobalUniform L_GlobalMasked L_GlobalShift.
From Verif Require Import M_AdvReact S_AdvReact L_ArHdg L_AdvReact2 L_AdvReact4.
Set Implicit Arguments. Unset Strict Implicit. Unset Printing Implicit Defensive.
Import Order.TTheory GRing.Theory Num.Theory.
Local Open Scope ring_scope.

Section AdvReact.
Variables (F : realFieldType) (E : Type) (dim p : nat) (dat : E -> ar_data F) (w : E -> nat -> F) (t : F).
Variables (gesv : nat -> nat -> seq F -> seq F -> sv_result F) (tau : F).
Hypotheses (dim0 : (0 < dim)%N) (hD : forall e, ar_stable dim p tau (w e) (dat e) t) (hg : gesv_correct gesv).
Notation nb := ((p + 1) ^ (dim - 1))%N.
Local Notation m := (2 * dim)%N.
Notation zt := (zero_trace F dim nb).
Let hreg e : ar_regular dim p tau (dat e) t := ar_stable_regular dim0 (hD e).
Let nb0 : (0 < nb)%N. Proof. by rewrite expn_gt0 addn1. Qed.

Section Local.
Variable dirs : seq nat.
Definition arf : local_fun F E := fun e x out => ar_trace_to_flux gesv dim p dirs tau (dat e) x out t.
Definition arg : local_fun F E := fun e x out => ar_residual_flux gesv dim p dirs tau (dat e) x out t.
Notation phi := (@phi_of F E dim nb arf).
Notation psi := (@phi_of F E dim nb arg).
Lemma arf_ok e x : is_trace m nb x -> exists2 y, arf e x (nseq m (nseq nb 0)) = Ok y & is_trace m nb y.
Proof.
by move=> hx; have [y [q [u [hy _ [sy _]]]]] := ar_fluxP dirs dim0 hg (@hreg e) hx zt; exists y.
Qed.
Lemma arg_ok e x : is_trace m nb x -> exists2 y, arg e x (nseq m (nseq nb 0)) = Ok y & is_trace m nb y.
Proof.
by move=> hx; have [y [q [u [hy _ [sy _]]]]] := ar_residualP dirs dim0 hg (@hreg e) hx zt; exists y.
Qed.
Lemma arf_phi e x y : is_trace m nb x -> arf e x (nseq m (nseq nb 0)) = Ok y -> phi e (dmx dim nb x) = dmx dim nb y.
Proof. by move=> hx hy; rewrite /phi_of (rows_of_dmx hx) hy. Qed.
Lemma arg_psi e x y : is_trace m nb x -> arg e x (nseq m (nseq nb 0)) = Ok y -> psi e (dmx dim nb x) = dmx dim nb y.
Proof. by move=> hx hy; rewrite /phi_of (rows_of_dmx hx) hy. Qed.
Lemma arf_linear : local_linear phi.
Proof.
move=> e a A B.
have [y [y' [hy hy' hc]]] := ar_linear dirs dim0 hg (@hreg e) a (rows_trace A) (rows_trace B) zt zt zt.
have := arf_phi (comb_is_trace _ _ a (rows_of A) (rows_of B)) hc.
by rewrite !dmx_comb !rows_ofK => ->; rewrite -(arf_phi (rows_trace A) hy)
  -(arf_phi (rows_trace B) hy') !rows_ofK.
Qed.
Lemma arg_affine e A : psi e A = phi e A + psi e 0.
Proof.
have [y [y0 [hy hy0 hr]]] := ar_affine dirs dim0 hg (@hreg e) (rows_trace A) zt zt zt.
have := arg_psi (rows_trace A) hr; rewrite rows_ofK dmx_comb scale1r => ->.
rewrite -(arf_phi (rows_trace A) hy) rows_ofK; congr (_ + _).
have := arg_psi (e := e) zt hy0; rewrite dmx_zero => -> //.
Qed.
End Local.

(** Without Dirichlet faces. *)
Notation phi0 := (@phi_of F E dim nb (arf [::])).
Lemma ar_no_mask e (x : seq (seq F)) : vanishes (ar_mask [::] (dat e) t) m nb x.
Proof. by move=> f j _ _. Qed.
Definition outs e k : F := face_outflow dim (w e) (dat e) t k.
Notation shift := (shift (dim := dim) (nb := nb) outs).
Lemma shift_rows e (A : 'M[F]_(m, nb)) :
  (\sum_(f < m) face_outflow dim (w e) (dat e) t f * (\sum_(j < nb) nth 0 (nth [::] (rows_of A) f) j ^+ 2)) / 2%:R = shift e A.
Proof. by congr (_ / _); apply: eq_bigr => k _; congr (_ * _); apply: eq_bigr => j _; rewrite rows_ofE. Qed.
Lemma ar0_bound e A : fdot A (phi0 e A) <= shift e A.
Proof.
have [y hy [hs _]] := ar_stableP dim0 hg (hD e) (rows_trace A) zt (@ar_no_mask e _).
by move: hs; rewrite pairing_fdot -(arf_phi (rows_trace A) hy) !rows_ofK shift_rows.
Qed.
Lemma ar0_const e A : fdot A (phi0 e A) = shift e A ->
  exists c, (forall k j, A k j = if (j : nat) == 0%N then c else 0) /\ (ar_react (dat e) t 0 0 != 0 -> c = 0).
Proof.
have [y hy [_ hs]] := ar_stableP dim0 hg (hD e) (rows_trace A) zt (@ar_no_mask e _).
move: hs; rewrite pairing_fdot -(arf_phi (rows_trace A) hy) !rows_ofK shift_rows => hs /hs [c [hc hr]].
by exists c; split=> // k j; rewrite -rows_ofE hc nth_nseq ltn_ord nth_mkseq.
Qed.
Lemma ar0_ker e A (k : 'I_m) : fdot A (phi0 e A) = shift e A -> row k A = 0 -> A = 0.
Proof.
move=> /ar0_const[c [hc _]] /rowP/(_ (Ordinal nb0)); rewrite !mxE hc eqxx => c0.
by apply/matrixP => i j; rewrite hc c0 if_same mxE.
Qed.
Lemma ar0_strict e A : ar_react (dat e) t 0 0 != 0 -> fdot A (phi0 e A) = shift e A -> A = 0.
Proof.
move=> r0 /ar0_const[c [hc /(_ r0) c0]].
by apply/matrixP => i j; rewrite hc c0 if_same mxE.
Qed.

Variable dirs : seq nat.
Notation phi := (@phi_of F E dim nb (arf dirs)).
Notation psi := (@phi_of F E dim nb (arg dirs)).
Definition armk e (k : nat) : bool := ar_mask dirs (dat e) t k.
Lemma arf_mask e A (k : 'I_m) j : phi e A k j = if armk e k then 0 else phi0 e A k j.
Proof.
have [y [q [u [hy h1 [_ f1]]]]] := ar_fluxP dirs dim0 hg (@hreg e) (rows_trace A) zt.
have [y0 [q0 [u0 [hy0 h2 [_ f2]]]]] := ar_fluxP [::] dim0 hg (@hreg e) (rows_trace A) zt.
have := arf_phi (rows_trace A) hy; rewrite rows_ofK => ->.
have := arf_phi (rows_trace A) hy0; rewrite rows_ofK => ->.
have [eq eu] := ar_unique (@hreg e) h1 h2.
have /colP/(_ j) := f1 k; have /colP/(_ j) := f2 k; rewrite !mxE => -> ->.
rewrite /armk; case: (ar_mask dirs _ _ _); rewrite ?mxE // eu; by under eq_bigr => d _ do rewrite eq.
Qed.
Lemma arg_mask e A (k : 'I_m) j : armk e k -> psi e A k j = 0.
Proof.
move=> hm; have [y [q [u [hy h1 [_ f1]]]]] := ar_residualP dirs dim0 hg (@hreg e) (rows_trace A) zt.
have := arg_psi (rows_trace A) hy; rewrite rows_ofK => ->.
by have /colP/(_ j) := f1 k; rewrite !mxE => ->; rewrite -/(armk e k) hm mxE.
Qed.

Variables (n_nodes : nat) (edges : seq (seq nat * E)) (junk : seq (seq F)) (nt : nat -> nat).
Hypotheses (hv : valid_graph dim n_nodes edges) (hj : size junk = m).
Hypothesis ht : types_agree (fun e => ar_df (dat e) t) nt edges.
Notation N := (n_nodes * nb)%N.
Notation fx := (fun v => nt v \in dirs).
Definition ar_off x := forall d, (d < N)%N -> nt (d %/ nb)%N \in dirs -> nth 0 x d = 0 :> F.
Notation op x := (elliptic_flux nb N [::] junk edges (arf dirs) x).
Notation res x := (elliptic_flux nb N [::] junk edges (arg dirs) x).
Lemma armkE e : List.In e edges -> forall k, (k < m)%N -> armk e.2 k = fx (nth 0%N e.1 k).
Proof.
move=> he k hk; rewrite /armk /ar_mask (ht he) //.
have -> // : size e.1 = m.
move: hv; elim: (edges) he => [//|a l IH] /= [-> /andP[/andP[/eqP -> _] _]//|hin /andP[_]]; exact: IH.
Qed.
Hypothesis net : forall v, (v < n_nodes)%N -> nt v \notin dirs ->
  \sum_(e <- edges) \sum_(k < m | nth 0%N e.1 k == v) outs e.2 k <= 0.
Definition ar_held v : bool := (nt v \in dirs) || has (fun e => (ar_react (dat e.2) t 0 0 != 0) && (v \in e.1)) edges.
Hypothesis conn : forall v, (v < n_nodes)%N -> anchored edges (fun v => ar_held v) v.
Lemma global_ar_definite x : size x = N -> ar_off x ->
  exists u, [/\ op x = Ok u, vdot N x u <= 0 & vdot N x u = 0 -> x = nseq N 0].
Proof.
exact: (@shifted_definite F E dim nb (arf dirs) (arf [::]) armk (arf_ok dirs) (arf_ok [::]) arf_mask nb0 n_nodes edges
  junk fx hv hj armkE outs ar0_bound ar0_ker net (fun e => ar_react (dat e) t 0 0 != 0) ar0_strict conn x).
Qed.
Lemma global_ar_solvable r : size r = N -> ar_off r ->
  exists x, [/\ size x = N, ar_off x, op x = Ok r & forall x', size x' = N -> ar_off x' -> op x' = Ok r -> x' = x].
Proof.
exact: (@definite_solvable F E dim nb (arf dirs) (arf [::]) armk (arf_ok dirs) (arf_ok [::]) arf_mask
  (arf_linear [::]) nb0 n_nodes edges junk fx hv hj armkE global_ar_definite r).
Qed.
Lemma global_ar_solution : exists x, [/\ size x = N, ar_off x, res x = Ok (nseq N 0) &
    forall x', size x' = N -> ar_off x' -> res x' = Ok (nseq N 0) -> x' = x].
Proof.
exact: (@definite_solution F E dim nb (arf dirs) (arf [::]) (arg dirs) armk (arf_ok dirs) (arf_ok [::]) (arg_ok dirs)
  arf_mask arg_mask (arf_linear [::]) (arg_affine dirs) nb0 n_nodes edges junk fx hv hj armkE global_ar_definite).
Qed.
End AdvReact.
