(** The global operator of DiffusionIP. *)
From mathcomp Require Import all_ssreflect all_algebra zify.
From Verif Require Import M_Base L_Base M_Lapack S_Lapack M_Global S_Global L_Global L_Global2 L_Global3 L_Global4.
From Verif Require Import S_Hdg S_Tpp M_DiffusionUniform M_Diffusion S_LocalSolver S_Diffusion S_TppGeo.
From Verif Require Import L_Hdg L_HdgSrc L_LocalBase L_LocalLink L_DiffusionUniform2 L_Diffusion2 L_GlobalUniform L_GlobalMasked.
From Verif Require Import M_DiffusionIP S_DiffusionIP L_DiffusionIP L_DiffusionIP2 L_DiffusionIP3.
Set Implicit Arguments. Unset Strict Implicit. Unset Printing Implicit Defensive.
Import Order.TTheory GRing.Theory Num.Theory.
Local Open Scope ring_scope.

Section IP.
Variables (F : realFieldType) (E : Type) (dim p : nat) (dat : E -> ip_data F) (t : F).
Variables (gesv : nat -> nat -> seq F -> seq F -> sv_result F) (tau : F).
Hypotheses (dim0 : (0 < dim)%N) (hD : forall e, ip_stable dim p tau (dat e) t) (hg : gesv_correct gesv).
Notation nb := ((p + 1) ^ (dim - 1))%N.
Local Notation m := (2 * dim)%N.
Notation zt := (zero_trace F dim nb).
Let hreg e : ip_regular dim p tau (dat e) t := ip_stable_regular dim0 (hD e).
Let nb0 : (0 < nb)%N. Proof. by rewrite expn_gt0 addn1. Qed.

Section Local.
Variable dirs : seq nat.
Definition ipf : local_fun F E := fun e x out => ip_trace_to_flux gesv dim p dirs tau (dat e) x out t.
Definition ipg : local_fun F E := fun e x out => ip_residual_flux gesv dim p dirs tau (dat e) x out t.
Notation phi := (@phi_of F E dim nb ipf).
Notation psi := (@phi_of F E dim nb ipg).
Lemma ipf_ok e x : is_trace m nb x -> exists2 y, ipf e x (nseq m (nseq nb 0)) = Ok y & is_trace m nb y.
Proof. by move=> hx; have [y [u [hy _ [sy _]]]] := ip_fluxP dirs dim0 hg (@hreg e) hx zt; exists y. Qed.
Lemma ipg_ok e x : is_trace m nb x -> exists2 y, ipg e x (nseq m (nseq nb 0)) = Ok y & is_trace m nb y.
Proof. by move=> hx; have [y [u [hy _ [sy _]]]] := ip_residualP dirs dim0 hg (@hreg e) hx zt; exists y. Qed.
Lemma ipf_phi e x y : is_trace m nb x -> ipf e x (nseq m (nseq nb 0)) = Ok y -> phi e (dmx dim nb x) = dmx dim nb y.
Proof. by move=> hx hy; rewrite /phi_of (rows_of_dmx hx) hy. Qed.
Lemma ipg_psi e x y : is_trace m nb x -> ipg e x (nseq m (nseq nb 0)) = Ok y -> psi e (dmx dim nb x) = dmx dim nb y.
Proof. by move=> hx hy; rewrite /phi_of (rows_of_dmx hx) hy. Qed.
Lemma ipf_linear : local_linear phi.
Proof.
move=> e a A B.
have [y [y' [hy hy' hc]]] := ip_linear dirs dim0 hg (@hreg e) a (rows_trace A) (rows_trace B) zt zt zt.
have := ipf_phi (comb_is_trace _ _ a (rows_of A) (rows_of B)) hc.
by rewrite !dmx_comb !rows_ofK => ->; rewrite -(ipf_phi (rows_trace A) hy)
  -(ipf_phi (rows_trace B) hy') !rows_ofK.
Qed.
Lemma ipg_affine e A : psi e A = phi e A + psi e 0.
Proof.
have [y [y0 [hy hy0 hr]]] := ip_affine_res dirs dim0 hg (@hreg e) (rows_trace A) zt zt zt.
have := ipg_psi (rows_trace A) hr; rewrite rows_ofK dmx_comb scale1r => ->.
rewrite -(ipf_phi (rows_trace A) hy) rows_ofK; congr (_ + _).
have := ipg_psi (e := e) zt hy0; rewrite dmx_zero => -> //.
Qed.
End Local.

(** Without Dirichlet faces. *)
Notation phi0 := (@phi_of F E dim nb (ipf [::])).
Lemma ip_no_mask e (x : seq (seq F)) : vanishes (ip_mask [::] (dat e)) m nb x.
Proof. by move=> f j _ _. Qed.
Lemma ip0_neg e A : fdot A (phi0 e A) <= 0.
Proof.
have [y hy [hs _]] := ip_stableP dim0 hg (hD e) (rows_trace A) zt (@ip_no_mask e _).
by move: hs; rewrite pairing_fdot -(ipf_phi (rows_trace A) hy) !rows_ofK.
Qed.
Lemma ip0_ker e A (k : 'I_m) : fdot A (phi0 e A) = 0 -> row k A = 0 -> A = 0.
Proof.
have [y hy [_ hs]] := ip_stableP dim0 hg (hD e) (rows_trace A) zt (@ip_no_mask e _).
move: hs; rewrite pairing_fdot -(ipf_phi (rows_trace A) hy) !rows_ofK => hs /hs [c ec].
have hc i j : A i j = if (j : nat) == 0%N then c else 0 by rewrite -rows_ofE ec nth_nseq ltn_ord nth_mkseq.
move=> /rowP/(_ (Ordinal nb0)); rewrite !mxE hc eqxx => c0.
by apply/matrixP => i j; rewrite hc c0 if_same mxE.
Qed.

Variable dirs : seq nat.
Notation phi := (@phi_of F E dim nb (ipf dirs)).
Notation psi := (@phi_of F E dim nb (ipg dirs)).
Definition ipmk e (k : nat) : bool := ip_mask dirs (dat e) k.
Lemma ipf_mask e A (k : 'I_m) j : phi e A k j = if ipmk e k then 0 else phi0 e A k j.
Proof.
have [y [u [hy h1 [_ f1]]]] := ip_fluxP dirs dim0 hg (@hreg e) (rows_trace A) zt.
have [y0 [u0 [hy0 h2 [_ f2]]]] := ip_fluxP [::] dim0 hg (@hreg e) (rows_trace A) zt.
have := ipf_phi (rows_trace A) hy; rewrite rows_ofK => ->.
have := ipf_phi (rows_trace A) hy0; rewrite rows_ofK => ->.
have eu := ip_unique (@hreg e) h1 h2.
have E1 (z : seq (seq F)) : dmx dim nb z k j = tr nb z k j 0 by rewrite !mxE.
by rewrite !E1 f1 f2 /ipmk eu; case: (ip_mask dirs _ _) => //; rewrite mxE.
Qed.
Lemma ipg_mask e A (k : 'I_m) j : ipmk e k -> psi e A k j = 0.
Proof.
move=> hm; have [y [u [hy h1 [_ f1]]]] := ip_residualP dirs dim0 hg (@hreg e) (rows_trace A) zt.
have := ipg_psi (rows_trace A) hy; rewrite rows_ofK => ->.
by have /colP/(_ j) := f1 k; rewrite !mxE => ->; rewrite -/(ipmk e k) hm mxE.
Qed.

Variables (n_nodes : nat) (edges : seq (seq nat * E)) (junk : seq (seq F)) (nt : nat -> nat).
Hypotheses (hv : valid_graph dim n_nodes edges) (hj : size junk = m).
Hypothesis ht : forall e k, List.In e edges -> (k < size e.1)%N -> nth 0%N (ip_types (dat e.2)) k = nt (nth 0%N e.1 k).
Notation N := (n_nodes * nb)%N.
Notation fx := (fun v => nt v \in dirs).
Definition ip_off x := forall d, (d < N)%N -> nt (d %/ nb)%N \in dirs -> nth 0 x d = 0 :> F.
Notation op x := (elliptic_flux nb N [::] junk edges (ipf dirs) x).
Notation res x := (elliptic_flux nb N [::] junk edges (ipg dirs) x).
Lemma ipmkE e : List.In e edges -> forall k, (k < m)%N -> ipmk e.2 k = fx (nth 0%N e.1 k).
Proof.
move=> he k hk; rewrite /ipmk /ip_mask (ht he) //.
have -> // : size e.1 = m.
move: hv; elim: (edges) he => [//|a l IH] /= [-> /andP[/andP[/eqP -> _] _]//|hin /andP[_]]; exact: IH.
Qed.
Hypothesis conn : forall v, (v < n_nodes)%N -> anchored edges (fun v => nt v \in dirs) v.
Lemma global_ip_definite x : size x = N -> ip_off x ->
  exists u, [/\ op x = Ok u, vdot N x u <= 0 & vdot N x u = 0 -> x = nseq N 0].
Proof.
exact: (@anchored_definite F E dim nb (ipf dirs) (ipf [::]) ipmk (ipf_ok dirs) (ipf_ok [::]) ipf_mask nb0 n_nodes edges
  junk fx hv hj ipmkE ip0_neg ip0_ker conn x).
Qed.
Lemma global_ip_solvable r : size r = N -> ip_off r ->
  exists x, [/\ size x = N, ip_off x, op x = Ok r & forall x', size x' = N -> ip_off x' -> op x' = Ok r -> x' = x].
Proof.
exact: (@definite_solvable F E dim nb (ipf dirs) (ipf [::]) ipmk (ipf_ok dirs) (ipf_ok [::]) ipf_mask
  (ipf_linear [::]) nb0 n_nodes edges junk fx hv hj ipmkE global_ip_definite r).
Qed.
Lemma global_ip_solution : exists x, [/\ size x = N, ip_off x, res x = Ok (nseq N 0) &
    forall x', size x' = N -> ip_off x' -> res x' = Ok (nseq N 0) -> x' = x].
Proof.
exact: (@definite_solution F E dim nb (ipf dirs) (ipf [::]) (ipg dirs) ipmk (ipf_ok dirs) (ipf_ok [::]) (ipg_ok dirs)
  ipf_mask ipg_mask (ipf_linear [::]) (ipg_affine dirs) nb0 n_nodes edges junk fx hv hj ipmkE global_ip_definite).
Qed.
End IP.
