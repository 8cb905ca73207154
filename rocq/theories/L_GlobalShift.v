(** Definite global operators when the work of a hyperedge is bounded by a sum over its faces that is not positive
    at the hypernodes. *)
From mathcomp Require Import all_ssreflect all_algebra zify.
From Verif Require Import M_Base L_Base M_Global S_Global L_Global L_Global2 L_Global3 L_Global4.
From Verif Require Import S_LocalSolver L_LocalBase L_LocalLink L_GlobalUniform L_GlobalMasked.
Set Implicit Arguments. Unset Strict Implicit. Unset Printing Implicit Defensive.
Import Order.TTheory GRing.Theory Num.Theory.
Local Open Scope ring_scope.

Section Shift.
Variables (F : realFieldType) (E : Type) (dim nb : nat).
Local Notation m := (2 * dim)%N.
Variables (f f0 : local_fun F E) (mk : E -> nat -> bool).
Notation phi := (@phi_of F E dim nb f).
Notation phi0 := (@phi_of F E dim nb f0).
Notation zt := (nseq m (nseq nb 0)).
Hypothesis fok : forall e x, is_trace m nb x -> exists2 y, f e x zt = Ok y & is_trace m nb y.
Hypothesis f0ok : forall e x, is_trace m nb x -> exists2 y, f0 e x zt = Ok y & is_trace m nb y.
Hypothesis phi_mask : forall e A (k : 'I_m) j, phi e A k j = if mk e k then 0 else phi0 e A k j.
Hypothesis nb0 : (0 < nb)%N.
Variables (n_nodes : nat) (edges : seq (seq nat * E)) (junk : seq (seq F)) (fx : nat -> bool).
Hypotheses (hv : valid_graph dim n_nodes edges) (hj : size junk = m).
Hypothesis hmk : forall e, List.In e edges -> forall k, (k < m)%N -> mk e.2 k = fx (nth 0%N e.1 k).
Notation N := (n_nodes * nb)%N.
Notation moff := (moff nb n_nodes fx).
Notation op x := (elliptic_flux nb N [::] junk edges f x).
Notation loc e x := (local_part dim nb e.1 x).

Lemma masked_work x : size x = N -> moff x -> exists u, op x = Ok u /\
  vdot N x u = \sum_(e <- edges) fdot (loc e x) (phi0 e.2 (loc e x)).
Proof.
move=> sx ox; rewrite (masked_opE fok f0ok phi_mask nb0 hv hj hmk sx).
have [z [-> _ hz]] := elliptic_fluxE (phi_computes f0ok) hv hj sx (masked_lt nb n_nodes fx).
exists z; split=> //; rewrite -(global_dot _ _ _ hv); apply: eq_bigr => d _; rewrite hz.
by case: ifP => // hin; rewrite (iffLR (moffE nb n_nodes fx x) ox) // !mul0r.
Qed.

Variable sh : E -> nat -> F.
Definition shift e (A : 'M[F]_(m, nb)) : F := (\sum_(k < m) sh e k * (\sum_j A k j ^+ 2)) / 2%:R.
Hypothesis bound : forall e A, fdot A (phi0 e A) <= shift e A.
Hypothesis kerS : forall e A (k : 'I_m), fdot A (phi0 e A) = shift e A -> row k A = 0 -> A = 0.
Hypothesis net : forall v, (v < n_nodes)%N -> ~~ fx v ->
  \sum_(e <- edges) \sum_(k < m | nth 0%N e.1 k == v) sh e.2 k <= 0.
(** Hyperedges on which only the zero trace attains the bound. *)
Variable strict : E -> bool.
Hypothesis strictP : forall e A, strict e -> fdot A (phi0 e A) = shift e A -> A = 0.
Definition held (v : nat) : bool := fx v || has (fun e => strict e.2 && (v \in e.1)) edges.
Hypothesis conn : forall v, (v < n_nodes)%N -> anchored edges (fun v => held v) v.

(** The sums over the faces, node by node. *)
Lemma sum_nodes (G : nat -> F) : \sum_(e <- edges) \sum_(k < m) sh e.2 k * G (nth 0%N e.1 k) =
  \sum_(v < n_nodes) (\sum_(e <- edges) \sum_(k < m | nth 0%N e.1 k == v) sh e.2 k) * G v.
Proof.
under [RHS]eq_bigr => v _ do rewrite mulr_suml.
rewrite [RHS]exchange_big /=.
elim: (edges) hv => [|e l IH] /=; first by rewrite !big_nil.
move=> /andP[/andP[/eqP se ae] hl]; rewrite !big_cons IH //; congr (_ + _).
under [RHS]eq_bigr => v _ do rewrite big_mkcond mulr_suml.
rewrite exchange_big /=; apply: eq_bigr => k _.
have hk : (nth 0%N e.1 k < n_nodes)%N by apply: (allP ae); rewrite mem_nth // se.
rewrite (sum_ord1 (i := Ordinal hk)) => [|v hne]; first by rewrite eqxx.
by rewrite eq_sym (negbTE hne) mul0r.
Qed.
Lemma shift_nonpos x : size x = N -> moff x -> \sum_(e <- edges) shift e.2 (loc e x) <= 0.
Proof.
move=> sx ox; pose G v := \sum_(j < nb) nth 0 x (v * nb + j) ^+ 2.
have -> : \sum_(e <- edges) shift e.2 (loc e x) = (\sum_(e <- edges) \sum_(k < m) sh e.2 k * G (nth 0%N e.1 k)) / 2%:R.
  rewrite mulr_suml; apply: eq_bigr => e _; congr (_ / _); apply: eq_bigr => k _; congr (_ * _).
  by apply: eq_bigr => j _; rewrite mxE.
rewrite pmulr_lle0 ?invr_gt0 ?ltr0n // sum_nodes -oppr_ge0 -sumrN; apply: sumr_ge0 => v _; rewrite oppr_ge0.
case hf : (fx v).
  rewrite [G v]big1 ?mulr0 // => j _.
  rewrite ox ?expr0n //; last by rewrite divnMDl // divn_small // addn0.
  apply: (@leq_trans (v * nb + nb)); first by rewrite ltn_add2l.
  by rewrite -mulSnr leq_mul2r ltn_ord orbT.
rewrite mulr_le0_ge0 //; first by apply: net; rewrite // hf.
by apply: sumr_ge0 => j _; exact: sqr_ge0.
Qed.
Lemma shifted_definite x : size x = N -> moff x ->
  exists u, [/\ op x = Ok u, vdot N x u <= 0 & vdot N x u = 0 -> x = nseq N 0].
Proof.
move=> sx ox; have [u [hu hvd]] := masked_work sx ox; exists u; rewrite hvd.
have hle : \sum_(e <- edges) fdot (loc e x) (phi0 e.2 (loc e x)) <= \sum_(e <- edges) shift e.2 (loc e x).
  by apply: ler_sum => e _; exact: bound.
have hs := shift_nonpos sx ox; split=> //; first exact: le_trans hle hs.
move=> h0.
have hall : all (fun e => fdot (loc e x) (phi0 e.2 (loc e x)) == shift e.2 (loc e x)) edges.
  have : \sum_(e <- edges) (shift e.2 (loc e x) - fdot (loc e x) (phi0 e.2 (loc e x))) == 0.
    by rewrite sumrB h0 subr0 eq_le hs /= -[X in X <= _]h0.
  elim: (edges) => [//|e l IH] /=; rewrite big_cons paddr_eq0 ?subr_ge0 ?bound //.
    by case/andP; rewrite subr_eq0 eq_sym => -> /IH ->.
  by apply: sumr_ge0 => e' _; rewrite subr_ge0 bound.
have hedge e : List.In e edges -> size e.1 = m /\ fdot (loc e x) (phi0 e.2 (loc e x)) = shift e.2 (loc e x).
  elim: (edges) hv hall => [//|e' l IHl] /= /andP[/andP[/eqP s1 _] hl] /andP[/eqP h1 h2] [<-//|].
  exact: IHl.
have zero v : anchored edges (fun v => held v) v -> forall j, (j < nb)%N -> nth 0 x (v * nb + j) = 0.
  elim=> [{}v /orP[hfix|hst] j hjn|e {}v w he hve hwe _ IH j hjn].
  - case: (ltnP (v * nb + j) N) => hN; last by rewrite nth_default ?sx.
    by apply: ox => //; rewrite divnMDl // divn_small // addn0.
  - have [e [he /andP[he1 hve]]] : exists e, List.In e edges /\ strict e.2 && (v \in e.1).
      elim: (edges) hst => [//|e l IHl] /= /orP[h|/IHl[e' [h1 h2]]]; first by exists e; split=> //; left.
      by exists e'; split=> //; right.
    have [se he0] := hedge _ he; have hi : (index v e.1 < m)%N by rewrite -se index_mem.
    by have /matrixP/(_ (Ordinal hi) (Ordinal hjn)) := strictP he1 he0; rewrite !mxE /= nth_index.
  have [se he0] := hedge _ he.
  have hi a : a \in e.1 -> (index a e.1 < m)%N by rewrite -se index_mem.
  have r0 : row (Ordinal (hi _ hve)) (loc e x) = 0.
    by apply/rowP => i; rewrite !mxE /= nth_index // IH.
  by have /matrixP/(_ (Ordinal (hi _ hwe)) (Ordinal hjn)) := kerS he0 r0; rewrite !mxE /= nth_index.
apply: (@eq_from_nth _ 0); rewrite ?size_nseq // sx => d hN.
rewrite nth_nseq hN (divn_eq d nb) zero ?ltn_mod //; apply: conn.
by rewrite ltn_divLR.
Qed.
End Shift.
