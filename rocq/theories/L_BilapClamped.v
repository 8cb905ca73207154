(** Bilaplacian and BilaplacianParab with piecewise constants on an interval, u given at both ends and w at none:
    the system is singular. *)
From mathcomp Require Import all_ssreflect all_algebra zify ring.
From Verif Require Import M_Base L_Base M_Index M_DenseLA S_DenseLA M_Lapack S_Lapack.
From Verif Require Import S_Hdg L_Hdg L_HdgSrc S_Tpp L_Poly S_LocalSolver M_DiffusionUniform M_Diffusion S_Diffusion S_TppGeo L_DiffusionEx L_LocalLink L_DiffusionUniform2.
From Verif Require Import M_Global S_Global S_GlobalParab S_GlobalEigs L_ParabEx.
From Verif Require Import M_DiffusionEigs S_DiffusionEigs L_DiffusionEigs2 L_DiffusionEigs3 L_EigsEx.
From Verif Require Import M_Bilaplacian S_Bilaplacian L_Bilaplacian3 S_BiReact L_BiReg M_BilapEigs S_BilapEigs L_BiFlux L_BilapEigs2 L_BilapEigsEx.
From Verif Require Import M_BilapParab S_BilapParab L_BilapParab2.
Set Implicit Arguments. Unset Strict Implicit. Unset Printing Implicit Defensive.
Import Order.TTheory GRing.Theory Num.Theory.
Local Open Scope ring_scope.

Section Clamped.
Variables (F : rcfType) (tau : F).
Hypothesis tau0 : 0 < tau.
Definition clampedP : bl_data F := be_at (bi_of (oneP (fun=> 1 : F) [:: 1; 1]%N)) 0.
Notation P := clampedP.
Notation H := (bl_hdg 1 0 P).
Lemma clampedP_data : diffusion_data 1 0 (bl_df P).
Proof. by apply: be_data_at; rewrite bi_ofE; apply: oneP_data => t; exact: ltr01. Qed.
Lemma clampedH : [/\ hM H = 1%:M, forall d, hD H d = 0, forall f, hE H f = 1%:M
  & (forall f, hB H f = 1%:M) /\ forall f, ha H f = 1].
Proof.
have hB : bi_eigs_data 1 0 (bi_of (oneP (fun=> 1 : F) [:: 1; 1]%N)) by rewrite bi_ofE; apply: oneP_data => t; exact: ltr01.
by have [_ hd he [hb ha']] := oneH (fun=> 1 : F) [:: 1; 1]%N 0; split=> //; rewrite -(be_mass hB 0).
Qed.
Variable a : F.
Notation x1 := [:: [:: 0; a]; [:: 0; - a : F]].
Notation z0 := (nseq 2 (nseq 2 (0 : F))).
Notation lo x := (tr (nF := 2) 1 (lower 1 x)).
Notation hi x := (tr (nF := 2) 1 (upper 1 x)).
Lemma clamped_loc c : bi_react 1 0 tau P c (fun=> 0) 0 (fun=> const_mx (2%:R * a)) 0 (lo x1) (hi x1) (fun=> 0) 0 (fun=> 0) 0.
Proof.
have [hm hd he [hb ha']] := clampedH.
rewrite /bi_react /bi_loc !mulmx0 scaler0 !addr0; split; split=> [d|].
- rewrite hm hd mul0mx subr0 addr0 !big_ord_recl big_ord0 !he addr0 !mul1mx.
  apply/colP => i; rewrite !ord1 !mxE /=; ring.
- rewrite !big_ord_recl !big_ord0 !hd !he !hb !addr0 oppr0 add0r !mul1mx ?mulmx0.
  apply/colP => i; rewrite !ord1 !mxE ?big_ord1 ?mxE /=; ring.
- rewrite hm hd mul0mx subr0 addr0 !big_ord_recl big_ord0 !he addr0 !mul1mx.
  apply/colP => i; rewrite !ord1 !mxE /=; ring.
rewrite !big_ord_recl !big_ord0 !hd !he !hb !addr0 oppr0 add0r !mul1mx.
by apply/colP => i; rewrite !ord1 !mxE ?big_ord1 ?mxE /=; ring.
Qed.
Lemma clamped_flux c (ttf : seq (seq F) -> seq (seq F) -> outcome (seq (seq F))) : bi_regular 1 0 tau P c ->
  (forall x out, is_trace 2 2 x -> is_trace 2 2 out -> exists2 y, ttf x out = Ok y & exists q u r w,
     bi_react 1 0 tau P c q u r w (lo x) (hi x) (fun=> 0) 0 (fun=> 0) 0 /\
     bi_flux 1 0 [:: 1%N] [::] tau P q u r w (lo x) (hi x) y) ->
  ttf x1 z0 = Ok z0.
Proof.
move=> hr hf; have [y -> [q [u [r [w [h1 h2]]]]]] := hf x1 z0 (conj erefl erefl) (conj erefl erefl).
congr Ok; have [hm hd he [hb ha']] := clampedH.
suff h3 : bi_flux 1 0 [:: 1%N] [::] tau P (fun=> 0) 0 (fun=> const_mx (2%:R * a)) 0 (lo x1) (hi x1) z0.
  exact: (flux_bi_unique (react_unique hr h1 (clamped_loc c)) (fun=> erefl) (fun=> erefl) h2 h3).
split=> // f.
  have -> : face_dirichlet [:: 1%N] (bl_df P) f = true by case: f => -[|[|]].
  by apply/colP => j; rewrite !mxE ord1; case: f => -[|[|]].
have -> : face_dirichlet [::] (bl_df P) f = false by case: f => -[|[|]].
rewrite /num_flux big_ord1 !mulmx0 !scaler0 !(addr0, add0r).
by apply/colP => j; rewrite !mxE ord1; case: f => -[|[|]] //= _; rewrite ?mulr0 ?oppr0 ?subr0 ?addr0.
Qed.
(** One hyperedge. *)
Definition clamped_edge : seq (seq nat * unit) := [:: ([:: 0; 1]%N, tt)].
Lemma clamped_graph : valid_graph 1 2 clamped_edge.
Proof. by []. Qed.
Lemma clamped_op (junk : seq (seq F)) (f : local_fun F unit) : size junk = 2%N -> f tt x1 z0 = Ok z0 ->
  elliptic_flux 2 4 [::] junk clamped_edge f [:: 0; a; 0; - a] = Ok (nseq 4 0).
Proof.
case: junk => [|b1 [|b2 [|]]] // _ h.
rewrite /elliptic_flux /mat_vec /=.
rewrite [f tt _ _](_ : _ = Ok z0); last exact: h.
rewrite /= /scatter_add /=.
by rewrite /zero_rows /for_ /add_at /upd /= !addr0.
Qed.
Lemma clamped_bilap gesv (junk : seq (seq F)) : gesv_correct gesv -> size junk = 2%N ->
  elliptic_flux 2 4 [::] junk clamped_edge (fun=> bl_trace_to_flux gesv 1 0 [:: 1%N] [::] tau P) [:: 0; a; 0; - a] = Ok (nseq 4 0).
Proof.
move=> hg hj; apply: clamped_op => //; apply: (@clamped_flux 0).
  by apply: regular_neg => //; exact: clampedP_data.
move=> x out hx ho; have [y h1 [q [u [r [w [h2 h3]]]]]] := @bilap_flux F gesv 1 0 [:: 1%N] [::] tau P isT clampedP_data hg tau0 x out hx ho.
exists y => //; exists q, u, r, w; split=> //.
by rewrite /bi_react scale0r addr0.
Qed.
Lemma clamped_parab gesv (theta dt : F) src init (old : seq F) (junk : seq (seq F)) : gesv_correct gesv -> size junk = 2%N -> 0 < theta * dt ->
  elliptic_flux 2 4 [::] junk clamped_edge
    (fun=> bp_trace_to_flux gesv 1 0 [:: 1%N] [::] tau theta dt (BpData P src init) old) [:: 0; a; 0; - a] = Ok (nseq 4 0).
Proof.
move=> hg hj k0; apply: clamped_op => //; apply: (@clamped_flux (- (theta * dt)^-1)).
  by apply: regular_neg => //; [exact: clampedP_data | rewrite oppr_le0 invr_ge0 ltW].
by move=> x out hx ho; exact: (@parab_flux_ F gesv 1 0 [:: 1%N] [::] tau theta dt (BpData P src init) isT clampedP_data hg tau0 k0 old x out hx ho).
Qed.
End Clamped.
Lemma clamped_refuted (F : rcfType) (tau : F) (gesv : nat -> nat -> seq F -> seq F -> sv_result F) (junk : seq (seq F)) :
  0 < tau -> gesv_correct gesv -> size junk = 2%N ->
  exists (P : bl_data F) (edges : seq (seq nat * unit)) (nt : nat -> nat),
  [/\ diffusion_data 1 0 (bl_df P), valid_graph 1 2 edges, types_agree (fun=> bl_df P) nt edges,
      forall v, (v < 2)%N -> nt v \in [:: 1%N] & forall a : F, exists x : seq F,
   [/\ size x = 4%N, nth 0 x 1 = a, nth 0 x 0 = 0 /\ nth 0 x 2 = 0,
     elliptic_flux 2 4 [::] junk edges (fun=> bl_trace_to_flux gesv 1 0 [:: 1%N] [::] tau P) x = Ok (nseq 4 0) &
     forall theta dt src init old, 0 < theta * dt -> elliptic_flux 2 4 [::] junk edges
       (fun=> bp_trace_to_flux gesv 1 0 [:: 1%N] [::] tau theta dt (BpData P src init) old) x = Ok (nseq 4 0)]].
Proof.
move=> t0 hg hj; exists (clampedP F), clamped_edge, (fun=> 1%N); split=> //.
- exact: clampedP_data.
- by move=> e k [<-|[]] //=; case: k => [|[|]].
move=> a; exists [:: 0; a; 0; - a]; split=> //; first exact: clamped_bilap.
by move=> theta dt src init old k0; exact: clamped_parab.
Qed.
