(** The drivers with shifted inverse and BilaplacianEigs. *)
From mathcomp Require Import all_ssreflect all_algebra.
From mathcomp Require Import zify algebra_tactics.ring.
From Verif Require Import S_Lapack S_LocalSolver M_Base L_Base M_Index L_Index M_Global S_Global L_Global L_Global2 M_Lapack M_DiffusionUniform M_Diffusion.
From Verif Require Import S_Diffusion L_Diffusion L_Diffusion2 S_GlobalParab L_GlobalParab.
From Verif Require Import M_Bilaplacian L_Bilaplacian6 M_BilapEigs S_BilapEigs L_BilapEigs2 S_GlobalBilapEigs L_GlobalBilapEigs.
From Verif Require Import M_Drivers S_Drivers L_Drivers L_Drivers2 L_Drivers3.
Set Implicit Arguments. Unset Strict Implicit. Unset Printing Implicit Defensive.
Import GRing.Theory Num.Theory.
Local Open Scope ring_scope.

Section Shifted.
Variables (F : realFieldType) (gesv : nat -> nat -> seq F -> seq F -> sv_result F).
Variables (dim p : nat) (dirs laps : seq nat) (tau : F).
Variables (nodes : seq (seq nat)) (n_nodes : nat) (nt : nat -> nat) (junk : seq (seq F)) (P : nat -> be_data F).
Hypotheses (dim0 : (0 < dim)%N) (hP : be_data_all dim p nodes P).
Hypothesis (hv : valid_graph dim n_nodes (indexed nodes)).
Hypothesis (hg : gesv_correct gesv).
Hypothesis (hj : size junk = (2 * dim)%N).
Hypothesis (hty : be_types dim nodes nt P).
Hypothesis (hc : forall v, (v < n_nodes)%N -> nt v \in dirs -> has (fun l => v \in l) nodes).
Notation nb := ((p + 1) ^ (dim - 1))%N.
Notation n2 := (2 * (p + 1) ^ (dim - 1))%N.
Notation N := (n_nodes * n2)%N.
Notation off := (be_off dim p dirs laps n_nodes nt).
Let types i := be_node_types dim dirs (P i).
Let dir := dirichlet_indices n2 types [::] (indexed nodes).
Let res := be_res gesv dim p dirs laps tau nodes junk P.
Let nb0 : (0 < nb)%N. Proof. by rewrite expn_gt0 addn1. Qed.
Let n20 : (0 < n2)%N. Proof. by rewrite muln_gt0 nb0. Qed.
Lemma be_types_at i k : (i < size nodes)%N -> (k < 2 * dim)%N ->
  (nth 0%N (types i) k == 1%N) = (nt (nth 0%N (nth [::] nodes i) k) \in dirs).
Proof.
move=> hi hk; rewrite /types /be_node_types bilap_node_types nth_mkseq //.
by rewrite hty //; case: (_ \in _).
Qed.
Lemma be_size_types i : size (types i) = (2 * dim)%N.
Proof. by rewrite /types /be_node_types bilap_node_types size_mkseq. Qed.
Lemma be_dir_mem d : (d \in dir) = (d < N)%N && (nt (d %/ n2) \in dirs).
Proof. exact: (dir_mem n20 hv be_size_types be_types_at hc). Qed.
Let ds : sorted ltn dir := dir_sorted n2 nodes types.
Let da : all (fun d => d < N)%N dir := dir_all n20 hv be_size_types be_types_at hc.
Definition be_same := forall v, (v < n_nodes)%N -> (nt v \in dirs) = (nt v \in laps).
Lemma off_vanishes (x : seq F) : be_same -> size x = N -> off x <-> vanishes dir x.
Proof.
move=> hs sx; split=> [h d|h v j hvn hjn].
  rewrite be_dir_mem => /andP [hd ht]; have hvn : (d %/ n2 < n_nodes)%N by rewrite ltn_divLR.
  have hm : (d %% n2 < n2)%N by rewrite ltn_mod.
  rewrite [d in nth _ _ d](divn_eq d n2); case: (ltnP (d %% n2) nb) => hl.
    by have [h1 _] := h _ _ hvn hl; apply: h1.
  have hl' : (d %% n2 - nb < nb)%N by rewrite ltn_subLR // addnn -mul2n.
  by have [_ h1] := h _ _ hvn hl'; rewrite subnKC // in h1; apply: h1; rewrite -hs.
have bound k : (k < n2)%N -> (v * n2 + k < N)%N /\ ((v * n2 + k) %/ n2 = v)%N.
  move=> hk; rewrite divnMDl // divn_small // addn0; split=> //.
  have h3 : (v.+1 * n2 <= n_nodes * n2)%N by rewrite leq_mul2r hvn orbT.
  by rewrite mulSn in h3; apply: leq_trans h3; rewrite addnC ltn_add2r.
have [b1 e1] := bound j (leq_trans hjn (leq_pmull _ (ltn0Sn 1))).
have [|b2 e2] := bound (nb + j)%N; first by rewrite mul2n -addnn ltn_add2l.
by split=> ht; apply: h; rewrite be_dir_mem ?b1 ?b2 ?e1 ?e2 //= hs.
Qed.
Definition be_value (eig : F) (x : seq F) : seq F := if res x eig is Ok y then y else [::].
Lemma be_value_acts eig : be_regular_all dim p tau nodes P eig -> acts_as N (res^~ eig) (be_value eig).
Proof.
move=> hr x sx; have [r [h1 h2 _ _]] : exists z, [/\ res x eig = Ok z, size z = N, off z & True].
  have [z [h1 h2 h3 _]] := be_res_val dirs laps dim0 hg hv hj hty hr sx; by exists z.
by rewrite /be_value h1.
Qed.
Lemma be_shifted_pair ix sigma v k m : be_same -> make_index N dir = Ok ix -> 0 < tau -> sigma != 0 ->
  be_regular_all dim p tau nodes P sigma -> size v = (N - size dir)%N ->
  si_stiff res ix v = Ok k -> si_mass res sigma ix v = Ok m ->
  k = times sigma m <-> exists q u r w, bi_eigenpair dim p dirs laps tau nodes n_nodes nt P (extend N dir v) sigma q u r w.
Proof.
move=> hs hix t0 s0 hr hv' ek em.
have hr0 : be_regular_all dim p tau nodes P 0 by move=> i hi; apply: (be_neg dim0 (hP hi)).
rewrite (si_eigen ds da hix (be_value_acts hr0) (be_value_acts hr) s0 sigma hv' ek em).
have sx := size_extend dir N v; have fx := (off_vanishes hs sx).2 (extend_vanishes ds da v).
have [r [h1 h2 h3 _]] := be_res_val dirs laps dim0 hg hv hj hty hr sx.
have E : res (extend N dir v) sigma = Ok (nseq N 0) <->
  exists q u r w, bi_eigenpair dim p dirs laps tau nodes n_nodes nt P (extend N dir v) sigma q u r w by exact: bi_eigen_char.
rewrite -E; have er : be_value sigma (extend N dir v) = r by rewrite /be_value /res h1.
rewrite /res h1 er; split=> [h|[->] d hd hd2]; last by rewrite nth_nseq if_same subr0.
congr Ok; apply: (eq_from_nth (x0 := 0)) => [|d]; rewrite ?size_nseq h2 // => hd; rewrite nth_nseq hd.
case hd2: (d \in dir); first by apply: (off_vanishes hs h2).1.
by have := h d hd (negbT hd2); move/(mulfI s0)/eqP; rewrite -subr_eq0 opprB addrCA subrr addr0 => /eqP.
Qed.
(** Where only u is given, the helper removes the unknown of w as well. *)
Lemma be_removed v j : (v < n_nodes)%N -> (j < nb)%N -> nt v \in dirs -> (v * n2 + (nb + j))%N \in dir.
Proof.
move=> hvn hjn ht; have hk : (nb + j < n2)%N by rewrite mul2n -addnn ltn_add2l.
have h3 : (v.+1 * n2 <= n_nodes * n2)%N by rewrite leq_mul2r hvn orbT.
rewrite be_dir_mem divnMDl // divn_small // addn0 ht andbT.
by rewrite mulSn in h3; apply: leq_trans h3; rewrite [X in (_ < X)%N]addnC ltn_add2l.
Qed.
Lemma be_removed_zero v j (x : seq F) : (v < n_nodes)%N -> (j < nb)%N -> nt v \in dirs ->
  nth 0 (extend N dir x) (v * n2 + (nb + j)) = 0.
Proof. by move=> h1 h2 h3; apply: (extend_vanishes ds da); apply: be_removed. Qed.
End Shifted.
