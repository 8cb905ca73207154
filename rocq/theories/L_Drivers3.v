(** The drivers with shifted inverse and DiffusionEigs. *)
From mathcomp Require Import all_ssreflect all_algebra.
From mathcomp Require Import zify algebra_tactics.ring.
From Verif Require Import S_Lapack S_LocalSolver.
From Verif Require Import M_Base L_Base M_Index L_Index M_Global S_Global L_Global L_Global2 M_Lapack S_Lapack M_DiffusionUniform M_Diffusion.
From Verif Require Import S_Diffusion L_Diffusion L_Diffusion2 S_GlobalParab L_GlobalParab M_DiffusionEigs S_DiffusionEigs S_GlobalEigs.
From Verif Require Import L_DiffusionEigs2 L_DiffusionEigs3 L_GlobalEigs L_GlobalEigs2.
From Verif Require Import M_Drivers S_Drivers L_Drivers L_Drivers2.
Set Implicit Arguments. Unset Strict Implicit. Unset Printing Implicit Defensive.
Import GRing.Theory Num.Theory.
Local Open Scope ring_scope.

Section DirMem.
Variables (F : realFieldType) (dim nb : nat) (dirs : seq nat) (nodes : seq (seq nat)) (n_nodes : nat) (nt : nat -> nat).
Variable types : nat -> seq nat.
Hypotheses (nb0 : (0 < nb)%N) (hv : valid_graph dim n_nodes (indexed nodes)).
Hypothesis hsz : forall i, size (types i) = (2 * dim)%N.
Hypothesis htp : forall i k, (i < size nodes)%N -> (k < 2 * dim)%N ->
  (nth 0%N (types i) k == 1%N) = (nt (nth 0%N (nth [::] nodes i) k) \in dirs).
(** Hypernodes with Dirichlet condition belong to hyperedges. *)
Hypothesis (hc : forall v, (v < n_nodes)%N -> nt v \in dirs -> has (fun l => v \in l) nodes).
Notation N := (n_nodes * nb)%N.
Let dir := dirichlet_indices nb types [::] (indexed nodes).
Lemma node_at i : (i < size nodes)%N -> size (nth [::] nodes i) = (2 * dim)%N /\
  forall k, (k < 2 * dim)%N -> (nth 0%N (nth [::] nodes i) k < n_nodes)%N.
Proof.
move=> hi; have := hv; rewrite /valid_graph => /allP/(_ (nth [::] nodes i, i)).
have -> : (nth [::] nodes i, i) \in indexed nodes by rewrite -(indexed_nth ([::], 0%N) hi) mem_nth // size_indexed.
by move=> /(_ isT) /= /andP [/eqP h1 /allP h2]; split=> // k hk; apply: h2; rewrite mem_nth // h1.
Qed.
Lemma mem_dofs v d : (d \in get_dof_indices nb v) = (d %/ nb == v)%N.
Proof.
apply/(nthP 0%N)/eqP => [[j]|<-]; rewrite size_dof_indices.
  by move=> hj' <-; rewrite nth_dof_indices // divnMDl // divn_small // addn0.
by exists (d %% nb)%N; rewrite ?nth_dof_indices ?ltn_mod // -divn_eq.
Qed.
Lemma dir_mem d : (d \in dir) = (d < N)%N && (nt (d %/ nb) \in dirs).
Proof.
rewrite dirichlet_mem !inE /=; apply/idP/idP.
  move=> /hasP [e /(nthP ([::], 0%N)) [i]]; rewrite size_indexed => hi <- /hasP [k].
  rewrite indexed_nth //= hsz mem_iota add0n => /andP [_ hk]; rewrite htp // mem_dofs.
  move=> /andP [h1 /eqP h2]; rewrite h2 h1 andbT.
  by have [_ /(_ _ hk)] := node_at hi; rewrite -h2 ltn_divLR.
move=> /andP [hd h1]; have hvn : (d %/ nb < n_nodes)%N by rewrite ltn_divLR.
have /hasP [l /(nthP [::]) [i hi <-] hl] := hc hvn h1; have [s1 _] := node_at hi.
apply/hasP; exists (nth [::] nodes i, i); first by rewrite -(indexed_nth ([::], 0%N) hi) mem_nth // size_indexed.
have hk : (index (d %/ nb)%N (nth [::] nodes i) < 2 * dim)%N by rewrite -s1 index_mem.
apply/hasP; exists (index (d %/ nb)%N (nth [::] nodes i)); first by rewrite mem_iota hsz.
by rewrite htp // mem_dofs nth_index // h1 eqxx.
Qed.
Lemma dir_sorted : sorted ltn dir. Proof. exact: dirichlet_sorted. Qed.
Lemma dir_all : all (fun d => d < N)%N dir.
Proof. by apply/allP => d; rewrite dir_mem => /andP []. Qed.
End DirMem.

Section Shifted.
Variables (F : realFieldType) (gesv : nat -> nat -> seq F -> seq F -> sv_result F).
Variables (dim p : nat) (dirs : seq nat) (tau : F).
Variables (nodes : seq (seq nat)) (n_nodes : nat) (nt : nat -> nat) (junk : seq (seq F)) (P : nat -> de_data F).
Hypotheses (dim0 : (0 < dim)%N) (hP : eigs_data_all dim p nodes P).
Hypothesis (hv : valid_graph dim n_nodes (indexed nodes)).
Hypothesis (hg : gesv_correct gesv).
Hypothesis (hj : size junk = (2 * dim)%N).
Hypothesis (hty : eigs_types dim nodes nt P).
(** Hypernodes with Dirichlet condition belong to hyperedges. *)
Hypothesis (hc : forall v, (v < n_nodes)%N -> nt v \in dirs -> has (fun l => v \in l) nodes).
Notation nb := ((p + 1) ^ (dim - 1))%N.
Notation N := (n_nodes * nb)%N.
Notation free := (dir_free dim p dirs n_nodes nt).
Let types i := de_node_types dim dirs (P i).
Let dir := dirichlet_indices nb types [::] (indexed nodes).
Let res := eigs_res gesv dim p dirs tau nodes junk P.
Let nb0 : (0 < nb)%N. Proof. by rewrite expn_gt0 addn1. Qed.

Lemma types_at i k : (i < size nodes)%N -> (k < 2 * dim)%N ->
  (nth 0%N (types i) k == 1%N) = (nt (nth 0%N (nth [::] nodes i) k) \in dirs).
Proof.
move=> hi hk; rewrite /types /de_node_types diffusion_node_types nth_mkseq //.
by rewrite hty //; case: (_ \in _).
Qed.
Lemma size_types i : size (types i) = (2 * dim)%N.
Proof. by rewrite /types /de_node_types diffusion_node_types size_mkseq. Qed.
Let nd := dir_mem nb0 hv size_types types_at hc.
Let ds : sorted ltn dir := dir_sorted nb nodes types.
Let da : all (fun d => d < N)%N dir := dir_all nb0 hv size_types types_at hc.
Lemma free_vanishes (x : seq F) : size x = N -> free x <-> vanishes dir x.
Proof.
move=> sx; split=> h d; first by rewrite nd => /andP [h1 h2]; apply: h.
by move=> hd h1; apply: h; rewrite nd hd.
Qed.
Definition value (eig : F) (x : seq F) : seq F := if res x eig is Ok y then y else [::].
Lemma value_acts eig : regular_all dim p tau nodes P eig -> acts_as N (res^~ eig) (value eig).
Proof.
move=> hr x sx; have [r [h1 h2 _ _]] := @res_val F gesv dim p dirs tau nodes n_nodes nt junk P dim0 hP hg hv hj hty eig hr x sx.
by rewrite /value /res h1.
Qed.
Lemma shifted_pair ix sigma v k m : make_index N dir = Ok ix -> 0 < tau -> sigma != 0 ->
  regular_all dim p tau nodes P sigma -> size v = (N - size dir)%N ->
  si_stiff res ix v = Ok k -> si_mass res sigma ix v = Ok m ->
  k = times sigma m <-> exists q u, eigenpair dim p dirs tau nodes n_nodes nt P (extend N dir v) sigma q u.
Proof.
move=> hix t0 s0 hr hv' ek em.
have hr0 : regular_all dim p tau nodes P 0 by move=> i hi; apply: (eigs_neg dim0 (hP hi)).
rewrite (si_eigen ds da hix (value_acts hr0) (value_acts hr) s0 sigma hv' ek em).
have sx := size_extend dir N v; have fx := (free_vanishes sx).2 (extend_vanishes ds da v).
have [r [h1 h2 h3 _]] := @res_val F gesv dim p dirs tau nodes n_nodes nt junk P dim0 hP hg hv hj hty sigma hr _ sx.
rewrite -(@eigen_char F gesv dim p dirs tau nodes n_nodes nt junk P dim0 hP hg hv hj hty sigma hr _ sx fx).
have er : value sigma (extend N dir v) = r by rewrite /value /res h1.
rewrite h1 er; split=> [h|[->] d hd hd2]; last by rewrite nth_nseq if_same subr0.
congr Ok; apply: (eq_from_nth (x0 := 0)) => [|d]; rewrite ?size_nseq h2 // => hd; rewrite nth_nseq hd.
case hd2: (d \in dir); first by apply: (free_vanishes h2).1.
have := h d hd (negbT hd2); move/(mulfI s0)/eqP; rewrite -subr_eq0 opprB addrCA subrr addr0 => /eqP.
by [].
Qed.
End Shifted.
