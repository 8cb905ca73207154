(** Proofs about M_DiffusionIP: from the arrays to the local problem. *)
From mathcomp Require Import all_ssreflect all_algebra zify ring.
From Verif Require Import M_Base L_Base M_Index L_Index M_DenseLA S_DenseLA L_DenseLA M_Lapack S_Lapack L_Lapack.
From Verif Require Import S_Hdg L_Hdg S_Tpp S_LocalSolver M_DiffusionUniform S_Diffusion.
From Verif Require Import L_LocalBase L_LocalBlock L_LocalLink L_HdgSrc L_DiffusionUniform L_Diffusion.
From Verif Require Import S_DiffusionEigs M_DiffusionIP S_DiffusionIP.
Set Implicit Arguments. Unset Strict Implicit. Unset Printing Implicit Defensive.
Import Order.TTheory GRing.Theory Num.Theory.
Local Open Scope ring_scope.

Section IP.
Variable F : realFieldType.
Variable gesv : nat -> nat -> seq F -> seq F -> sv_result F.
Variables (dim poly_deg : nat) (dirs : seq nat) (tau : F) (P : ip_data F) (t : F).
Notation nf := (n_shape_fct dim poly_deg).
Notation nb := (n_shape_bdr dim poly_deg).
Notation K := (ip_assemble_loc_matrix dim poly_deg tau P t).
Notation mask := (ip_face_dirichlet dirs P).
Definition ipcol (X : seq F) : 'cV[F]_nf := \col_i nth 0 X i.
Definition ipK : 'M[F]_nf := \matrix_(i, j) (ip_stiff P t i j + \sum_(f < 2 * dim) (tau * ip_bb P i j f - ip_nbb P 0 j i f)).

Definition ipA i j : seq (nat * nat * F) :=
  ((i, j), ip_stiff P t i j) ::
  flatten [seq [:: ((i, j), tau * ip_bb P i j f); ((i, j), - ip_nbb P 0 j i f)] | f <- iota 0 (2 * dim)].
Lemma ip_assembleE : K = accumulate (zeros F nf nf) [seq (loc nf e.1.1 e.1.2, e.2) | e <-
   flatten [seq flatten [seq ipA i j | j <- iota 0 nf] | i <- iota 0 nf]].
Proof.
rewrite map_flatten -map_comp; apply: for_acc => i s _ /=; rewrite map_flatten -map_comp; apply: for_acc => j r _ /=.
rewrite map_flatten -map_comp; exact: for_acc.
Qed.
Lemma ip_size_K : size K = (nf * nf)%N.
Proof. by rewrite ip_assembleE size_accumulate size_nseq. Qed.
Lemma ip_entry (i j : 'I_nf) : nth 0 K (loc nf i j) = ipK i j.
Proof.
rewrite ip_assembleE flat_entry //; last first.
  move=> e /flattenP[l /mapP[k hk ->]] /flattenP[l' /mapP[j' _ ->]].
  rewrite mem_iota add0n in hk; rewrite inE => /orP[/eqP ->|/flattenP[l2 /mapP[f _ ->]]] //.
  by rewrite !inE => /orP[] /eqP ->.
rewrite contrib2_loop (sum_ord1 (i := i)) => [|k hne]; last first.
  rewrite contrib2_loop big1 // => l _; rewrite /ipA contrib2_cons contrib2_loop xpair_eqE (negbTE hne) /= add0r.
  by rewrite big1 // => f _; rewrite !contrib2_cons contrib2_nil xpair_eqE (negbTE hne) /= !addr0.
rewrite contrib2_loop (sum_ord1 (i := j)) => [|k hne]; last first.
  rewrite /ipA contrib2_cons contrib2_loop xpair_eqE (negbTE hne) andbF add0r.
  by rewrite big1 // => f _; rewrite !contrib2_cons contrib2_nil xpair_eqE (negbTE hne) andbF !addr0.
rewrite /ipA contrib2_cons contrib2_loop eqxx mxE; congr (_ + _); apply: eq_bigr => f _.
by rewrite !contrib2_cons contrib2_nil eqxx addr0.
Qed.
Lemma ip_mx : mx_of nf nf K = ipK.
Proof. by apply/matrixP => i j; rewrite mxE -ip_entry. Qed.

(** Right-hand sides. *)
Definition ip_lam (lambda : seq (seq F)) : 'cV[F]_nf :=
  \col_i (tau * \sum_(f < 2 * dim) \sum_(j < nb) ip_bp P i j f * nth 0 (nth [::] lambda f) j).
Lemma ip_rhsE lambda : ip_rhs_lambda_loop dim poly_deg tau P lambda = accumulate (zeros F nf 1)
  (flatten [seq flatten [seq flatten [seq [:: (i, tau * lambda_at lambda f j * ip_bp P i j f)]
    | f <- iota 0 (2 * dim)] | j <- iota 0 nb] | i <- iota 0 nf]).
Proof. by apply: for_acc => i s _; apply: for_acc => j r _; apply: for_acc. Qed.
Lemma ip_size_rhs lambda : size (ip_rhs_lambda_loop dim poly_deg tau P lambda) = nf.
Proof. by rewrite ip_rhsE size_accumulate size_nseq muln1. Qed.
Lemma ip_rhs_col lambda : ipcol (ip_rhs_lambda_loop dim poly_deg tau P lambda) = ip_lam lambda.
Proof.
apply/colP => i; rewrite !mxE ip_rhsE nth_contrib ?size_nseq ?muln1 // nth_nseq if_same add0r contrib_loop.
rewrite (sum_ord1 (i := i)) => [|k hne]; last first.
  rewrite contrib_loop big1 // => j _; rewrite contrib_loop big1 // => f _.
  by rewrite contrib_cons contrib_nil (negbTE hne) addr0.
rewrite contrib_loop; under eq_bigr => j _ do rewrite contrib_loop.
rewrite exchange_big mulr_sumr; apply: eq_bigr => f _; rewrite mulr_sumr; apply: eq_bigr => j _.
by rewrite contrib_cons contrib_nil eqxx addr0 /lambda_at -mulrA; congr (_ * _); exact: mulrC.
Qed.
Definition ip_glob : 'cV[F]_nf := \col_i (ip_src P t i + tau * (\sum_(f < 2 * dim | mask f) ip_dirval P t i f)).
Lemma ip_globalE : ip_rhs_global dim poly_deg dirs tau P t = accumulate (zeros F nf 1)
  (flatten [seq (i, ip_src P t i) :: flatten [seq (if mask f then [:: (i, tau * ip_dirval P t i f)] else [::])
    | f <- iota 0 (2 * dim)] | i <- iota 0 nf]).
Proof.
apply: for_acc_hist => i hi; cbv zeta; rewrite -cat1s accumulate_cat.
set s := accumulate _ (flatten _).
have ss : (i < size s)%N by rewrite size_accumulate size_nseq muln1.
have s0 : nth 0 s i = 0.
  rewrite nth_contrib ?size_nseq ?muln1 // nth_nseq if_same add0r contrib_loop big1 // => k _.
  have hne : ((k : nat) == i) = false by have := ltn_ord k; lia.
  rewrite contrib_cons hne add0r contrib_loop big1 // => f _.
  by case: ifP => _; rewrite ?contrib_cons contrib_nil ?hne ?addr0.
have -> : accumulate s [:: (i, ip_src P t i)] = upd s i (ip_src P t i) by rewrite /= /add_at s0 add0r.
by apply: for_acc => f r _; case: (mask f).
Qed.
Lemma ip_glob_col : ipcol (ip_rhs_global dim poly_deg dirs tau P t) = ip_glob.
Proof.
apply/colP => i; rewrite !mxE ip_globalE nth_contrib ?size_nseq ?muln1 // nth_nseq if_same add0r contrib_loop.
rewrite (sum_ord1 (i := i)) => [|k hne].
  rewrite contrib_cons eqxx contrib_loop mulr_sumr [in RHS]big_mkcond; congr (_ + _); apply: eq_bigr => f _.
  by case: (mask f); rewrite ?contrib_cons contrib_nil ?eqxx ?addr0.
rewrite contrib_cons (negbTE hne) add0r contrib_loop big1 // => f _.
by case: (mask f); rewrite ?contrib_cons contrib_nil ?(negbTE hne) ?addr0.
Qed.
Lemma ip_col_add (r s : seq F) : size r = nf -> ipcol (mat_add nf 1 1 r s) = ipcol r + ipcol s.
Proof.
move=> hr; have hm : is_mat nf 1 r by rewrite /is_mat muln1.
apply/colP => i; rewrite !mxE /mat_add eqxx.
by have := mget_add_eq_same s hm (ltn_ord i) (ltnSn 0); rewrite /mget /loc mul0n add0n.
Qed.

(** Boundary values. *)
Lemma ip_primal_tr X (f : 'I_(2 * dim)) (j : 'I_nb) :
  mget (2 * dim) (ip_primal dim poly_deg P X) f j = \sum_(i < nf) ip_bp P i j f * nth 0 X i.
Proof.
have -> : ip_primal dim poly_deg P X = accumulate (zeros F (2 * dim) nb)
   [seq (loc (2 * dim) e.1.1 e.1.2, e.2) | e <- flatten [seq flatten [seq flatten [seq
     [:: ((f, j), nth 0 X i * ip_bp P i j f)] | f <- iota 0 (2 * dim)] | j <- iota 0 nb] | i <- iota 0 nf]].
  rewrite map_flatten -map_comp; apply: for_acc => i s _ /=.
  rewrite map_flatten -map_comp; apply: for_acc => k r _ /=.
  by rewrite map_flatten -map_comp; apply: for_acc => g v _.
rewrite /mget flat_entry //; last first.
  move=> e /flattenP[l /mapP[i _ ->]] /flattenP[l' /mapP[k _ ->]] /flattenP[l2 /mapP[g hg ->]].
  by rewrite inE => /eqP -> /=; move: hg; rewrite mem_iota; lia.
rewrite contrib2_loop; apply: eq_bigr => i _; rewrite contrib2_loop (sum_ord1 (i := j)) => [|k hne].
  rewrite contrib2_loop (sum_ord1 (i := f)) => [|g hne].
    by rewrite contrib2_cons contrib2_nil eqxx addr0 mulrC.
  by rewrite contrib2_cons contrib2_nil xpair_eqE (negbTE hne) addr0.
rewrite contrib2_loop big1 // => g _.
by rewrite contrib2_cons contrib2_nil xpair_eqE (negbTE hne) andbF addr0.
Qed.
Lemma ip_dual_tr X (f : 'I_(2 * dim)) (j : 'I_nb) :
  mget (2 * dim) (ip_dual dim poly_deg P X) f j = - \sum_(i < nf) ip_nbp P 0 i j f * nth 0 X i.
Proof.
have -> : ip_dual dim poly_deg P X = accumulate (zeros F (2 * dim) nb)
   [seq (loc (2 * dim) e.1.1 e.1.2, e.2) | e <- flatten [seq flatten [seq flatten [seq
     [:: ((f, j), - (ip_nbp P 0 i j f * nth 0 X i))] | f <- iota 0 (2 * dim)] | j <- iota 0 nb] | i <- iota 0 nf]].
  rewrite map_flatten -map_comp; apply: for_acc => i s _ /=.
  rewrite map_flatten -map_comp; apply: for_acc => k r _ /=.
  by rewrite map_flatten -map_comp; apply: for_acc => g v _.
rewrite /mget flat_entry //; last first.
  move=> e /flattenP[l /mapP[i _ ->]] /flattenP[l' /mapP[k _ ->]] /flattenP[l2 /mapP[g hg ->]].
  by rewrite inE => /eqP -> /=; move: hg; rewrite mem_iota; lia.
rewrite contrib2_loop -sumrN; apply: eq_bigr => i _; rewrite contrib2_loop (sum_ord1 (i := j)) => [|k hne].
  rewrite contrib2_loop (sum_ord1 (i := f)) => [|g hne].
    by rewrite contrib2_cons contrib2_nil eqxx addr0.
  by rewrite contrib2_cons contrib2_nil xpair_eqE (negbTE hne) addr0.
rewrite contrib2_loop big1 // => g _.
by rewrite contrib2_cons contrib2_nil xpair_eqE (negbTE hne) andbF addr0.
Qed.
Lemma ip_writeE (G : nat -> nat -> F) out : is_trace (2 * dim) nb out ->
  ip_write dirs P G out = mkseq (fun f => mkseq (fun j => if mask f then 0 else G f j) nb) (2 * dim).
Proof.
move=> [so /allP ao]; rewrite /ip_write so; apply: (write_all _ 0 so) => f hf.
by apply/eqP/ao/mem_nth; rewrite so.
Qed.
Lemma ip_node_typesE : ip_node_types dim dirs P = mkseq (fun f => (mask f : nat)) (2 * dim).
Proof.
rewrite /ip_node_types.
have := @for_inv _ (fun i r => size r = (2 * dim)%N /\ forall k, nth 0%N r k = if (k < i)%N then (mask k : nat) else 0%N)
  (2 * dim) (fun i r => if mask i then upd r i 1%N else r) (nseq (2 * dim) 0%N).
case.
- by split; [exact: size_nseq | move=> k; rewrite nth_nseq if_same].
- move=> i r hi [sr hr]; case hm: (mask i); split; rewrite ?size_upd // => k.
    rewrite nth_upd sr hi andbT; case: eqP => [->|hne]; first by rewrite ltnSn hm.
    by rewrite hr (_ : (k < i.+1)%N = (k < i)%N) //; lia.
  rewrite hr; case: (k =P i) => [->|hne]; first by rewrite ltnn ltnSn hm.
  by rewrite (_ : (k < i.+1)%N = (k < i)%N) //; lia.
move=> sr hr; apply: (@eq_from_nth _ 0%N); rewrite ?size_mkseq // sr => k hk.
by rewrite hr hk nth_mkseq.
Qed.

(** Solving. *)
Lemma ip_divide_ok rhs : gesv_correct gesv -> (forall u : 'cV[F]_nf, ipK *m u = 0 -> u = 0) -> size rhs = nf ->
  exists X, [/\ ip_divide gesv dim poly_deg tau P t rhs = Ok X, size X = nf & ipK *m ipcol X = ipcol rhs].
Proof.
move=> hg hK sr; have hm : is_mat nf 1 rhs by rewrite /is_mat muln1.
have hu : mx_of nf nf K \in unitmx by rewrite ip_mx; apply: kernel_unit.
have [hi [sx hx]] := hg nf 1%N K rhs ip_size_K hm hu.
exists (sv_rhs (gesv nf 1%N K rhs)); rewrite /ip_divide /solve_const /= hi; split=> //; first by rewrite sx muln1.
have e Y : mx_of nf 1 Y = ipcol Y by apply/colP => i; rewrite !mxE mul0n.
by move: hx; rewrite ip_mx !e.
Qed.
Lemma ip_divide_sing rhs : gesv_detects gesv -> ~ (forall u : 'cV[F]_nf, ipK *m u = 0 -> u = 0) -> size rhs = nf ->
  ip_divide gesv dim poly_deg tau P t rhs = Abort.
Proof.
move=> hd hK sr; rewrite /ip_divide /solve_const /=.
have hu : mx_of nf nf K \notin unitmx.
  by apply/negP => uK; apply: hK => u; rewrite -ip_mx => h; rewrite -[u](mulKmx uK) h mulmx0.
have hm1 : is_mat nf 1 rhs by rewrite /is_mat muln1.
by rewrite (negbTE (hd nf 1%N K rhs ip_size_K hm1 hu)).
Qed.
End IP.
