(** Proofs about M_Timoshenko: from the arrays to the beam equations. *)
From mathcomp Require Import all_ssreflect all_algebra zify ring.
From Verif Require Import M_Base L_Base M_Index L_Index M_DenseLA S_DenseLA L_DenseLA M_Lapack S_Lapack L_Lapack.
From Verif Require Import S_Tpp S_LocalSolver M_DiffusionUniform L_DiffusionUniform L_LocalBase L_LocalBlock L_LocalLink L_BlockLink L_Bilaplacian.
From Verif Require Import S_Beam L_Beam M_Timoshenko S_Timoshenko L_Segment.
Set Implicit Arguments. Unset Strict Implicit. Unset Printing Implicit Defensive.
Import Order.TTheory GRing.Theory Num.Theory.
Local Open Scope ring_scope.

Section Frames.
Variable F : realFieldType.
Variable D : tb_data F.
Implicit Types x y : seq (seq F).

Lemma is_trace_rect x : is_trace 2 6 x <-> rect 2 6 x.
Proof.
split=> [[sx /allP ax]|[sx ax]]; split => //; first by move=> f hf; apply/eqP/ax/mem_nth; rewrite sx.
by apply/allP => l /(nthP [::])[f]; rewrite sx => hf <-; rewrite ax.
Qed.
Definition n2e_evs x : seq (nat * nat * F) :=
  flatten [seq flatten [seq [:: ((i, 0%N), tb_tangent D d * lambda_at x i d);
    ((i, 3%N), tb_tangent D d * lambda_at x i (d + 3))] | d <- iota 0 3] | i <- iota 0 2] ++
  flatten [seq flatten [seq flatten [seq [:: ((i, 1 + ind)%N, tb_outer D ind d * lambda_at x i d);
    ((i, 1 + ind + 3)%N, tb_outer D ind d * lambda_at x i (3 + d))] | d <- iota 0 3] | i <- iota 0 2] | ind <- iota 0 2].
Lemma n2eE x : tb_node_to_edge D x = acc2 (nseq 2 (nseq 6 0)) (n2e_evs x).
Proof.
rewrite /tb_node_to_edge /n2e_evs acc2_cat; set t0 := for_ 2 _ (nseq 2 _).
have -> : t0 = acc2 (nseq 2 (nseq 6 0)) (flatten [seq flatten [seq [:: ((i, 0%N), tb_tangent D d * lambda_at x i d);
    ((i, 3%N), tb_tangent D d * lambda_at x i (d + 3))] | d <- iota 0 3] | i <- iota 0 2]).
  by apply: for_acc2 => i t _; apply: for_acc2 => d s _.
by apply: for_acc2 => ind t _; apply: for_acc2 => i s _; apply: for_acc2 => d u _.
Qed.
Definition e2n_evs x : seq (nat * nat * F) :=
  flatten [seq flatten [seq [:: ((i, d), tb_tangent D d * lambda_at x i 0);
    ((i, d + 3)%N, tb_tangent D d * lambda_at x i 3)] | d <- iota 0 3] | i <- iota 0 2] ++
  flatten [seq flatten [seq flatten [seq [:: ((i, d), tb_outer D ind d * lambda_at x i (1 + ind));
    ((i, d + 3)%N, tb_outer D ind d * lambda_at x i (1 + ind + 3))] | d <- iota 0 3] | i <- iota 0 2] | ind <- iota 0 2].
Lemma e2nE x y : tb_edge_to_node D x y = acc2 y (e2n_evs x).
Proof.
rewrite /tb_edge_to_node /e2n_evs acc2_cat; set t0 := for_ 2 _ y.
have -> : t0 = acc2 y (flatten [seq flatten [seq [:: ((i, d), tb_tangent D d * lambda_at x i 0);
    ((i, d + 3)%N, tb_tangent D d * lambda_at x i 3)] | d <- iota 0 3] | i <- iota 0 2]).
  by apply: for_acc2 => i t _; apply: for_acc2 => d s _.
by apply: for_acc2 => ind t _; apply: for_acc2 => i s _; apply: for_acc2 => d u _.
Qed.
Lemma n2e_rect x : rect 2 6 (tb_node_to_edge D x).
Proof. by rewrite n2eE; apply: rect_acc; exact: rect_nseq. Qed.
Lemma e2n_rect x y : rect 2 6 y -> rect 2 6 (tb_edge_to_node D x y).
Proof. by rewrite e2nE; exact: rect_acc. Qed.
Lemma n2e_contrib x (f : 'I_2) c : contrib2 f c (n2e_evs x) =
  \sum_(d < 3) ((if c == 0%N then tb_tangent D d * lambda_at x f d else 0) +
                (if c == 3%N then tb_tangent D d * lambda_at x f (d + 3) else 0)) +
  \sum_(ind < 2) \sum_(d < 3) ((if c == (1 + ind)%N then tb_outer D ind d * lambda_at x f d else 0) +
                (if c == (1 + ind + 3)%N then tb_outer D ind d * lambda_at x f (3 + d) else 0)).
Proof.
rewrite /n2e_evs contrib2_cat !contrib2_loop; congr (_ + _).
  rewrite (sum_ord1 (i := f)) => [|k hk]; rewrite contrib2_loop.
    by apply: eq_bigr => d _; rewrite !contrib2_cons contrib2_nil addr0 !xpair_eqE !eqxx /= ![c == _]eq_sym.
  by rewrite big1 // => d _; rewrite !contrib2_cons contrib2_nil addr0 !xpair_eqE (negbTE hk) /= addr0.
apply: eq_bigr => ind _; rewrite contrib2_loop (sum_ord1 (i := f)) => [|k hk]; rewrite contrib2_loop.
  by apply: eq_bigr => d _; rewrite !contrib2_cons contrib2_nil addr0 !xpair_eqE !eqxx /= ![c == _]eq_sym.
by rewrite big1 // => d _; rewrite !contrib2_cons contrib2_nil addr0 !xpair_eqE (negbTE hk) /= addr0.
Qed.
Lemma frameE (i j : 'I_3) : frame D i j = if j == 0%N :> nat then tb_tangent D i else tb_outer D (j - 1) i.
Proof. by rewrite mxE. Qed.
Lemma ends_n2e x : ends (tb_node_to_edge D x) = ends x *m frame2 D.
Proof.
apply/matrixP => f c; have hc : (c < 6)%N := ltn_ord c.
rewrite mxE -/(get2 _ f c) n2eE (get2_acc _ (rect_nseq _ _ _)) // get2_nseq add0r n2e_contrib.
rewrite mxE big_split_ord /=.
under [X in _ = X + _]eq_bigr => k _ do rewrite mxE.
under [X in _ = _ + X]eq_bigr => k _ do rewrite mxE.
have [c' ->|c' ->] := split_ordP c.
  under [X in _ = X + _]eq_bigr => k _ do rewrite block_mxEul frameE.
  under [X in _ = _ + X]eq_bigr => k _ do rewrite block_mxEdl mxE mulr0.
  rewrite big1_eq addr0 (big_ord_recl 1) (big_ord_recl 0) big_ord0 /= addr0.
  by case: c' => [[|[|[|c']]] hc'] //=; rewrite !(big1_eq, addr0, add0r); apply: eq_bigr => d _;
    rewrite ?addr0 ?add0r mulrC.
under [X in _ = X + _]eq_bigr => k _ do rewrite block_mxEur mxE mulr0.
under [X in _ = _ + X]eq_bigr => k _ do rewrite block_mxEdr frameE.
rewrite big1_eq add0r (big_ord_recl 1) (big_ord_recl 0) big_ord0 /= addr0.
by case: c' => [[|[|[|c']]] hc'] //=; rewrite !(big1_eq, addr0, add0r); apply: eq_bigr => d _;
  rewrite ?addr0 ?add0r mulrC // addnC.
Qed.
Lemma e2n_contrib x (f : 'I_2) c : contrib2 f c (e2n_evs x) =
  \sum_(d < 3) ((if c == d :> nat then tb_tangent D d * lambda_at x f 0 else 0) +
                (if c == (d + 3)%N then tb_tangent D d * lambda_at x f 3 else 0)) +
  \sum_(ind < 2) \sum_(d < 3) ((if c == d :> nat then tb_outer D ind d * lambda_at x f (1 + ind) else 0) +
                (if c == (d + 3)%N then tb_outer D ind d * lambda_at x f (1 + ind + 3) else 0)).
Proof.
rewrite /e2n_evs contrib2_cat !contrib2_loop; congr (_ + _).
  rewrite (sum_ord1 (i := f)) => [|k hk]; rewrite contrib2_loop.
    by apply: eq_bigr => d _; rewrite !contrib2_cons contrib2_nil addr0 !xpair_eqE !eqxx /= ![c == _]eq_sym.
  by rewrite big1 // => d _; rewrite !contrib2_cons contrib2_nil addr0 !xpair_eqE (negbTE hk) /= addr0.
apply: eq_bigr => ind _; rewrite contrib2_loop (sum_ord1 (i := f)) => [|k hk]; rewrite contrib2_loop.
  by apply: eq_bigr => d _; rewrite !contrib2_cons contrib2_nil addr0 !xpair_eqE !eqxx /= ![c == _]eq_sym.
by rewrite big1 // => d _; rewrite !contrib2_cons contrib2_nil addr0 !xpair_eqE (negbTE hk) /= addr0.
Qed.
Lemma tr_frame2 : (frame2 D)^T = block_mx (frame D)^T 0 0 (frame D)^T.
Proof. by rewrite /frame2 tr_block_mx !trmx0. Qed.
Lemma pickl (c : 'I_3) (G H : nat -> F) :
  \sum_(d < 3) ((if c == d :> nat then G d else 0) + (if c == (d + 3)%N :> nat then H d else 0)) = G c.
Proof.
rewrite (sum_ord1 (i := c)) => [|k hk]; have := ltn_ord c => hc.
  by rewrite eqxx; case: eqP => [|_]; [lia | rewrite addr0].
by rewrite eq_sym (negbTE hk); case: eqP => [|_]; [lia | rewrite addr0].
Qed.
Lemma pickr (c : 'I_3) (G H : nat -> F) :
  \sum_(d < 3) ((if (3 + c)%N == d :> nat then G d else 0) + (if (3 + c)%N == (d + 3)%N :> nat then H d else 0)) = H c.
Proof.
rewrite (sum_ord1 (i := c)) => [|k hk]; have := ltn_ord c => hc.
  by rewrite addnC eqxx; case: eqP => [|_]; [lia | rewrite add0r].
have := ltn_ord k => hk3; rewrite addnC eqn_add2r eq_sym [_ == (k : nat)]eq_sym (negbTE hk) addr0.
by case: eqP => //; lia.
Qed.
Lemma ends_e2n x y : rect 2 6 y -> ends (tb_edge_to_node D x y) = ends y + ends x *m (frame2 D)^T.
Proof.
move=> hy; apply/matrixP => f c; have hc : (c < 6)%N := ltn_ord c.
rewrite mxE -/(get2 _ f c) e2nE (get2_acc _ hy) // e2n_contrib [RHS]mxE [ends y f c]mxE; congr (_ + _).
rewrite mxE tr_frame2 big_split_ord /=.
under [X in _ = X + _]eq_bigr => k _ do rewrite mxE.
under [X in _ = _ + X]eq_bigr => k _ do rewrite mxE.
have [c' ->|c' ->] := split_ordP c.
  under [X in _ = X + _]eq_bigr => k _ do rewrite block_mxEul mxE frameE.
  under [X in _ = _ + X]eq_bigr => k _ do rewrite block_mxEdl mxE mulr0.
  rewrite (pickl c' (fun d => tb_tangent D d * lambda_at x f 0) (fun d => tb_tangent D d * lambda_at x f 3)).
  under [X in _ + X]eq_bigr => ind _ do rewrite
    (pickl c' (fun d => tb_outer D ind d * lambda_at x f (1 + ind)) (fun d => tb_outer D ind d * lambda_at x f (1 + ind + 3))).
  rewrite big1_eq addr0 (big_ord_recl 1) (big_ord_recl 0) big_ord0.
  by rewrite (big_ord_recl 2) (big_ord_recl 1) (big_ord_recl 0) big_ord0 /= !addr0; congr (_ + (_ + _)); rewrite mulrC.
under [X in _ = X + _]eq_bigr => k _ do rewrite block_mxEur mxE mulr0.
under [X in _ = _ + X]eq_bigr => k _ do rewrite block_mxEdr mxE frameE.
rewrite (pickr c' (fun d => tb_tangent D d * lambda_at x f 0) (fun d => tb_tangent D d * lambda_at x f 3)).
under [X in _ + X]eq_bigr => ind _ do rewrite
  (pickr c' (fun d => tb_outer D ind d * lambda_at x f (1 + ind)) (fun d => tb_outer D ind d * lambda_at x f (1 + ind + 3))).
rewrite big1_eq add0r (big_ord_recl 1) (big_ord_recl 0) big_ord0.
by rewrite (big_ord_recl 2) (big_ord_recl 1) (big_ord_recl 0) big_ord0 /= !addr0; congr (_ + (_ + _)); rewrite mulrC.
Qed.
End Frames.

(** Blocks given by a list of matrices. *)
Section BlockSum.
Variables (F : realFieldType) (m nf : nat) (evs : seq (nat * nat * 'M[F]_nf)).
Hypothesis hin : all (fun e => e.1.2 < m)%N evs.
Definition evK (P Q : 'I_m) : 'M[F]_nf := \sum_(e <- evs | e.1 == (P : nat, Q : nat)) e.2.
Definition ext (v : 'I_m -> 'cV[F]_nf) (k : nat) : 'cV[F]_nf := oapp v 0 (insub k).
Lemma extE (v : 'I_m -> 'cV[F]_nf) (P : 'I_m) : ext v P = v P.
Proof. by rewrite /ext valK. Qed.
Lemma block_sum (P : 'I_m) (v : 'I_m -> 'cV[F]_nf) :
  \sum_Q evK P Q *m v Q = \sum_(e <- evs | e.1.1 == P :> nat) e.2 *m ext v e.1.2.
Proof.
transitivity (\sum_(Q < m) \sum_(e <- evs | e.1.1 == P :> nat) (if e.1.2 == Q :> nat then e.2 *m v Q else 0)).
  apply: eq_bigr => Q _; rewrite /evK mulmx_suml big_mkcond [in RHS]big_mkcond /=.
  by apply: eq_bigr => -[[a c] A] _ /=; rewrite xpair_eqE; case: (a == P); case: (c == Q).
rewrite exchange_big /= big_seq_cond [in RHS]big_seq_cond; apply: eq_bigr => -[[a c] A] /andP[he _] /=.
have hc : (c < m)%N by exact: (allP hin _ he).
rewrite (sum_ord1 (i := Ordinal hc)) => [|k hk] /=; last by rewrite eq_sym (negbTE hk).
by rewrite eqxx -[c]/(nat_of_ord (Ordinal hc)) extE.
Qed.
End BlockSum.

Lemma for1 (S : Type) (body : nat -> S -> S) s : for_ 1 body s = body 0%N s.
Proof. by []. Qed.

Section Step.
Variables (F : realFieldType) (pos : nat -> nat -> nat) (a1 a2 a3 a4 : nat -> F) (b1 b2 b3 b4 : F).
Definition step_evs : seq (nat * nat * F) :=
  flatten [seq [:: ((d, d), a1 d); ((d, 6 + d)%N, a2 d); ((6 + d, d)%N, a3 d); ((6 + d, 6 + d)%N, a4 d)] | d <- iota 0 6] ++
  [:: ((2, 10)%N, b1); ((1, 11)%N, b2); ((11, 1)%N, b3); ((10, 2)%N, b4)].
Lemma acc4 (t : seq F) x1 x2 x3 x4 (v1 v2 v3 v4 : F) :
  add_at (add_at (add_at (add_at t x1 v1) x2 v2) x3 v3) x4 v4 = accumulate t [:: (x1, v1); (x2, v2); (x3, v3); (x4, v4)].
Proof. by []. Qed.
Lemma assemble_step (t : seq F) :
  add_at (add_at (add_at (add_at (for_ 6 (fun d A =>
    add_at (add_at (add_at (add_at A (pos d d) (a1 d)) (pos d (6 + d)%N) (a2 d)) (pos (6 + d)%N d) (a3 d))
      (pos (6 + d)%N (6 + d)%N) (a4 d)) t)
    (pos 2%N 10%N) b1) (pos 1%N 11%N) b2) (pos 11%N 1%N) b3) (pos 10%N 2%N) b4 =
  accumulate t [seq (pos e.1.1 e.1.2, e.2) | e <- step_evs].
Proof.
rewrite (for_acc _ (evs := fun d => [:: (pos d d, a1 d); (pos d (6 + d)%N, a2 d); (pos (6 + d)%N d, a3 d);
   (pos (6 + d)%N (6 + d)%N, a4 d)])); last by move=> d s _; exact: acc4.
by rewrite acc4 -accumulate_cat /step_evs map_cat map_flatten -map_comp.
Qed.
End Step.

Section BeamBlocks.
Variables (F : realFieldType) (nf : nat) (kk : nat -> F) (M G S T : 'M[F]_nf) (w : nat -> 'cV[F]_nf).
Definition bevs : seq (nat * nat * 'M[F]_nf) :=
  flatten [seq [:: ((d, d), kk d *: M); ((d, 6 + d)%N, - G); ((6 + d, d)%N, S); ((6 + d, 6 + d)%N, T)] | d <- iota 0 6] ++
  [:: ((2, 10)%N, - M); ((1, 11)%N, M); ((11, 1)%N, - M); ((10, 2)%N, M)].
Lemma bevs_upper c : (c < 6)%N -> \sum_(e <- bevs | e.1.1 == c) e.2 *m w e.1.2 =
  kk c *: (M *m w c) - G *m w (6 + c)%N + (if c == 1%N then M *m w 11%N else if c == 2%N then - (M *m w 10%N) else 0).
Proof.
rewrite /bevs; case: c => [|[|[|[|[|[|c]]]]]] // _; rewrite -big_filter /= !big_cons big_nil /= -?scalemxAl ?mulNmx ?addr0 //.
  by rewrite addrA.
by rewrite addrA.
Qed.
Lemma bevs_lower c : (c < 6)%N -> \sum_(e <- bevs | e.1.1 == (6 + c)%N) e.2 *m w e.1.2 =
  S *m w c + T *m w (6 + c)%N - (if c == 5%N then M *m w 1%N else if c == 4%N then - (M *m w 2%N) else 0).
Proof.
rewrite /bevs; case: c => [|[|[|[|[|[|c]]]]]] // _; rewrite -big_filter /= !big_cons big_nil /= ?mulNmx ?addr0 ?subr0 //.
  by rewrite opprK addrA.
by rewrite addrA.
Qed.
End BeamBlocks.

Section Local.
Variable F : realFieldType.
Variable gesv : nat -> nat -> seq F -> seq F -> sv_result F.
Variables (p : nat) (dirs : seq nat) (tau : F) (D : tb_data F).
Notation nf := (p + 1)%N.
Notation nl := (12 * nf)%N.
Notation B := (tb_beam p D).
Notation M := (bM B).
Notation G := (bD B).
Notation E := (bE B).
Notation N := (bNu B).
Notation k := (tb_k D).
Notation K := (flexibility k).
Notation C := (coupling F).

Lemma tb_nf : tb_shape_fct p = nf.
Proof. by rewrite /tb_shape_fct hc_powE expn1. Qed.
Lemma tb_nl : tb_loc_dofs p = nl.
Proof. by rewrite /tb_loc_dofs tb_nf. Qed.

(** ** The matrix *)
Notation A := (tb_assemble_loc_matrix p tau D).
Definition tbA i j : seq (nat * nat * F) :=
  step_evs (fun d => tb_vol D i j / nth 0 (tb_coeffs D) d) (fun=> - tb_grad D i j)
    (fun=> (tb_face_loop D i j).2 - tb_grad D i j) (fun=> tau * (tb_face_loop D i j).1)
    (- tb_vol D i j) (tb_vol D i j) (- tb_vol D i j) (tb_vol D i j).
Lemma tb_assembleE : A = accumulate (zeros F nl nl) (flatten [seq flatten [seq
   [seq (loc nl (e.1.1 * nf + i) (e.1.2 * nf + j), e.2) | e <- tbA i j]
    | j <- iota 0 nf] | i <- iota 0 nf]).
Proof.
rewrite /tb_assemble_loc_matrix tb_nl tb_nf.
apply: for_acc => i s _; apply: for_acc => j t _.
exact: (assemble_step (fun P Q => loc nl (P * nf + i) (Q * nf + j))).
Qed.
Lemma tb_size_A : size A = (nl * nl)%N.
Proof. by rewrite tb_assembleE size_accumulate size_nseq. Qed.
Definition tbAm : seq (nat * nat * 'M[F]_(p + 1)) :=
  bevs (fun d => (nth 0 (tb_coeffs D) d)^-1) M G (E *m N *m E^T - G) (tau *: (E *m E^T)).
Hypothesis hbb : forall i j f, (i < nf)%N -> (j < nf)%N -> (f < 2)%N -> tb_bb D i j f = tb_bp D i f * tb_bp D j f.
Lemma mul_normals m (X : 'M[F]_(m, 2)) i f : (X *m N) i f = X i f * tb_normal D f.
Proof.
rewrite mxE (sum_ord1 (i := f)) => [|g hg]; rewrite mxE ?eqxx ?mulr1n //.
by rewrite -val_eqE (negbTE hg) mulr0n mulr0.
Qed.
Lemma face_loopE (i j : 'I_(p + 1)) : tb_face_loop D i j = ((E *m E^T) i j, (E *m N *m E^T) i j).
Proof.
rewrite /tb_face_loop /for_ /= !hbb // !add0r; congr pair.
  by rewrite mxE (big_ord_recl 1) (big_ord_recl 0) big_ord0 !mxE /= addr0.
rewrite mxE (big_ord_recl 1) (big_ord_recl 0) big_ord0 -[\matrix_(i, f) _]/E !mul_normals !mxE /= addr0.
by rewrite -!mulrA; congr (_ * _ + _ * _); rewrite mulrC.
Qed.
Lemma tbA_map (i j : 'I_(p + 1)) : tbA i j = [seq (e.1, (e.2 : 'M_(p + 1)) i j) | e <- tbAm].
Proof.
rewrite /tbA /tbAm /bevs face_loopE /step_evs map_cat map_flatten -map_comp; congr (flatten _ ++ _); last first.
  by rewrite /= !mxE.
apply: eq_map => d; rewrite /= -[\matrix_(i, f) _]/E; move: (E *m N *m E^T) (E *m E^T) => U V.
by rewrite !mxE mulrC.
Qed.
Lemma tbAm_in : all (fun e : nat * nat * 'M[F]_(p + 1) => e.1.1 < 12)%N tbAm && all (fun e => e.1.2 < 12)%N tbAm.
Proof. by []. Qed.
Lemma tbA_in i j e : e \in tbA i j -> (e.1.1 < 12)%N && (e.1.2 < 12)%N.
Proof.
have : all (fun e => (e.1.1 < 12)%N && (e.1.2 < 12)%N) (tbA i j) by [].
by move/allP => h /h.
Qed.
Lemma tb_block (P Q : 'I_12) (i j : 'I_(p + 1)) :
  nth 0 A (loc nl (P * nf + i) (Q * nf + j)) = evK tbAm P Q i j.
Proof.
rewrite tb_assembleE block_entry //; last by move=> x y e _ _ /tbA_in.
by rewrite tbA_map /contrib2 big_map summxE.
Qed.

(** ** The blocks as columns of two matrices *)
Definition cols (off : nat) (v : nat -> 'cV[F]_(p + 1)) : 'M[F]_(p + 1, 6) := \matrix_(i, c) v (off + c)%N i 0.
Lemma col_cols off v (c : 'I_6) : col c (cols off v) = v (off + c)%N.
Proof. by apply/colP => i; rewrite !mxE. Qed.
Lemma col_couplingT (u : 'M[F]_(p + 1, 6)) (c : 'I_6) : col c (u *m C^T) =
  if c == 1%N :> nat then col (inord 5) u else if c == 2%N :> nat then - col (inord 4) u else 0.
Proof.
apply/colP => i; rewrite !mxE (eq_bigr (fun j : 'I_6 => u i j *
   (((c == 1%N :> nat) && (j == 5%N :> nat))%:R - ((c == 2%N :> nat) && (j == 4%N :> nat))%:R))) => [|j _]; last by rewrite !mxE.
case: (c =P 1%N :> nat) => [->|_] /=.
  rewrite (sum_ord1 (i := inord 5)) => [|j]; rewrite inordK //; first by rewrite eqxx subr0 mulr1 mxE.
  by move/negbTE ->; rewrite subr0 mulr0.
case: (c =P 2%N :> nat) => [_|_] /=.
  rewrite (sum_ord1 (i := inord 4)) => [|j]; rewrite inordK //; first by rewrite eqxx sub0r mulrN1 !mxE.
  by move/negbTE ->; rewrite subrr mulr0.
by rewrite big1 ?mxE // => j _; rewrite subrr mulr0.
Qed.
Lemma col_coupling (q : 'M[F]_(p + 1, 6)) (c : 'I_6) : col c (q *m C) =
  if c == 5%N :> nat then col (inord 1) q else if c == 4%N :> nat then - col (inord 2) q else 0.
Proof.
apply/colP => i; rewrite !mxE (eq_bigr (fun j : 'I_6 => q i j *
   (((j == 1%N :> nat) && (c == 5%N :> nat))%:R - ((j == 2%N :> nat) && (c == 4%N :> nat))%:R))) => [|j _]; last by rewrite !mxE.
case: (c =P 5%N :> nat) => [->|_] /=.
  rewrite (sum_ord1 (i := inord 1)) => [|j]; rewrite inordK //; first by rewrite eqxx subr0 mulr1 mxE.
  by move/negbTE ->; rewrite andbF subr0 mulr0.
case: (c =P 4%N :> nat) => [_|_] /=.
  rewrite (sum_ord1 (i := inord 2)) => [|j]; rewrite inordK //; first by rewrite eqxx sub0r mulrN1 !mxE.
  by move/negbTE ->; rewrite andbF subrr mulr0.
by rewrite big1 ?mxE // => j _; rewrite !andbF subrr mulr0.
Qed.
Lemma col_flex (q : 'M[F]_(p + 1, 6)) (c : 'I_6) : col c (q *m K) = (k c)^-1 *: col c q.
Proof.
apply/colP => i; rewrite !mxE (sum_ord1 (i := c)) => [|j hj]; rewrite mxE ?eqxx ?mulr1n; first by rewrite mulrC.
by rewrite -val_eqE (negbTE hj) mulr0n mulr0.
Qed.
Lemma colD (c : 'I_6) (X Y : 'M[F]_(p + 1, 6)) : col c (X + Y) = col c X + col c Y.
Proof. by apply/colP => i; rewrite !mxE. Qed.
Lemma colB (c : 'I_6) (X Y : 'M[F]_(p + 1, 6)) : col c (X - Y) = col c X - col c Y.
Proof. by apply/colP => i; rewrite !mxE. Qed.
Lemma colZ (c : 'I_6) (a : F) (X : 'M[F]_(p + 1, 6)) : col c (a *: X) = a *: col c X.
Proof. by apply/colP => i; rewrite !mxE. Qed.
Definition lhs1 (q u : 'M[F]_(p + 1, 6)) := M *m q *m K - G *m u + M *m u *m C^T.
Definition lhs2 (q u : 'M[F]_(p + 1, 6)) := (E *m N *m E^T - G) *m q + tau *: (E *m (E^T *m u)) - M *m q *m C.
Lemma block_rows (v : 'I_12 -> 'cV[F]_(p + 1)) (c : 'I_6) :
  let q := cols 0 (ext v) in let u := cols 6 (ext v) in
  \sum_Q evK tbAm (inord c) Q *m v Q = col c (lhs1 q u) /\ \sum_Q evK tbAm (inord (6 + c)) Q *m v Q = col c (lhs2 q u).
Proof.
move=> q u; have /andP[_ hin] := tbAm_in; have c6 := ltn_ord c.
have qE (d : 'I_6) : col d q = ext v d by rewrite col_cols.
have uE (d : 'I_6) : col d u = ext v (6 + d)%N by rewrite col_cols.
split; rewrite (block_sum hin) inordK; try by lia.
  rewrite bevs_upper // /lhs1.
  have -> : col c (M *m q *m K - G *m u + M *m u *m C^T) = col c (M *m q *m K) - col c (G *m u) + col c (M *m u *m C^T).
    by rewrite colD colB.
  rewrite col_couplingT col_flex !col_mulmx qE uE; congr (_ - _ + _).
  by case: eqP => // _; [|case: eqP => // _]; rewrite ?uE inordK.
rewrite bevs_lower // /lhs2; move: (E *m N *m E^T - G) => S.
have -> : col c (S *m q + tau *: (E *m (E^T *m u)) - M *m q *m C) =
  col c (S *m q) + tau *: col c (E *m (E^T *m u)) - col c (M *m q *m C).
  by rewrite colB colD colZ.
rewrite col_coupling !col_mulmx qE uE -scalemxAl -mulmxA; congr (_ + _ - _).
by case: eqP => // _; [|case: eqP => // _]; rewrite ?qE inordK.
Qed.

(** ** The right-hand sides *)
Section Lambda.
Variable x : seq (seq F).
Notation rhs := (tb_rhs_lambda p tau D x).
Definition tbR i : seq (nat * F) := flatten [seq flatten [seq
   [:: ((6 + d)%N, tau * lambda_at x f d * tb_bp D i f); (d, - (tb_normal D f * lambda_at x f d * tb_bp D i f))]
   | d <- iota 0 6] | f <- iota 0 2].
Lemma acc2e (t : seq F) x1 x2 (v1 v2 : F) : add_at (add_at t x1 v1) x2 v2 = accumulate t [:: (x1, v1); (x2, v2)].
Proof. by []. Qed.
Lemma tb_rhsE : rhs = accumulate (zeros F nl 1)
  (flatten [seq [seq ((e.1 * nf + i)%N, e.2) | e <- tbR i] | i <- iota 0 nf]).
Proof.
rewrite /tb_rhs_lambda tb_nl tb_nf; apply: for_acc => i s _; rewrite for1 /tbR map_flatten -map_comp.
apply: for_acc => f t _; rewrite /comp map_flatten -map_comp.
apply: for_acc => d r _; exact: acc2e.
Qed.
Lemma tb_size_rhs : size rhs = nl.
Proof. by rewrite tb_rhsE size_accumulate size_nseq muln1. Qed.
Lemma tb_rhs_upper (c : 'I_6) (i : 'I_(p + 1)) : nth 0 rhs (c * nf + i) = - (E *m N *m ends x) i c.
Proof.
have c6 := ltn_ord c; rewrite tb_rhsE (@block_vec _ 12 nf) //; last by lia.
rewrite /tbR contrib_loop mxE -sumrN; apply: eq_bigr => f _; rewrite mul_normals !mxE contrib_loop.
rewrite (sum_ord1 (i := c)) => [|d hd]; rewrite !contrib_cons contrib_nil addr0.
  rewrite eqxx (_ : (6 + c == c)%N = false) ?add0r; last by lia.
  by congr (- _); rewrite mulrC mulrA.
by rewrite (negbTE hd) (_ : (6 + d == c)%N = false) ?add0r //; lia.
Qed.
Lemma tb_rhs_lower (c : 'I_6) (i : 'I_(p + 1)) : nth 0 rhs ((6 + c) * nf + i) = tau * (E *m ends x) i c.
Proof.
have c6 := ltn_ord c; rewrite tb_rhsE (@block_vec _ 12 nf) //.
rewrite /tbR contrib_loop mxE mulr_sumr; apply: eq_bigr => f _; rewrite !mxE contrib_loop.
rewrite (sum_ord1 (i := c)) => [|d hd]; rewrite !contrib_cons contrib_nil addr0 eqn_add2l.
  rewrite eqxx (_ : (c == (6 + c)%N :> nat) = false) ?addr0; last by lia.
  by rewrite /lambda_at -mulrA; congr (_ * _); rewrite mulrC.
by rewrite (negbTE hd) (_ : (d == (6 + c)%N :> nat) = false) ?add0r //; have := ltn_ord d; lia.
Qed.
End Lambda.

Section Global.
Notation rhs := (tb_rhs_global p dirs tau D).
Notation given f := (nth 0%N (tb_types D) f \in dirs).
Definition tbG i : seq (nat * F) :=
  flatten [seq [:: ((6 + c)%N, tb_load D c i)] | c <- iota 0 6] ++
  flatten [seq (if given f then flatten [seq [:: (c, - (tb_normal D f * tb_dirval D c i f));
     ((6 + c)%N, tau * tb_dirval D c i f)] | c <- iota 0 6] else [::]) | f <- iota 0 2].
Lemma tb_globalE : rhs = accumulate (zeros F nl 1)
  (flatten [seq [seq ((e.1 * nf + i)%N, e.2) | e <- tbG i] | i <- iota 0 nf]).
Proof.
rewrite /tb_rhs_global tb_nl tb_nf; apply: for_acc_hist => i hi s.
rewrite /tbG map_cat accumulate_cat !map_flatten -!map_comp.
set t1 := accumulate s _; set t0 := for_ 6 _ s.
have -> : t0 = t1.
  apply: for_acc_hist => c hc t; rewrite /comp [map _ _]/= -add_at_accumulate /add_at; congr upd.
  have hp : ((6 + c) * nf + i < size (zeros F nl 1))%N by rewrite size_nseq muln1 block_lt //; lia.
  rewrite nth_contrib ?size_accumulate // nth_contrib // nth_nseq if_same add0r.
  rewrite !contrib_loop !big1 ?add0r // => k _.
    rewrite /comp [map _ _]/= contrib_cons contrib_nil addr0 block_inj // eqxx andbT eqn_add2l.
    by case: eqP => // e; have := ltn_ord k; lia.
  rewrite /contrib big_map big1 // => e /=; rewrite block_inj //; last by have := ltn_ord k; lia.
  by have := ltn_ord k => hk /andP[_ /eqP]; lia.
move: t1 => {t0} t1; apply: for_acc => f t _; rewrite /comp /tb_dirichlet; case: ifP => _; last by [].
rewrite map_flatten -map_comp; apply: for_acc => c r _; exact: acc2e.
Qed.
Lemma tb_size_global : size rhs = nl.
Proof. by rewrite tb_globalE size_accumulate size_nseq muln1. Qed.
Lemma tb_global_upper (c : 'I_6) (i : 'I_(p + 1)) : nth 0 rhs (c * nf + i) = load_q dirs p D i c.
Proof.
have c6 := ltn_ord c; rewrite tb_globalE (@block_vec _ 12 nf) //; last by lia.
rewrite /tbG contrib_cat !contrib_loop big1 ?add0r => [|d _]; last first.
  by rewrite contrib_cons contrib_nil (_ : (6 + d == c)%N = false) ?addr0 //; lia.
rewrite mxE [in RHS]big_mkcond -sumrN; apply: eq_bigr => f _; case: ifP => _; last by rewrite contrib_nil oppr0.
rewrite contrib_loop (sum_ord1 (i := c)) => [|d hd]; rewrite !contrib_cons contrib_nil addr0.
  by rewrite eqxx (_ : (6 + c == c)%N = false) ?addr0 //; lia.
by rewrite (negbTE hd) (_ : (6 + d == c)%N = false) ?add0r //; lia.
Qed.
Lemma tb_global_lower (c : 'I_6) (i : 'I_(p + 1)) : nth 0 rhs ((6 + c) * nf + i) = load_u dirs p tau D i c.
Proof.
have c6 := ltn_ord c; rewrite tb_globalE (@block_vec _ 12 nf) //.
rewrite /tbG contrib_cat !contrib_loop mxE; congr (_ + _).
  rewrite (sum_ord1 (i := c)) => [|d hd]; rewrite contrib_cons contrib_nil addr0 eqn_add2l ?eqxx //.
  by rewrite (negbTE hd).
rewrite mulr_sumr [in RHS]big_mkcond; apply: eq_bigr => f _; case: ifP => _; last by rewrite contrib_nil.
rewrite contrib_loop (sum_ord1 (i := c)) => [|d hd]; rewrite !contrib_cons contrib_nil addr0 eqn_add2l.
  by rewrite eqxx (_ : (c == (6 + c)%N :> nat) = false) ?add0r //; lia.
by rewrite (negbTE hd) (_ : (d == (6 + c)%N :> nat) = false) ?add0r //; have := ltn_ord d; lia.
Qed.
End Global.
End Local.
