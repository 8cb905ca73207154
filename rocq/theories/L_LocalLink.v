(** From the arrays of a local solver to the local HDG problem. *)
From mathcomp Require Import all_ssreflect all_algebra zify ring.
From Verif Require Import M_Base L_Base M_Index L_Index M_DenseLA S_DenseLA M_Lapack S_Lapack.
From Verif Require Import S_Hdg L_Hdg S_LocalSolver L_LocalBase.
Set Implicit Arguments. Unset Strict Implicit. Unset Printing Implicit Defensive.
Import Order.TTheory GRing.Theory Num.Theory.
Local Open Scope ring_scope.

Lemma sum_blocks (V : zmodType) D w (G : nat -> V) :
  \sum_(c < D * w) G c = \sum_(P < D) \sum_(j < w) G (P * w + j)%N.
Proof.
elim: D => [|D IH]; first by rewrite mul0n !big_ord0.
rewrite big_ord_recr /= -IH mulSn addnC big_split_ord /=; congr (_ + _).
Qed.

Section Unit.
Variable F : fieldType.
Lemma kernel_unit n (K : 'M[F]_n) : (forall v : 'cV[F]_n, K *m v = 0 -> v = 0) -> K \in unitmx.
Proof.
move=> h; rewrite -unitmx_tr -row_free_unit -kermx_eq0; apply/eqP/row_matrixP => i.
rewrite row0; apply: trmx_inj; rewrite trmx0; apply: h.
by apply: trmx_inj; rewrite trmx_mul trmxK -row_mul mulmx_ker row0 trmx0.
Qed.
End Unit.


Section Link.
Variable F : realFieldType.
Variables (nf nb dim nF : nat) (h : hdg F nf nb dim nF) (tau : F) (A : seq F).
Notation nl := ((dim + 1) * nf)%N.
Notation at_ X P i := (nth 0 X (P * nf + i)%N).
Definition qpart (X : seq F) (d : 'I_dim) : 'cV[F]_nf := \col_i at_ X d i.
Definition upart (X : seq F) : 'cV[F]_nf := \col_i at_ X dim i.
Definition op_q (q : 'I_dim -> 'cV[F]_nf) u d := hM h *m q d - hD h d *m u.
Definition op_u (q : 'I_dim -> 'cV[F]_nf) u :=
  \sum_d ((- hD h d + \sum_f hnu h f d *: hB h f) *m q d) + tau *: (\sum_f (hB h f *m u)).

(** The matrix of the local problem, block by block. *)
Definition block P Q (i j : 'I_nf) : F :=
  match insub P : option 'I_dim, insub Q : option 'I_dim with
  | Some d, Some e => if d == e then hM h i j else 0
  | Some d, None => - hD h d i j
  | None, Some e => (- hD h e + \sum_f hnu h f e *: hB h f) i j
  | None, None => tau * (\sum_f hB h f) i j
  end.
Hypothesis hA : forall P Q (i j : 'I_nf), (P <= dim)%N -> (Q <= dim)%N ->
  nth 0 A (loc nl (P * nf + i) (Q * nf + j)) = block P Q i j.

Lemma pos_lt P (i : 'I_nf) : (P <= dim)%N -> (P * nf + i < nl)%N.
Proof. by move=> hP; apply: block_lt; rewrite // addn1 ltnS. Qed.

Lemma link_row X P (i : 'I_nf) (hP : (P <= dim)%N) :
  (mx_of nl nl A *m mx_of nl 1 X) (Ordinal (pos_lt i hP)) 0 =
  \sum_(Q < dim.+1) \sum_(j < nf) block P Q i j * at_ X Q j.
Proof.
rewrite mxE; under eq_bigr => c _ do rewrite !mxE mul0n add0n.
rewrite (sum_blocks _ _ (fun c => nth 0 A (c * nl + (P * nf + i)) * nth 0 X c)) addn1.
apply: eq_bigr => Q _; apply: eq_bigr => j _; by rewrite -hA ?addn1 // -ltnS.
Qed.

Lemma insub_lt (d : 'I_dim) : insub (d : nat) = Some d :> option 'I_dim.
Proof. exact: valK. Qed.
Lemma insub_dim : insub dim = None :> option 'I_dim.
Proof. by rewrite insubF // ltnn. Qed.

Lemma link_q X (d : 'I_dim) (i : 'I_nf) :
  (mx_of nl nl A *m mx_of nl 1 X) (Ordinal (pos_lt i (ltnW (ltn_ord d)))) 0 =
  op_q (qpart X) (upart X) d i 0.
Proof.
rewrite link_row big_ord_recr /= !mxE -sumrN; congr (_ + _); last first.
  by apply: eq_bigr => j _; rewrite /block insub_lt insub_dim !mxE mulNr.
rewrite (sum_ord1 (i := d)).
  by apply: eq_bigr => j _; rewrite /block insub_lt eqxx mxE.
move=> e hne; rewrite big1 // => j _; rewrite /block !insub_lt.
by rewrite -val_eqE eq_sym (negbTE hne) mul0r.
Qed.
Lemma link_u X (i : 'I_nf) :
  (mx_of nl nl A *m mx_of nl 1 X) (Ordinal (pos_lt i (leqnn dim))) 0 =
  op_u (qpart X) (upart X) i 0.
Proof.
rewrite link_row big_ord_recr /= mxE summxE; congr (_ + _).
  apply: eq_bigr => d _; rewrite mxE; apply: eq_bigr => j _.
  by rewrite /block insub_lt insub_dim [qpart _ _ _ _]mxE.
rewrite -mulmx_suml !mxE mulr_sumr; apply: eq_bigr => j _.
by rewrite /block insub_dim [upart _ _ _]mxE mulrA.
Qed.

Lemma row_cases (r : 'I_nl) :
  (exists (d : 'I_dim) (i : 'I_nf), r = d * nf + i :> nat)%N \/ (exists i : 'I_nf, r = dim * nf + i :> nat)%N.
Proof.
have nf0 : (0 < nf)%N by case: (nf) r => // -[]; rewrite muln0.
have hr : (r %/ nf < dim + 1)%N by rewrite ltn_divLR.
have hm : (r %% nf < nf)%N by rewrite ltn_mod.
case: (ltnP (r %/ nf) dim) => hd.
  by left; exists (Ordinal hd), (Ordinal hm); exact: divn_eq.
right; exists (Ordinal hm); rewrite [LHS](divn_eq r nf) /=; congr (_ * _ + _)%N; lia.
Qed.

Lemma link X rhs : mx_of nl nl A *m mx_of nl 1 X = mx_of nl 1 rhs <->
  (forall d, op_q (qpart X) (upart X) d = qpart rhs d) /\ op_u (qpart X) (upart X) = upart rhs.
Proof.
split=> [heq|[hq hu]].
  split=> [d|]; apply/colP => i.
    by rewrite -link_q heq !mxE mul0n.
  by rewrite -link_u heq !mxE mul0n.
apply/colP => r; case: (row_cases r) => [[d [i hr]]|[i hr]].
  have -> : r = Ordinal (pos_lt i (ltnW (ltn_ord d))) by apply: ord_inj.
  by rewrite link_q hq !mxE mul0n.
have -> : r = Ordinal (pos_lt i (leqnn dim)) by apply: ord_inj.
by rewrite link_u hu !mxE mul0n.
Qed.

Lemma link_unit : hdg_ok h -> 0 < tau -> mx_of nl nl A \in unitmx.
Proof.
move=> hok ht; apply: kernel_unit => v.
pose X := mkseq (fun k => if insub k is Some r then v r 0 else 0) nl.
have hX : mx_of nl 1 X = v.
  apply/colP => r; rewrite mxE mul0n add0n nth_mkseq //.
  by rewrite (_ : insub _ = Some r) //; exact: valK.
have h0 : mx_of nl 1 [::] = 0 :> 'cV[F]_nl by apply/colP => r; rewrite !mxE nth_nil.
rewrite -{1}hX -h0 => /link [hq hu].
have e0 : (forall d, qpart [::] d = 0) /\ upart [::] = 0.
  by split=> [d|]; apply/colP => i; rewrite !mxE nth_nil.
have hl : loc_eq h tau (qpart X) (upart X) (fun=> 0).
  split=> [d|].
    rewrite -/(op_q _ _ _) hq e0.1 big1 ?oppr0 // => f _.
    by rewrite mulmx0 scaler0.
  rewrite -/(op_u _ _) hu e0.2 big1 ?scaler0 // => f _.
  by rewrite mulmx0.
have [q0 u0] := loc_unique0 hok ht hl.
rewrite -hX; apply/colP => r; rewrite !mxE nth_nil mul0n add0n.
case: (row_cases r) => [[d [i ->]]|[i ->]].
  by have /colP/(_ i) := q0 d; rewrite !mxE.
by have /colP/(_ i) := u0; rewrite !mxE.
Qed.

Lemma link_solve gesv rhs : gesv_correct gesv -> hdg_ok h -> 0 < tau ->
  size A = (nl * nl)%N -> size rhs = nl ->
  exists X, [/\ (solve_const gesv nl 1 rhs A).1 = Ok X, size X = nl,
    forall d, op_q (qpart X) (upart X) d = qpart rhs d & op_u (qpart X) (upart X) = upart rhs].
Proof.
move=> hg hok ht sA sr.
have hm : is_mat nl 1 rhs by rewrite /is_mat muln1.
have [hi [sx hx]] := hg nl 1%N A rhs sA hm (link_unit hok ht).
exists (sv_rhs (gesv nl 1%N A rhs)); rewrite /solve_const /= hi.
have [hq hu] := iffLR (link _ _) hx.
by split => //; rewrite sx muln1.
Qed.
End Link.

Section Fluxes.
Variable F : realFieldType.
Variables (nf nb dim nF : nat) (h : hdg F nf nb dim nF) (tau : F).
Implicit Types x y : seq (seq F).
Notation flux := (flux_of h tau).

Lemma pairing_dotv x y : pairing nF nb x y = \sum_(f < nF) dotv (tr nb x f) (tr nb y f).
Proof. by apply: eq_bigr => f _; apply: eq_bigr => j _; rewrite !mxE. Qed.
Lemma trace_ext x y : is_trace nF nb x -> is_trace nF nb y ->
  (forall f : 'I_nF, tr nb x f = tr nb y f) -> x = y.
Proof.
move=> [sx /allP ax] [sy /allP ay] hxy; apply: (@eq_from_nth _ [::]); rewrite ?sx ?sy // => f hf.
have hx : size (nth [::] x f) = nb by apply/eqP/ax/mem_nth; rewrite sx.
have hy : size (nth [::] y f) = nb by apply/eqP/ay/mem_nth; rewrite sy.
apply: (@eq_from_nth _ 0); rewrite hx ?hy // => j hj.
by have /colP/(_ (Ordinal hj)) := hxy (Ordinal hf); rewrite !mxE.
Qed.

Lemma flux_sym x y x' y' : hdg_ok h -> flux x y -> flux x' y' ->
  pairing nF nb x' y = pairing nF nb x y'.
Proof.
move=> hok [_ [q [u [h1 f1]]]] [_ [q' [u' [h2 f2]]]]; rewrite !pairing_dotv.
under eq_bigr => f _ do rewrite f1.
under [RHS]eq_bigr => f _ do rewrite f2.
by rewrite (energy hok h1 h2) (energy hok h2 h1) (form_sym _ hok).
Qed.
Lemma flux_neg x y : hdg_ok h -> 0 <= tau -> flux x y -> pairing nF nb x y <= 0.
Proof.
move=> hok ht [_ [q [u [h1 f1]]]]; rewrite pairing_dotv.
under eq_bigr => f _ do rewrite f1.
by rewrite (energy hok h1 h1) oppr_le0 form_ge0.
Qed.
Lemma flux_unique x y y' : hdg_ok h -> 0 < tau -> flux x y -> flux x y' -> y = y'.
Proof.
move=> hok ht [sy [q [u [h1 f1]]]] [sy' [q' [u' [h2 f2]]]].
have [eq eu] := loc_unique hok ht h1 h2.
apply: trace_ext sy sy' _ => f; rewrite f1 f2; apply: flux_ext => //.
Qed.
Lemma tr_comb c x y (f : 'I_nF) : tr nb (comb_trace c nF nb x y) f = c *: tr nb x f + tr nb y f :> 'cV[F]_nb.
Proof. by apply/colP => j; rewrite !mxE (nth_mkseq [::]) ?ltn_ord // nth_mkseq. Qed.
Lemma comb_is_trace c x y : is_trace nF nb (comb_trace c nF nb x y).
Proof.
split; first exact: size_mkseq.
by apply/allP => l /mapP[f _ ->]; rewrite size_mkseq.
Qed.
Lemma flux_of_lin c x y x' y' : flux x y -> flux x' y' ->
  flux (comb_trace c nF nb x x') (comb_trace c nF nb y y').
Proof.
move=> [sy [q [u [h1 f1]]]] [sy' [q' [u' [h2 f2]]]]; split; first exact: comb_is_trace.
exists (fun d => c *: q d + q' d), (c *: u + u'); split.
  by apply: loc_eq_ext (loc_lin c h1 h2) => // f; rewrite tr_comb.
by move=> f; rewrite tr_comb f1 f2 -flux_lin; apply: flux_ext; rewrite ?tr_comb.
Qed.
Definition unit_vec : 'cV[F]_nb := \col_j (j == 0%N :> nat)%:R.
Lemma tr_const c (f : 'I_nF) : tr nb (const_trace c nF nb) f = c *: unit_vec :> 'cV[F]_nb.
Proof.
apply/colP => j; rewrite !mxE nth_nseq ltn_ord nth_mkseq //.
by case: eqP; rewrite ?mulr1 ?mulr0.
Qed.
Lemma flux_of_const u0 c y : hdg_ok h -> 0 < tau -> hdg_const h u0 unit_vec ->
  flux (const_trace c nF nb) y -> y = nseq nF (nseq nb 0).
Proof.
move=> hok ht hc [sy [q [u [h1 f1]]]].
apply: trace_ext sy _ _ => [|f].
  by split; [exact: size_nseq | apply/allP => l /nseqP[-> _]; rewrite size_nseq].
have lc : loc_eq h tau (fun=> c *: 0 + 0) (c *: u0 + 0) (fun f => c *: unit_vec + 0).
  apply: loc_lin; first exact: loc_const.
  split=> [d|].
    by rewrite !mulmx0 subr0 big1 ?oppr0 // => g _; rewrite mulmx0 scaler0.
  by rewrite !big1 ?scaler0 ?addr0 // => g _; rewrite mulmx0.
have l1 : loc_eq h tau q u (fun f => c *: unit_vec + 0).
  by apply: loc_eq_ext h1 => // g; rewrite tr_const addr0.
have [eq eu] := loc_unique hok ht l1 lc.
have -> : tr nb (nseq nF (nseq nb 0)) f = 0 :> 'cV[F]_nb.
  by apply/colP => j; rewrite !mxE nth_nseq ltn_ord nth_nseq if_same.
rewrite f1 (@flux_ext _ _ _ _ _ h tau _ _ _ (fun=> c *: 0 + 0) (c *: u0 + 0) (fun=> c *: unit_vec + 0)) //.
  rewrite flux_lin (flux_const _ hc) scaler0 add0r /num_flux big1 => [|d _]; last by rewrite mulmx0 scaler0.
  by rewrite mulmx0 !scaler0 subr0 addr0.
by rewrite tr_const addr0.
Qed.
Lemma flux_of_conserved u0 x y : hdg_ok h -> hdg_const h u0 unit_vec -> flux x y ->
  pairing nF nb (const_trace 1 nF nb) y = 0.
Proof.
move=> hok hc [sy [q [u [h1 f1]]]]; rewrite pairing_dotv.
under eq_bigr => f _ do rewrite tr_const scale1r f1.
exact: flux_conserved hc _ _ _ h1.
Qed.
Lemma flux_of_kernel u0 x y : hdg_ok h -> 0 < tau -> hdg_const h u0 unit_vec -> hdg_grad h u0 ->
  is_trace nF nb x -> flux x y -> pairing nF nb x y = 0 -> exists c, x = const_trace c nF nb.
Proof.
move=> hok ht hc hg sx [sy [q [u [h1 f1]]]]; rewrite pairing_dotv.
under eq_bigr => f _ do rewrite f1.
case/(flux_kernel hok hc hg ht h1) => c hx; exists c; apply: trace_ext sx _ _ => [|f].
  by split; [exact: size_nseq | apply/allP => l /nseqP[-> _]; rewrite size_mkseq].
by rewrite hx tr_const.
Qed.
End Fluxes.
