(** Linear systems with m blocks of size nf: from arrays to equations between the blocks. *)
From mathcomp Require Import all_ssreflect all_algebra zify.
From Verif Require Import M_Base L_Base M_Index L_Index M_DenseLA S_DenseLA M_Lapack S_Lapack.
From Verif Require Import S_LocalSolver L_LocalBase L_LocalLink.
Set Implicit Arguments. Unset Strict Implicit. Unset Printing Implicit Defensive.
Import Order.TTheory GRing.Theory Num.Theory.
Local Open Scope ring_scope.

Section Blocks.
Variable F : realFieldType.
Variables (m nf : nat) (K : 'I_m -> 'I_m -> 'M[F]_nf) (A : seq F).
Notation nl := (m * nf)%N.
Definition bpart (X : seq F) (P : 'I_m) : 'cV[F]_nf := \col_i nth 0 X (P * nf + i)%N.
Hypothesis hA : forall (P Q : 'I_m) (i j : 'I_nf),
  nth 0 A (loc nl (P * nf + i) (Q * nf + j)) = K P Q i j.

Lemma bpos (P : 'I_m) (i : 'I_nf) : (P * nf + i < nl)%N.
Proof. exact: block_lt. Qed.
Lemma brow X (P : 'I_m) (i : 'I_nf) :
  (mx_of nl nl A *m mx_of nl 1 X) (Ordinal (bpos P i)) 0 = (\sum_Q K P Q *m bpart X Q) i 0.
Proof.
rewrite mxE summxE; under eq_bigr => c _ do rewrite !mxE mul0n add0n.
rewrite (sum_blocks _ _ (fun c => nth 0 A (c * nl + (P * nf + i)) * nth 0 X c)).
apply: eq_bigr => Q _; rewrite mxE; apply: eq_bigr => j _.
by rewrite -hA mxE.
Qed.
Lemma brow_cases (r : 'I_nl) : exists (P : 'I_m) (i : 'I_nf), r = Ordinal (bpos P i).
Proof.
have nf0 : (0 < nf)%N by case: (nf) r => // -[]; rewrite muln0.
have hr : (r %/ nf < m)%N by rewrite ltn_divLR.
have hm : (r %% nf < nf)%N by rewrite ltn_mod.
by exists (Ordinal hr), (Ordinal hm); apply: ord_inj; exact: divn_eq.
Qed.
Lemma blink X rhs : mx_of nl nl A *m mx_of nl 1 X = mx_of nl 1 rhs <->
  forall P, \sum_Q K P Q *m bpart X Q = bpart rhs P.
Proof.
split=> [heq P|hX].
  by apply/colP => i; rewrite -brow heq !mxE mul0n.
apply/colP => r; have [P [i ->]] := brow_cases r.
by rewrite brow hX !mxE mul0n.
Qed.
Lemma blink_unit : (forall v : 'I_m -> 'cV[F]_nf, (forall P, \sum_Q K P Q *m v Q = 0) -> forall Q, v Q = 0) ->
  mx_of nl nl A \in unitmx.
Proof.
move=> hK; apply: kernel_unit => v.
pose X := mkseq (fun k => if insub k is Some r then v r 0 else 0) nl.
have hX : mx_of nl 1 X = v.
  apply/colP => r; rewrite mxE mul0n add0n nth_mkseq //.
  by rewrite (_ : insub _ = Some r) //; exact: valK.
have h0 : mx_of nl 1 [::] = 0 :> 'cV[F]_nl by apply/colP => r; rewrite !mxE nth_nil.
rewrite -{1}hX -h0 => /blink hq.
have e0 P : bpart [::] P = 0 by apply/colP => i; rewrite !mxE nth_nil.
have hv := hK (bpart X) (fun P => etrans (hq P) (e0 P)).
rewrite -hX; apply/colP => r; rewrite !mxE nth_nil mul0n add0n.
have [P [i ->]] := brow_cases r.
by have /colP/(_ i) := hv P; rewrite !mxE.
Qed.
Lemma blink_solve gesv rhs : gesv_correct gesv ->
  (forall v : 'I_m -> 'cV[F]_nf, (forall P, \sum_Q K P Q *m v Q = 0) -> forall Q, v Q = 0) ->
  size A = (nl * nl)%N -> size rhs = nl ->
  exists X, [/\ (solve_const gesv nl 1 rhs A).1 = Ok X, size X = nl
    & forall P, \sum_Q K P Q *m bpart X Q = bpart rhs P].
Proof.
move=> hg hK sA sr.
have hm : is_mat nl 1 rhs by rewrite /is_mat muln1.
have [hi [sx hx]] := hg nl 1%N A rhs sA hm (blink_unit hK).
exists (sv_rhs (gesv nl 1%N A rhs)); rewrite /solve_const /= hi.
by split; [| rewrite sx muln1 | exact/blink].
Qed.
(** Conversely, the blocks of an invertible matrix have only the zero solution. *)
Lemma blink_kernel (v : 'I_m -> 'cV[F]_nf) : mx_of nl nl A \in unitmx ->
  (forall P, \sum_Q K P Q *m v Q = 0) -> forall Q, v Q = 0.
Proof.
move=> uA hv Q; apply/colP => i; have nf0 : (0 < nf)%N by case: (nf) i => // -[].
pose X := mkseq (fun k => if insub (k %/ nf)%N is Some P then
  (if insub (k %% nf)%N is Some j then v P j 0 else 0) else 0) nl.
have hX P : bpart X P = v P.
  apply/colP => j; rewrite mxE nth_mkseq ?bpos // divnMDl // modnMDl divn_small // addn0 modn_small //.
  rewrite (_ : insub _ = Some P); last exact: valK.
  by rewrite (_ : insub _ = Some j) //; exact: valK.
have /blink hx : forall P, \sum_Q K P Q *m bpart X Q = bpart [::] P.
  move=> P; have -> : bpart [::] P = 0 by apply/colP => j; rewrite !mxE nth_nil.
  by rewrite -[RHS](hv P); apply: eq_bigr => R _; rewrite hX.
have x0 : mx_of nl 1 X = 0.
  rewrite -[LHS](mulKmx uA) hx; have -> : mx_of nl 1 [::] = 0 :> 'cV[F]_nl by apply/colP => r; rewrite !mxE nth_nil.
  exact: mulmx0.
rewrite -hX; have /colP/(_ (Ordinal (bpos Q i))) := x0; by rewrite !mxE mul0n add0n /=.
Qed.
End Blocks.
