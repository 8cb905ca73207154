(** Proofs about M_Timoshenko: form of the operator, rigid motions, equilibrium. *)
From mathcomp Require Import all_ssreflect all_algebra zify ring.
From Verif Require Import M_Base L_Base M_Index L_Index M_DenseLA S_DenseLA L_DenseLA M_Lapack S_Lapack L_Lapack.
From Verif Require Import S_Tpp S_LocalSolver M_DiffusionUniform L_DiffusionUniform L_LocalBase L_LocalBlock L_LocalLink L_BlockLink.
From Verif Require Import S_Diffusion S_Beam L_Beam M_Timoshenko S_Timoshenko L_Segment L_Timoshenko L_TimoshenkoFlux L_Cross.
Set Implicit Arguments. Unset Strict Implicit. Unset Printing Implicit Defensive.
Import Order.TTheory GRing.Theory Num.Theory.
Local Open Scope ring_scope.

Section Traces.
Variable F : realFieldType.
Implicit Types x y : seq (seq F).
Lemma pairing_mdot x y : pairing 2 6 x y = mdot (ends x) (ends y).
Proof. by apply: eq_bigr => f _; apply: eq_bigr => c _; rewrite !mxE. Qed.
Lemma ends_inj x y : is_trace 2 6 x -> is_trace 2 6 y -> ends x = ends y -> x = y.
Proof.
move=> hx hy e; apply: (trace_ext hx hy) => f; apply/colP => c.
by have /matrixP/(_ f c) := e; rewrite !mxE.
Qed.
Lemma ends_comb c x y : ends (comb_trace c 2 6 x y) = c *: ends x + ends y.
Proof. by apply/matrixP => f j; rewrite !mxE nth_mkseq // nth_mkseq. Qed.
Lemma zero_is_trace : is_trace 2 6 (zero_trace F 2 6).
Proof. by []. Qed.
Lemma ends_zero : ends (zero_trace F 2 6) = 0.
Proof. by apply/matrixP => f c; rewrite !mxE nth_nseq ltn_ord nth_nseq if_same. Qed.
Definition trace_of (X : 'M[F]_(2, 6)) : seq (seq F) := mkseq (fun f => mkseq (fun c => X (inord f) (inord c)) 6) 2.
Lemma trace_of_trace X : is_trace 2 6 (trace_of X).
Proof. by []. Qed.
Lemma trace_ofK X : ends (trace_of X) = X.
Proof. by apply/matrixP => f c; rewrite !mxE nth_mkseq // nth_mkseq // !inord_val. Qed.
Lemma maskedD dirs (D : tb_data F) Y Z : masked dirs D (Y + Z) = masked dirs D Y + masked dirs D Z.
Proof. by apply/matrixP => f c; rewrite !mxE; case: ifP => // _; rewrite addr0. Qed.
Lemma maskedZ dirs (D : tb_data F) a Y : masked dirs D (a *: Y) = a *: masked dirs D Y.
Proof. by apply/matrixP => f c; rewrite !mxE; case: ifP => // _; rewrite mulr0. Qed.
Lemma masked0 dirs (D : tb_data F) : masked dirs D 0 = 0.
Proof. by apply/matrixP => f c; rewrite !mxE; case: ifP. Qed.
Lemma masked_id dirs (D : tb_data F) Y : (forall f, (f < 2)%N -> nth 0%N (tb_types D) f \notin dirs) -> masked dirs D Y = Y.
Proof. by move=> h; apply/matrixP => f c; rewrite !mxE (negbTE (h _ _)). Qed.
Lemma mdot_masked dirs (D : tb_data F) x Y : vanishes (fun f => nth 0%N (tb_types D) f \in dirs) 2 6 x ->
  mdot (ends x) (masked dirs D Y) = mdot (ends x) Y.
Proof.
move=> h; apply: eq_bigr => f _; apply: eq_bigr => c _; rewrite !mxE; case: ifP => // hf.
by rewrite (h f c) // !mul0r.
Qed.
(** Displacements and rotations. *)
Lemma row_ends x f : row f (ends x) = row_mx (upper3 x f)^T (lower3 x f)^T.
Proof. by apply/rowP => c; rewrite !mxE; case: splitP => l hl; rewrite !mxE hl. Qed.
Lemma mdot_ends x y : mdot (ends x) (ends y) =
  \sum_f (mdot (upper3 x f) (upper3 y f) + mdot (lower3 x f) (lower3 y f)).
Proof.
apply: eq_bigr => f _; rewrite (@big_split_ord _ _ _ 3 3) !mdot_col /=.
by congr (_ + _); apply: eq_bigr => c _; rewrite !mxE.
Qed.
Definition trace_six (u v : 'I_2 -> 'cV[F]_3) : seq (seq F) :=
  trace_of (\matrix_(f, c) (row_mx (u f)^T (v f)^T) 0 c).
Lemma upper_six u v f : upper3 (trace_six u v) f = u f.
Proof.
apply/colP => c; have /matrixP/(_ f (lshift 3 c)) := trace_ofK (\matrix_(f, c) (row_mx (u f)^T (v f)^T) 0 c).
by rewrite [LHS]mxE [RHS]mxE row_mxEl [RHS]mxE => <-; rewrite mxE.
Qed.
Lemma lower_six u v f : lower3 (trace_six u v) f = v f.
Proof.
apply/colP => c; have /matrixP/(_ f (rshift 3 c)) := trace_ofK (\matrix_(f, c) (row_mx (u f)^T (v f)^T) 0 c).
by rewrite [LHS]mxE [RHS]mxE row_mxEr [RHS]mxE => <-; rewrite mxE.
Qed.
End Traces.

Section Rigid.
Variables (F : realFieldType) (D : tb_data F) (r : F) (P : 'I_2 -> 'cV[F]_3).
Hypotheses (hQ : orthonormal (frame D)) (hP : beam_ends D r P).
Notation Q := (frame D).
Notation e := (\det Q).
Implicit Types x : seq (seq F).
Lemma row_frame x f : row f (ends x *m frame2 D) = row_mx (Q^T *m upper3 x f)^T (Q^T *m lower3 x f)^T.
Proof. by rewrite row_mul row_ends mul_row_block !mulmx0 addr0 add0r !trmx_mul !trmxK. Qed.
Lemma axisE : axis F = Q^T *m col 0 Q.
Proof. by rewrite -col_mulmx hQ; apply/colP => i; rewrite !mxE. Qed.
Lemma frame_unit (w : 'cV[F]_3) : Q *m (Q^T *m w) = w.
Proof. by rewrite mulmxA (mulmx1C hQ) mul1mx. Qed.
Lemma frame_inj (v w : 'cV[F]_3) : Q^T *m v = Q^T *m w -> v = w.
Proof. by move=> h; rewrite -[v]frame_unit h frame_unit. Qed.
Lemma cross_axis w : cross (Q^T *m w) (axis F) = Q^T *m (e *: cross w (col 0 Q)).
Proof.
have h : (Q^T)^T *m Q^T = 1%:M by rewrite trmxK (mulmx1C hQ).
by rewrite axisE (cross_orth _ _ h) det_tr -scalemxAr.
Qed.
Lemma unstrained_iff x : let X := ends x *m frame2 D in unstrained r (row 0 X) X <->
  lower3 x 1 = lower3 x 0 /\ upper3 x 1 = upper3 x 0 - e *: cross (lower3 x 0) (P 1 - P 0).
Proof.
move=> X.
have eX : row 0 X - r *: (row 0 X *m (coupling F)^T) =
  row_mx (Q^T *m (upper3 x 0 - e *: cross (lower3 x 0) (P 1 - P 0)))^T (Q^T *m lower3 x 0)^T.
  have key (a b c : 'rV[F]_3) : row_mx a b - r *: row_mx c 0 = row_mx (a - r *: c) b :> 'rV[F]_(3 + 3).
    by rewrite scale_row_mx opp_row_mx add_row_mx scaler0 oppr0 addr0.
  rewrite row_frame coupling_cross cross_axis; rewrite [LHS]key; congr row_mx.
  rewrite hP crossZr scalerA [e * r]mulrC -scalerA mulmxBr; move: (e *: cross _ _) => c.
  by rewrite -scalemxAr; move: (Q^T *m c) (Q^T *m upper3 x 0) => a1 a2; apply/rowP => i; rewrite !mxE.
split=> [[_ h]|[h1 h2]].
  rewrite eX row_frame in h; have [hu hl] := @eq_row_mx _ 1 3 3 _ _ _ _ h.
  by split; apply: frame_inj; apply: trmx_inj.
by split=> //; rewrite eX row_frame h1 h2.
Qed.
Lemma rigid_iff x : let X := ends x *m frame2 D in unstrained r (row 0 X) X <-> exists a w, rigid (- e) a w P x.
Proof.
move=> X; rewrite unstrained_iff; have ee := det_orth hQ; split=> [[h1 h2]|[a [w h]]].
  exists (upper3 x 0 + e *: cross (lower3 x 0) (P 0)), (- e *: lower3 x 0) => f.
  have ll v : - e *: (- e *: v) = v :> 'cV[F]_3 by rewrite scalerA mulNr mulrN opprK ee scale1r.
  rewrite ll crossZl scaleNr.
  have [->|->] : f = 0 \/ f = 1 by case: f => [[|[|f]] hf] //; [left | right]; apply: val_inj.
    by rewrite addrK.
  by rewrite h1 h2 crossBr scalerBr opprB addrA.
have [h0 l0] := h 0; have [h1 l1] := h 1; rewrite l0 l1 h0 h1; split=> //.
by rewrite crossZl scalerA mulrN ee scaleN1r opprK crossBr -[in RHS]addrA [cross w (P 0) + _]addrC subrK.
Qed.
End Rigid.
