(** Two coupled local problems in one linear system: from arrays to equations. *)
From mathcomp Require Import all_ssreflect all_algebra zify.
From Verif Require Import M_Base L_Base M_Index L_Index M_DenseLA S_DenseLA M_Lapack S_Lapack.
From Verif Require Import S_Hdg L_Hdg S_LocalSolver S_Diffusion L_LocalBase L_LocalLink L_HdgSrc L_BlockLink L_DiffusionParab.
Set Implicit Arguments. Unset Strict Implicit. Unset Printing Implicit Defensive.
Import Order.TTheory GRing.Theory Num.Theory.
Local Open Scope ring_scope.

Section BiLink.
Variable F : realFieldType.
Variables (nf nb dim nF : nat) (h : hdg F nf nb dim nF) (tau : F) (W : 'M[F]_nf) (c : F).
Notation L := (dim + 1)%N.
Notation nl := ((L + L) * nf)%N.

Definition blkM (P Q : nat) : 'M[F]_nf := \matrix_(i, j) block h tau P Q i j.
Lemma blkM_q (v : 'I_L -> 'cV[F]_nf) (d : 'I_dim) :
  \sum_(Y < L) blkM (lshift 1 d) Y *m v Y = op_q h (fun e => v (lshift 1 e)) (v (rshift dim ord0)) d.
Proof.
rewrite sum_dim1 /op_q (sum_ord1 (i := d)) => [|e hne].
  congr (_ *m _ + _); first by apply/matrixP => i j; rewrite mxE /block !insub_q eqxx.
  by rewrite -mulNmx; congr (_ *m _); apply/matrixP => i j; rewrite !mxE /block insub_q insub_u.
rewrite [X in X *m _](_ : _ = 0) ?mul0mx //; apply/matrixP => i j; rewrite !mxE /block !insub_q.
by rewrite -val_eqE eq_sym (negbTE hne).
Qed.
Lemma blkM_u (v : 'I_L -> 'cV[F]_nf) :
  \sum_(Y < L) blkM (rshift dim (ord0 : 'I_1)) Y *m v Y = op_u h tau (fun e => v (lshift 1 e)) (v (rshift dim ord0)).
Proof.
rewrite sum_dim1 /op_u; congr (_ + _); last rewrite -mulmx_suml scalemxAl; last congr (_ *m _).
  apply: eq_bigr => d _; congr (_ *m _); apply/matrixP => i j.
  by rewrite mxE /block insub_u insub_q.
by apply/matrixP => i j; rewrite !mxE /block insub_u.
Qed.

Definition biK (P Q : 'I_(L + L)) : 'M[F]_nf :=
  match split P, split Q with
  | inl a, inl b => blkM a b
  | inr a, inr b => blkM a b
  | inl a, inr b => if (a == dim :> nat) && (b == dim :> nat) then - W else 0
  | inr _, inl _ => 0
  end.
Lemma split_l (a : 'I_L) : split (lshift L a) = inl a. Proof. exact: (unsplitK (inl a)). Qed.
Lemma split_r (a : 'I_L) : split (rshift L a) = inr a. Proof. exact: (unsplitK (inr a)). Qed.
Variable (v : 'I_(L + L) -> 'cV[F]_nf).
Notation v1 := (fun Y : 'I_L => v (lshift L Y)).
Notation v2 := (fun Y : 'I_L => v (rshift L Y)).
Lemma biK_lq (d : 'I_dim) : \sum_Q biK (lshift L (lshift 1 d)) Q *m v Q =
  op_q h (fun e => v1 (lshift 1 e)) (v1 (rshift dim ord0)) d.
Proof.
rewrite big_split_ord /= [X in _ + X]big1 ?addr0 => [|b _].
  by rewrite -(blkM_q v1 d); apply: eq_bigr => Y _; rewrite /biK !split_l.
by rewrite /biK split_l split_r /= (ltn_eqF (ltn_ord d)) mul0mx.
Qed.
Lemma biK_lu : \sum_Q biK (lshift L (rshift dim ord0)) Q *m v Q =
  op_u h tau (fun e => v1 (lshift 1 e)) (v1 (rshift dim ord0)) - W *m v2 (rshift dim ord0).
Proof.
rewrite big_split_ord /=; congr (_ + _).
  by rewrite -(blkM_u v1); apply: eq_bigr => Y _; rewrite /biK !split_l.
rewrite sum_dim1 big1 ?add0r => [|d _].
  by rewrite /biK split_l split_r /= addn0 eqxx mulNmx.
by rewrite /biK split_l split_r /= (ltn_eqF (ltn_ord d)) andbF mul0mx.
Qed.
Lemma biK_rq (d : 'I_dim) : \sum_Q biK (rshift L (lshift 1 d)) Q *m v Q =
  op_q h (fun e => v2 (lshift 1 e)) (v2 (rshift dim ord0)) d.
Proof.
rewrite big_split_ord /= big1 ?add0r => [|b _]; last by rewrite /biK split_l split_r mul0mx.
by rewrite -(blkM_q v2 d); apply: eq_bigr => Y _; rewrite /biK !split_r.
Qed.
Lemma biK_ru : \sum_Q biK (rshift L (rshift dim ord0)) Q *m v Q =
  op_u h tau (fun e => v2 (lshift 1 e)) (v2 (rshift dim ord0)).
Proof.
rewrite big_split_ord /= big1 ?add0r => [|b _]; last by rewrite /biK split_l split_r mul0mx.
by rewrite -(blkM_u v2); apply: eq_bigr => Y _; rewrite /biK !split_r.
Qed.
End BiLink.

Section Solve.
Variable F : realFieldType.
Variables (nf nb dim nF : nat) (h : hdg F nf nb dim nF) (tau : F) (W : 'M[F]_nf) (c : F) (A : seq F).
Notation L := (dim + 1)%N.
Notation nl := ((L + L) * nf)%N.
Notation second X := (drop (L * nf) X).
Hypothesis hA : forall (P Q : 'I_(L + L)) (i j : 'I_nf),
  nth 0 A (loc nl (P * nf + i) (Q * nf + j)) = c * biK h tau W P Q i j.
Hypotheses (hok : hdg_ok h) (tau0 : 0 < tau) (c0 : c != 0).
Notation K P Q := (c *: biK h tau W P Q).

Lemma bi_sum (v : 'I_(L + L) -> 'cV[F]_nf) P : \sum_Q K P Q *m v Q = c *: (\sum_Q biK h tau W P Q *m v Q).
Proof. by rewrite scaler_sumr; apply: eq_bigr => Q _; rewrite -scalemxAl. Qed.
Lemma op_zero (q : 'I_dim -> 'cV[F]_nf) u : (forall d, op_q h q u d = 0) -> op_u h tau q u = 0 ->
  (forall d, q d = 0) /\ u = 0.
Proof.
move=> hq hu; apply: (loc_unique0 hok tau0 (q := q) (u := u)); split=> [d|].
  by rewrite -/(op_q h q u d) hq big1 ?oppr0 // => f _; rewrite mulmx0 scaler0.
by rewrite -/(op_u h tau q u) hu big1 ?scaler0 // => f _; rewrite mulmx0.
Qed.
Lemma bi_inj (v : 'I_(L + L) -> 'cV[F]_nf) : (forall P, \sum_Q K P Q *m v Q = 0) -> forall Q, v Q = 0.
Proof.
move=> hv; have hv' P : \sum_Q biK h tau W P Q *m v Q = 0.
  by have /eqP := hv P; rewrite bi_sum scaler_eq0 (negbTE c0) => /eqP.
have [r0 w0] := @op_zero (fun d => v (rshift L (lshift 1 d))) (v (rshift L (rshift dim ord0)))
   (fun d => etrans (esym (biK_rq h tau W v d)) (hv' _)) (etrans (esym (biK_ru h tau W v)) (hv' _)).
have [q0 u0] : (forall d, v (lshift L (lshift 1 d)) = 0) /\ v (lshift L (rshift dim ord0)) = 0.
  apply: op_zero => [d|]; first by rewrite -(biK_lq h tau W v).
  by have := hv' (lshift L (rshift dim ord0)); rewrite biK_lu w0 mulmx0 subr0.
move=> Q; case: (split_ordP Q) => a ->; case: (split_ordP a) => b ->; rewrite ?(ord1 b) //.
Qed.
Lemma bpart_lq X (d : 'I_dim) : @bpart F (L + L) nf X (lshift L (lshift 1 d)) = qpart nf X d :> 'cV[F]_nf.
Proof. by []. Qed.
Lemma bpart_lu X : @bpart F (L + L) nf X (lshift L (rshift dim ord0)) = upart nf dim X :> 'cV[F]_nf.
Proof. by apply/colP => i; rewrite !mxE /= addn0. Qed.
Lemma bpart_rq X (d : 'I_dim) : @bpart F (L + L) nf X (rshift L (lshift 1 d)) = qpart nf (second X) d :> 'cV[F]_nf.
Proof. by apply/colP => i; rewrite !mxE /= nth_drop mulnDl addnA. Qed.
Lemma bpart_ru X : @bpart F (L + L) nf X (rshift L (rshift dim ord0)) = upart nf dim (second X) :> 'cV[F]_nf.
Proof. by apply/colP => i; rewrite !mxE /= nth_drop addn0 mulnDl addnA. Qed.

Lemma bi_solve gesv rhs : gesv_correct gesv -> size A = (nl * nl)%N -> size rhs = nl ->
  exists X, [/\ (solve_const gesv nl 1 rhs A).1 = Ok X, size X = nl,
    (forall d, c *: op_q h (qpart nf X) (upart nf dim X) d = qpart nf rhs d) /\
    c *: (op_u h tau (qpart nf X) (upart nf dim X) - W *m upart nf dim (second X)) = upart nf dim rhs
  & (forall d, c *: op_q h (qpart nf (second X)) (upart nf dim (second X)) d = qpart nf (second rhs) d) /\
    c *: op_u h tau (qpart nf (second X)) (upart nf dim (second X)) = upart nf dim (second rhs)].
Proof.
move=> hg sA sr.
have hA' (P Q : 'I_(L + L)) (i j : 'I_nf) : nth 0 A (loc nl (P * nf + i) (Q * nf + j)) = (K P Q) i j.
  by rewrite hA mxE.
have [X [h1 h2 h3]] := blink_solve hA' hg bi_inj sA sr.
exists X; split => //; split=> [d|].
- by have := h3 (lshift L (lshift 1 d)); rewrite bi_sum biK_lq bpart_lu bpart_lq => <-.
- by have := h3 (lshift L (rshift dim ord0)); rewrite bi_sum biK_lu !bpart_lu bpart_ru => <-.
- have := h3 (rshift L (lshift 1 d)); rewrite bi_sum biK_rq !bpart_ru bpart_rq => <-; congr (_ *: _).
  by rewrite /op_q bpart_rq.
have := h3 (rshift L (rshift dim ord0)); rewrite bi_sum biK_ru !bpart_ru => <-; congr (_ *: _).
by rewrite /op_u; congr (_ + _); apply: eq_bigr => d _; rewrite bpart_rq.
Qed.
End Solve.
