(** The cross product and orthogonal matrices. *)
From mathcomp Require Import all_ssreflect all_algebra zify ring.
From Verif Require Import S_Beam.
Set Implicit Arguments. Unset Strict Implicit. Unset Printing Implicit Defensive.
Import Order.TTheory GRing.Theory Num.Theory.
Local Open Scope ring_scope.

Section Cross.
Variable F : realFieldType.
Implicit Types (a b c : 'cV[F]_3) (Q : 'M[F]_3).

Lemma mx_fun Q : exists f : nat -> nat -> F, Q = \matrix_(i, j) f i j.
Proof. by exists (fun i j => Q (inord i) (inord j)); apply/matrixP => i j; rewrite mxE !inord_val. Qed.
Lemma col_fun a : exists f : nat -> F, a = \col_i f i.
Proof. by exists (fun i => a (inord i) 0); apply/colP => i; rewrite mxE inord_val. Qed.
Lemma cross_col (f g : nat -> F) : cross (\col_i f i) (\col_i g i) = \col_i
  (if i == 0%N :> nat then f 1%N * g 2%N - f 2%N * g 1%N
   else if i == 1%N :> nat then f 2%N * g 0%N - f 0%N * g 2%N
   else f 0%N * g 1%N - f 1%N * g 0%N).
Proof. by apply/colP => i; rewrite !mxE /= !mxE !inordK. Qed.
Lemma mul_col (f : nat -> nat -> F) (g : nat -> F) :
  (\matrix_(i < 3, j < 3) f i j) *m (\col_j g j) = \col_i (f i 0%N * g 0%N + f i 1%N * g 1%N + f i 2%N * g 2%N).
Proof. by apply/colP => i; rewrite !mxE !big_ord_recl big_ord0 !mxE /= addr0 addrA. Qed.
Lemma det3 (f : nat -> nat -> F) : \det (\matrix_(i < 3, j < 3) f i j) =
  f 0%N 0%N * (f 1%N 1%N * f 2%N 2%N - f 1%N 2%N * f 2%N 1%N) -
  f 0%N 1%N * (f 1%N 0%N * f 2%N 2%N - f 1%N 2%N * f 2%N 0%N) +
  f 0%N 2%N * (f 1%N 0%N * f 2%N 1%N - f 1%N 1%N * f 2%N 0%N).
Proof.
rewrite (expand_det_row _ ord0) !big_ord_recl big_ord0 /cofactor.
rewrite !(expand_det_row _ (ord0 : 'I_2)) !big_ord_recl !big_ord0 /cofactor !det_mx11 !mxE /=.
rewrite /bump /= !(addn0, add0n, addn1, add1n) !expr0 !expr1 !addr0.
move: (f 0 0)%N (f 0 1)%N (f 0 2)%N (f 1 0)%N (f 1 1)%N (f 1 2)%N (f 2 0)%N (f 2 1)%N (f 2 2)%N => *; ring.
Qed.
Lemma cross_det Q a b : Q^T *m cross (Q *m a) (Q *m b) = \det Q *: cross a b.
Proof.
have [f ->] := mx_fun Q; have [g ->] := col_fun a; have [h ->] := col_fun b.
pose A i := f i 0%N * g 0%N + f i 1%N * g 1%N + f i 2%N * g 2%N.
pose B i := f i 0%N * h 0%N + f i 1%N * h 1%N + f i 2%N * h 2%N.
pose C i := if i == 0%N then A 1%N * B 2%N - A 2%N * B 1%N
   else if i == 1%N then A 2%N * B 0%N - A 0%N * B 2%N else A 0%N * B 1%N - A 1%N * B 0%N.
rewrite (mul_col f g) (mul_col f h) -[\col_i _]/(\col_i A i) -[X in cross _ X]/(\col_i B i) (cross_col A B).
rewrite (_ : _^T = \matrix_(i, j) f j i); last by apply/matrixP => i j; rewrite !mxE.
rewrite -[\col_i (if _ then _ else _)]/(\col_i C i) (mul_col (fun i j => f j i) C) det3 cross_col /C /A /B /=.
apply/colP => i; rewrite !mxE.
case: i => [[|[|[|i]]] hi] //=;
move: (f 0 0)%N (f 0 1)%N (f 0 2)%N (f 1 0)%N (f 1 1)%N (f 1 2)%N (f 2 0)%N (f 2 1)%N (f 2 2)%N
  (g 0)%N (g 1)%N (g 2)%N (h 0)%N (h 1)%N (h 2)%N => *; ring.
Qed.
Lemma cross_orth Q a b : Q^T *m Q = 1%:M -> cross (Q *m a) (Q *m b) = \det Q *: (Q *m cross a b).
Proof.
move=> h; have h' := mulmx1C h.
by rewrite -[LHS]mul1mx -h' -mulmxA cross_det -scalemxAr.
Qed.
Lemma det_orth Q : Q^T *m Q = 1%:M -> \det Q * \det Q = 1.
Proof. by move=> h; rewrite -{1}det_tr -det_mulmx h det1. Qed.
Lemma crossDl a b c : cross (a + b) c = cross a c + cross b c.
Proof. by apply/colP => i; rewrite !mxE /= !mxE; move: (a (inord 0) 0) (a (inord 1) 0) (a (inord 2) 0) (b (inord 0) 0) (b (inord 1) 0) (b (inord 2) 0) (c (inord 0) 0) (c (inord 1) 0) (c (inord 2) 0) => *; do 2?[case: ifP => _]; ring. Qed.
Lemma crossC a b : cross a b = - cross b a.
Proof. by apply/colP => i; rewrite !mxE /=; do 2?[case: ifP => _]; rewrite opprB; congr (_ - _); exact: mulrC. Qed.
Lemma crossDr a b c : cross a (b + c) = cross a b + cross a c.
Proof. by rewrite crossC crossDl opprD -!crossC. Qed.
Lemma crossZl s a b : cross (s *: a) b = s *: cross a b.
Proof. by apply/colP => i; rewrite !mxE /= !mxE; do 2?[case: ifP => _]; rewrite mulrBr !mulrA. Qed.
Lemma crossZr s a b : cross a (s *: b) = s *: cross a b.
Proof. by rewrite crossC crossZl -scalerN -crossC. Qed.
Lemma crossNr a b : cross a (- b) = - cross a b.
Proof. by rewrite -scaleN1r crossZr scaleN1r. Qed.
Lemma crossBr a b c : cross a (b - c) = cross a b - cross a c.
Proof. by rewrite crossDr crossNr. Qed.
Lemma crossv0 a : cross a 0 = 0.
Proof. by rewrite -[X in cross a X](scale0r 0) crossZr scale0r. Qed.
(** Triple product. *)
Lemma cross_triple a b c : mdot (cross a b) c = mdot a (cross b c).
Proof.
have [f ->] := col_fun a; have [g ->] := col_fun b; have [h ->] := col_fun c.
rewrite !cross_col /mdot !big_ord_recl !big_ord0 !mxE /=.
move: (f 0)%N (f 1)%N (f 2)%N (g 0)%N (g 1)%N (g 2)%N (h 0)%N (h 1)%N (h 2)%N => *; ring.
Qed.
(** The coupling of the beam equations. *)
Lemma mul_couplingT m (u : 'M[F]_(m, 6)) i (c : 'I_6) : (u *m (coupling F)^T) i c =
  if c == 1%N :> nat then u i (inord 5) else if c == 2%N :> nat then - u i (inord 4) else 0.
Proof.
rewrite !mxE (eq_bigr (fun j : 'I_6 => u i j *
   (((c == 1%N :> nat) && (j == 5%N :> nat))%:R - ((c == 2%N :> nat) && (j == 4%N :> nat))%:R))) => [|j _]; last by rewrite !mxE.
case: (c =P 1%N :> nat) => [->|_] /=.
  rewrite (bigD1 (inord 5)) //= inordK // eqxx subr0 mulr1 big1 ?addr0 // => j hj.
  by rewrite -(inj_eq val_inj) /= inordK // in hj; rewrite (negbTE hj) subr0 mulr0.
case: (c =P 2%N :> nat) => [_|_] /=.
  rewrite (bigD1 (inord 4)) //= inordK // eqxx sub0r mulrN1 big1 ?addr0 // => j hj.
  by rewrite -(inj_eq val_inj) /= inordK // in hj; rewrite (negbTE hj) subrr mulr0.
by rewrite big1 // => j _; rewrite subrr mulr0.
Qed.
Lemma coupling_cross a b : row_mx a^T b^T *m (coupling F)^T = row_mx (cross b (axis F))^T 0 :> 'rV[F]_(3 + 3).
Proof.
have r5 : (row_mx a^T b^T : 'rV[F]_(3 + 3)) 0 (inord 5 : 'I_6) = b (inord 2) 0.
  rewrite mxE; case: splitP => l; rewrite inordK // => hl; first by have := ltn_ord l; lia.
  by rewrite mxE; congr (b _ 0); apply: val_inj; rewrite /= inordK //; move: hl; lia.
have r4 : (row_mx a^T b^T : 'rV[F]_(3 + 3)) 0 (inord 4 : 'I_6) = b (inord 1) 0.
  rewrite mxE; case: splitP => l; rewrite inordK // => hl; first by have := ltn_ord l; lia.
  by rewrite mxE; congr (b _ 0); apply: val_inj; rewrite /= inordK //; move: hl; lia.
apply/rowP => c; rewrite mul_couplingT r4 r5.
have e0 : axis F (inord 0) 0 = 1 by rewrite mxE inordK.
have e1 : axis F (inord 1) 0 = 0 by rewrite mxE inordK.
have e2 : axis F (inord 2) 0 = 0 by rewrite mxE inordK.
case: (@split_ordP 3 3 c) => c' ->; last by rewrite row_mxEr mxE.
rewrite row_mxEl mxE mxE /= e0 e1 e2.
by case: c' => [[|[|[|c']]] hc] //=; rewrite ?mulr0 ?mulr1 ?subr0 ?sub0r ?oppr0 ?addr0.
Qed.
End Cross.
