(** The coupled linear system with a further block: from arrays to equations. *)
From mathcomp Require Import all_ssreflect all_algebra zify.
From Verif Require Import M_Base L_Base M_Index L_Index M_DenseLA S_DenseLA M_Lapack S_Lapack.
From Verif Require Import S_Hdg L_Hdg S_LocalSolver S_Diffusion S_DiffusionEigs L_LocalBase L_LocalLink L_HdgSrc L_BlockLink L_DiffusionParab L_BiLink.
Set Implicit Arguments. Unset Strict Implicit. Unset Printing Implicit Defensive.
Import Order.TTheory GRing.Theory Num.Theory.
Local Open Scope ring_scope.

Section Link.
Variable F : realFieldType.
Variables (nf nb dim nF : nat) (h : hdg F nf nb dim nF) (tau kap nu : F) (W m : 'M[F]_nf).
Notation L := (dim + 1)%N.
Notation nl := ((L + L) * nf)%N.
Notation blkM := (blkM h tau).

(** The second equation for w multiplied by kap, plus nu times m in the columns of u. *)
Definition rK (P Q : 'I_(L + L)) : 'M[F]_nf :=
  match split P, split Q with
  | inl a, inl b => blkM a b
  | inr a, inr b => if a == dim :> nat then kap *: blkM a b else blkM a b
  | inl a, inr b => if (a == dim :> nat) && (b == dim :> nat) then - W else 0
  | inr a, inl b => if (a == dim :> nat) && (b == dim :> nat) then nu *: m else 0
  end.
Variable (v : 'I_(L + L) -> 'cV[F]_nf).
Notation v1 := (fun Y : 'I_L => v (lshift L Y)).
Notation v2 := (fun Y : 'I_L => v (rshift L Y)).
Lemma rK_lq (d : 'I_dim) : \sum_Q rK (lshift L (lshift 1 d)) Q *m v Q =
  op_q h (fun e => v1 (lshift 1 e)) (v1 (rshift dim ord0)) d.
Proof.
rewrite big_split_ord /= [X in _ + X]big1 ?addr0 => [|b _].
  by rewrite -(blkM_q h tau v1 d); apply: eq_bigr => Y _; rewrite /rK !split_l.
by rewrite /rK split_l split_r /= (ltn_eqF (ltn_ord d)) mul0mx.
Qed.
Lemma rK_lu : \sum_Q rK (lshift L (rshift dim ord0)) Q *m v Q =
  op_u h tau (fun e => v1 (lshift 1 e)) (v1 (rshift dim ord0)) - W *m v2 (rshift dim ord0).
Proof.
rewrite big_split_ord /=; congr (_ + _).
  by rewrite -(blkM_u h tau v1); apply: eq_bigr => Y _; rewrite /rK !split_l.
rewrite sum_dim1 big1 ?add0r => [|d _].
  by rewrite /rK split_l split_r /= addn0 eqxx mulNmx.
by rewrite /rK split_l split_r /= (ltn_eqF (ltn_ord d)) andbF mul0mx.
Qed.
Lemma rK_rq (d : 'I_dim) : \sum_Q rK (rshift L (lshift 1 d)) Q *m v Q =
  op_q h (fun e => v2 (lshift 1 e)) (v2 (rshift dim ord0)) d.
Proof.
rewrite big_split_ord /= big1 ?add0r => [|b _]; last first.
  by rewrite /rK split_l split_r /= (ltn_eqF (ltn_ord d)) mul0mx.
by rewrite -(blkM_q h tau v2 d); apply: eq_bigr => Y _; rewrite /rK !split_r /= (ltn_eqF (ltn_ord d)).
Qed.
Lemma rK_ru : \sum_Q rK (rshift L (rshift dim ord0)) Q *m v Q =
  nu *: (m *m v1 (rshift dim ord0)) + kap *: op_u h tau (fun e => v2 (lshift 1 e)) (v2 (rshift dim ord0)).
Proof.
rewrite big_split_ord /=; congr (_ + _).
  rewrite sum_dim1 big1 ?add0r => [|d _].
    by rewrite /rK split_l split_r /= addn0 eqxx scalemxAl.
  by rewrite /rK split_l split_r /= (ltn_eqF (ltn_ord d)) andbF mul0mx.
rewrite -(blkM_u h tau v2) scaler_sumr; apply: eq_bigr => Y _.
by rewrite /rK !split_r /= addn0 eqxx scalemxAl.
Qed.
End Link.

Section Solve.
Variable F : realFieldType.
Variables (nf nb dim nF : nat) (h : hdg F nf nb dim nF) (tau kap nu : F) (W m : 'M[F]_nf) (A : seq F).
Notation L := (dim + 1)%N.
Notation nl := ((L + L) * nf)%N.
Notation second X := (drop (L * nf) X).
Notation K := (rK h tau kap nu W m).
Hypothesis hA : forall (P Q : 'I_(L + L)) (i j : 'I_nf), nth 0 A (loc nl (P * nf + i) (Q * nf + j)) = K P Q i j.
(** The system without right-hand side. *)
Definition rsys (q r : 'I_dim -> 'cV[F]_nf) (u w : 'cV[F]_nf) : Prop :=
  [/\ forall d, op_q h q u d = 0, op_u h tau q u = W *m w, forall d, op_q h r w d = 0
    & nu *: (m *m u) + kap *: op_u h tau r w = 0].
Definition rzero (q r : 'I_dim -> 'cV[F]_nf) (u w : 'cV[F]_nf) : Prop :=
  [/\ forall d, q d = 0, u = 0, forall d, r d = 0 & w = 0].
Lemma r_irregular gesv rhs : gesv_detects gesv -> size A = (nl * nl)%N -> size rhs = nl ->
  ~ (forall q r u w, rsys q r u w -> rzero q r u w) -> (solve_const gesv nl 1 rhs A).1 = Throw.
Proof.
move=> hd sA sr hir; rewrite /solve_const /=.
have hu : mx_of nl nl A \notin unitmx.
  apply/negP => uA; apply: hir => q r u w [h1 h2 h3 h4].
  pose v1 (q : 'I_dim -> 'cV[F]_nf) u (Y : 'I_L) : 'cV[F]_nf := if insub (Y : nat) : option 'I_dim is Some d then q d else u.
  pose v (Q : 'I_(L + L)) := match split Q with inl a => v1 q u a | inr b => v1 r w b end.
  have vlq d : v (lshift L (lshift 1 d)) = q d by rewrite /v split_l /v1 insub_q.
  have vlu : v (lshift L (rshift dim ord0)) = u by rewrite /v split_l /v1 insub_u.
  have vrq d : v (rshift L (lshift 1 d)) = r d by rewrite /v split_r /v1 insub_q.
  have vru : v (rshift L (rshift dim ord0)) = w by rewrite /v split_r /v1 insub_u.
  have hv0 : forall Q, v Q = 0.
    apply: (blink_kernel hA uA) => X; case: (split_ordP X) => a ->; case: (split_ordP a) => k ->; rewrite ?(ord1 k).
    - by rewrite rK_lq vlu -[RHS](h1 k) /op_q vlq.
    - rewrite rK_lu vlu vru; apply/eqP; rewrite subr_eq0; apply/eqP; rewrite -h2 /op_u; congr (_ + _).
      by apply: eq_bigr => d _; rewrite vlq.
    - by rewrite rK_rq vru -[RHS](h3 k) /op_q vrq.
    rewrite rK_ru vlu vru -[RHS]h4; congr (_ + _ *: _); rewrite /op_u; congr (_ + _).
    by apply: eq_bigr => d _; rewrite vrq.
  by split=> [d||d|]; rewrite -?vlq -?vlu -?vrq -?vru.
have hm1 : is_mat nl 1 rhs by rewrite /is_mat muln1.
by rewrite (negbTE (hd nl 1%N A rhs sA hm1 hu)).
Qed.
Hypothesis hreg : forall q r u w, rsys q r u w -> rzero q r u w.
Lemma r_inj (v : 'I_(L + L) -> 'cV[F]_nf) : (forall P, \sum_Q K P Q *m v Q = 0) -> forall Q, v Q = 0.
Proof.
move=> hv.
have [q0 u0 r0 w0] := @hreg (fun d => v (lshift L (lshift 1 d))) (fun d => v (rshift L (lshift 1 d)))
    (v (lshift L (rshift dim ord0))) (v (rshift L (rshift dim ord0))) (And4
    (fun d => etrans (esym (rK_lq h tau kap nu W m v d)) (hv _))
    (subr0_eq (etrans (esym (rK_lu h tau kap nu W m v)) (hv _)))
    (fun d => etrans (esym (rK_rq h tau kap nu W m v d)) (hv _)) (etrans (esym (rK_ru h tau kap nu W m v)) (hv _))).
by move=> Q; case: (split_ordP Q) => a ->; case: (split_ordP a) => b ->; rewrite ?(ord1 b).
Qed.
Lemma r_solve gesv rhs : gesv_correct gesv -> size A = (nl * nl)%N -> size rhs = nl ->
  exists X, [/\ (solve_const gesv nl 1 rhs A).1 = Ok X, size X = nl,
    (forall d, op_q h (qpart nf X) (upart nf dim X) d = qpart nf rhs d) /\
    op_u h tau (qpart nf X) (upart nf dim X) - W *m upart nf dim (second X) = upart nf dim rhs
  & (forall d, op_q h (qpart nf (second X)) (upart nf dim (second X)) d = qpart nf (second rhs) d) /\
    nu *: (m *m upart nf dim X) + kap *: op_u h tau (qpart nf (second X)) (upart nf dim (second X)) = upart nf dim (second rhs)].
Proof.
move=> hg sA sr; have [X [h1 h2 h3]] := blink_solve hA hg r_inj sA sr.
exists X; split => //; split=> [d|].
- by have := h3 (lshift L (lshift 1 d)); rewrite rK_lq bpart_lu bpart_lq => <-.
- by have := h3 (lshift L (rshift dim ord0)); rewrite rK_lu !bpart_lu bpart_ru => <-.
- have := h3 (rshift L (lshift 1 d)); rewrite rK_rq !bpart_ru bpart_rq => <-.
  by rewrite /op_q bpart_rq.
have := h3 (rshift L (rshift dim ord0)); rewrite rK_ru !bpart_ru bpart_lu => <-; congr (_ + _ *: _).
by rewrite /op_u; congr (_ + _); apply: eq_bigr => d _; rewrite bpart_rq.
Qed.
End Solve.
