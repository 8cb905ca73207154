(** Matrices and vectors assembled block by block. *)
From mathcomp Require Import all_ssreflect all_algebra zify.
From Verif Require Import M_Base L_Base M_DenseLA M_DiffusionUniform L_LocalBase.
Set Implicit Arguments. Unset Strict Implicit. Unset Printing Implicit Defensive.
Import GRing.Theory.
Local Open Scope ring_scope.

Section Block.
Variable R : ringType.

Lemma contrib2_cat f j (e1 e2 : seq (nat * nat * R)) :
  contrib2 f j (e1 ++ e2) = contrib2 f j e1 + contrib2 f j e2.
Proof. by rewrite /contrib2 big_cat. Qed.

(** A loop whose bodies add contributions, each knowing what was added before. *)
Lemma for_acc_hist n (body : nat -> seq R -> seq R) (evs : nat -> seq (nat * R)) s0 :
  (forall i, (i < n)%N -> let s := accumulate s0 (flatten [seq evs k | k <- iota 0 i]) in
     body i s = accumulate s (evs i)) ->
  for_ n body s0 = accumulate s0 (flatten [seq evs i | i <- iota 0 n]).
Proof.
elim: n => [//|n IH] h; rewrite for_S IH => [|i hi]; last by apply: h; lia.
by rewrite h // -accumulate_cat -(addn1 n) iotaD map_cat flatten_cat /= cats0.
Qed.

Variables (D nf : nat).
Notation nl := (D * nf)%N.

Lemma block_entry (evs : nat -> nat -> seq (nat * nat * R)) P Q i j :
  (forall x y e, (x < nf)%N -> (y < nf)%N -> e \in evs x y -> (e.1.1 < D) && (e.1.2 < D))%N ->
  (P < D)%N -> (Q < D)%N -> (i < nf)%N -> (j < nf)%N ->
  nth 0 (accumulate (zeros R nl nl) (flatten [seq flatten [seq
      [seq (loc nl (e.1.1 * nf + x) (e.1.2 * nf + y), e.2) | e <- evs x y]
    | y <- iota 0 nf] | x <- iota 0 nf])) (loc nl (P * nf + i) (Q * nf + j)) = contrib2 P Q (evs i j).
Proof.
move=> hin hP hQ hi hj.
have hk : (loc nl (P * nf + i) (Q * nf + j) < size (zeros R nl nl))%N.
  by rewrite size_nseq /loc; apply: block_lt; apply: block_lt.
rewrite nth_contrib // nth_nseq if_same add0r contrib_loop.
have hev x y : (x < nf)%N -> (y < nf)%N ->
    contrib (loc nl (P * nf + i) (Q * nf + j))
      [seq (loc nl (e.1.1 * nf + x) (e.1.2 * nf + y), e.2) | e <- evs x y] =
    if (x == i) && (y == j) then contrib2 P Q (evs x y) else 0.
  move=> hx hy; rewrite /contrib big_map /= /contrib2 big_mkcond [in RHS]big_mkcond /=.
  rewrite (eq_big_seq (fun e => if (x == i) && (y == j) then if e.1 == (P, Q) then e.2 else 0 else 0)).
    by case: (_ && _) => //; rewrite big1_eq.
  move=> [[X Y] v] /hin /= /(_ hx hy)/andP[hX hY].
  rewrite loc_inj ?block_lt // !block_inj // xpair_eqE.
  by case: (X == P); case: (Y == Q); case: (x == i); case: (y == j).
rewrite (sum_ord1 (i := Ordinal hi)) => [|x hne].
  rewrite contrib_loop (sum_ord1 (i := Ordinal hj)) => [|y hne].
    by rewrite hev //= !eqxx.
  by rewrite hev //= eqxx (negbTE hne).
rewrite contrib_loop big1 // => y _.
by rewrite hev // (negbTE hne).
Qed.

Lemma block_vec (evs : nat -> seq (nat * R)) P i :
  (P < D)%N -> (i < nf)%N ->
  nth 0 (accumulate (zeros R nl 1) (flatten [seq
      [seq ((e.1 * nf + x)%N, e.2) | e <- evs x] | x <- iota 0 nf])) (P * nf + i) = contrib P (evs i).
Proof.
move=> hP hi; rewrite nth_contrib ?size_nseq ?muln1 ?block_lt // nth_nseq if_same add0r contrib_loop.
have hev x : (x < nf)%N -> contrib (P * nf + i)%N [seq ((e.1 * nf + x)%N, e.2) | e <- evs x] =
    if x == i then contrib P (evs x) else 0.
  move=> hx; rewrite /contrib big_map /= big_mkcond [in RHS]big_mkcond /=.
  rewrite (eq_bigr (fun e => if x == i then if e.1 == P then e.2 else 0 else 0)).
    by case: eqP => //; rewrite big1_eq.
  by move=> e _; rewrite block_inj //; case: (e.1 == P); case: (x == i).
rewrite (sum_ord1 (i := Ordinal hi)) => [|x hne]; first by rewrite hev //= eqxx.
by rewrite hev // (negbTE hne).
Qed.

(** Entries of a small matrix filled by row and column. *)
Lemma flat_entry h w (evs : seq (nat * nat * R)) f j :
  (forall e, e \in evs -> e.1.1 < h)%N -> (f < h)%N -> (j < w)%N ->
  nth 0 (accumulate (zeros R h w) [seq (loc h e.1.1 e.1.2, e.2) | e <- evs]) (loc h f j) =
  contrib2 f j evs.
Proof.
move=> hin hf hj; rewrite nth_contrib; last by rewrite size_nseq mulnC /loc block_lt.
rewrite nth_nseq if_same add0r /contrib big_map /= /contrib2 big_mkcond [in RHS]big_mkcond /=.
apply: eq_big_seq => -[[X Y] v] /hin /= hX.
by rewrite loc_inj // xpair_eqE.
Qed.
End Block.
