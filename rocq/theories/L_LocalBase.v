(** Assembly loops of the local solvers: sums of the contributions. *)
From mathcomp Require Import all_ssreflect all_algebra zify.
From Verif Require Import M_Base L_Base M_DenseLA M_DiffusionUniform.
Set Implicit Arguments. Unset Strict Implicit. Unset Printing Implicit Defensive.
Import GRing.Theory.
Local Open Scope ring_scope.

Section Flat.
Variable R : ringType.
Implicit Types (s : seq R) (evs : seq (nat * R)).

Lemma for_acc n (body : nat -> seq R -> seq R) (evs : nat -> seq (nat * R)) s :
  (forall i s, (i < n)%N -> body i s = accumulate s (evs i)) ->
  for_ n body s = accumulate s (flatten [seq evs i | i <- iota 0 n]).
Proof.
by move=> h; rewrite -for_accumulate; apply: eq_for => i t hi; exact: h.
Qed.

(** The contributions to cell k. *)
Definition contrib k evs : R := \sum_(e <- evs | e.1 == k) e.2.
Lemma contrib_nil k : contrib k [::] = 0. Proof. by rewrite /contrib big_nil. Qed.
Lemma contrib_cons k a v evs : contrib k ((a, v) :: evs) = (if a == k then v else 0) + contrib k evs.
Proof. by rewrite /contrib big_cons /=; case: eqP => //; rewrite add0r. Qed.
Lemma contrib_cat k e1 e2 : contrib k (e1 ++ e2) = contrib k e1 + contrib k e2.
Proof. by rewrite /contrib big_cat. Qed.
Lemma contrib_loop k n (evs : nat -> seq (nat * R)) :
  contrib k (flatten [seq evs i | i <- iota 0 n]) = \sum_(i < n) contrib k (evs i).
Proof. exact: sum_flatten_iota. Qed.
Lemma nth_contrib s evs k : (k < size s)%N -> nth 0 (accumulate s evs) k = nth 0 s k + contrib k evs.
Proof. exact: nth_accumulate_in. Qed.
End Flat.

Section Nested.
Variable R : ringType.
Implicit Types (t : seq (seq R)) (evs : seq (nat * nat * R)).
Definition get2 t f j : R := nth 0 (nth [::] t f) j.
(** All rows have length w. *)
Definition rect (h w : nat) t : Prop := size t = h /\ forall f, (f < h)%N -> size (nth [::] t f) = w.
Definition acc2 t evs : seq (seq R) := foldl (fun t e => add_at2 t e.1.1 e.1.2 e.2) t evs.

Lemma rect_add h w t f j v : rect h w t -> rect h w (add_at2 t f j v).
Proof.
move=> [h1 h2]; split; rewrite ?size_upd // => g hg; rewrite nth_upd.
by case: ifP => [/andP[/eqP <- _]|_]; rewrite ?size_add_at h2.
Qed.
Lemma get2_add h w t f j v g k : rect h w t -> (g < h)%N -> (k < w)%N ->
  get2 (add_at2 t f j v) g k = get2 t g k + (if (f, j) == (g, k) then v else 0).
Proof.
move=> [h1 h2] hg hk; rewrite /get2 /add_at2 nth_upd h1 xpair_eqE.
case: (g =P f) => [<-|/eqP hne] /=; last by rewrite eq_sym (negbTE hne) addr0.
by rewrite hg eqxx nth_add_at h2 // [j == k]eq_sym; case: eqP => [<-|]; rewrite ?hk ?addr0.
Qed.
Lemma rect_acc h w t evs : rect h w t -> rect h w (acc2 t evs).
Proof. by elim: evs t => //= e evs IH t ht; apply: IH; exact: rect_add. Qed.

Definition contrib2 f j evs : R := \sum_(e <- evs | e.1 == (f, j)) e.2.
Lemma contrib2_nil f j : contrib2 f j [::] = 0. Proof. by rewrite /contrib2 big_nil. Qed.
Lemma contrib2_cons f j a v evs :
  contrib2 f j ((a, v) :: evs) = (if a == (f, j) then v else 0) + contrib2 f j evs.
Proof. by rewrite /contrib2 big_cons /=; case: eqP => //; rewrite add0r. Qed.
Lemma contrib2_loop f j n (evs : nat -> seq (nat * nat * R)) :
  contrib2 f j (flatten [seq evs i | i <- iota 0 n]) = \sum_(i < n) contrib2 f j (evs i).
Proof.
rewrite /contrib2 big_flatten big_map -(big_mkord xpredT (fun i => \sum_(e <- evs i | e.1 == (f, j)) e.2)).
by rewrite /index_iota subn0.
Qed.
Lemma get2_acc h w t evs f j : rect h w t -> (f < h)%N -> (j < w)%N ->
  get2 (acc2 t evs) f j = get2 t f j + contrib2 f j evs.
Proof.
move=> ht hf hj; elim: evs t ht => [|[[a c] v] evs IH] t ht /=; first by rewrite contrib2_nil addr0.
rewrite IH ?contrib2_cons; last exact: rect_add.
by rewrite (get2_add _ _ _ ht) // addrA.
Qed.
Lemma acc2_cat t e1 e2 : acc2 t (e1 ++ e2) = acc2 (acc2 t e1) e2.
Proof. exact: foldl_cat. Qed.
Lemma for_acc2 n (body : nat -> seq (seq R) -> seq (seq R)) (evs : nat -> seq (nat * nat * R)) t :
  (forall i t, (i < n)%N -> body i t = acc2 t (evs i)) ->
  for_ n body t = acc2 t (flatten [seq evs i | i <- iota 0 n]).
Proof.
elim: n t => [//|n IH] t h; rewrite for_S h // IH => [|i s hi]; last by apply: h; lia.
by rewrite -(addn1 n) iotaD map_cat flatten_cat acc2_cat /= cats0.
Qed.
Lemma rect_nseq h w : rect h w (nseq h (nseq w (0 : R))).
Proof. by split; rewrite ?size_nseq // => f hf; rewrite nth_nseq hf size_nseq. Qed.
Lemma get2_nseq h w f j : get2 (nseq h (nseq w (0 : R))) f j = 0.
Proof. by rewrite /get2 nth_nseq; case: ifP => _; rewrite ?nth_nil // nth_nseq if_same. Qed.
End Nested.

(** Block positions. *)
Lemma block_inj w d i e j : (i < w)%N -> (j < w)%N -> (d * w + i == e * w + j)%N = (d == e) && (i == j).
Proof.
move=> hi hj; apply/eqP/andP => [h|[/eqP -> /eqP ->] //].
have w0 : (0 < w)%N by lia.
have hd : d = e by have := congr1 (divn^~ w) h; rewrite !divnMDl // !divn_small // !addn0.
by split; apply/eqP => //; move: h; rewrite hd; lia.
Qed.
Lemma loc_inj nr r c r' c' : (r < nr)%N -> (r' < nr)%N -> (loc nr r c == loc nr r' c') = (r == r') && (c == c').
Proof. by move=> h h'; rewrite /loc block_inj // andbC. Qed.
Lemma block_lt w D d i : (d < D)%N -> (i < w)%N -> (d * w + i < D * w)%N.
Proof.
move=> hd hi; have : (d.+1 * w <= D * w)%N by rewrite leq_mul2r hd orbT.
by rewrite mulSn; lia.
Qed.

Lemma sum_at1 (V : zmodType) n (G : nat -> V) i : (i < n)%N ->
  (forall k, (k < n)%N -> k != i -> G k = 0) -> \sum_(k < n) G k = G i.
Proof.
move=> hi h; rewrite (bigD1 (Ordinal hi)) //= big1 ?addr0 // => k hk.
by apply: h => //; move: hk; rewrite -val_eqE.
Qed.
Lemma sum_ord1 (V : zmodType) n (G : 'I_n -> V) (i : 'I_n) :
  (forall k : 'I_n, (k : nat) != i -> G k = 0) -> \sum_k G k = G i.
Proof. by move=> h; rewrite (bigD1 i) //= big1 ?addr0 // => k hk; apply: h. Qed.
