(** Lemmas about loops and array updates. *)
From mathcomp Require Import all_ssreflect all_algebra zify.
From Verif Require Import M_Base.
Set Implicit Arguments. Unset Strict Implicit. Unset Printing Implicit Defensive.
Import GRing.Theory.

Lemma size_upd T (s : seq T) i v : size (upd s i v) = size s.
Proof. by rewrite /upd; case: ltnP => // h; rewrite size_set_nth; apply/maxn_idPr. Qed.

Lemma nth_upd T (x0 : T) s i v k :
  nth x0 (upd s i v) k = if (k == i) && (i < size s) then v else nth x0 s k.
Proof.
rewrite /upd; case: ltnP => h; rewrite ?andbT ?andbF //.
case: (ltnP k (size s)) => hk.
  rewrite (set_nth_default v) ?nth_set_nth /=; last by rewrite size_set_nth leq_max hk orbT.
  by case: eqP => // _; apply: set_nth_default.
have -> : (k == i) = false by apply/eqP; lia.
rewrite !nth_default //; rewrite size_set_nth; have /maxn_idPr -> // : i.+1 <= size s by [].
Qed.

Lemma for_0 S body (s : S) : for_ 0 body s = s. Proof. by []. Qed.
Lemma for_S S n body (s : S) : for_ n.+1 body s = body n (for_ n body s).
Proof. by rewrite /for_ -addn1 iotaD foldl_cat. Qed.

Lemma for_inv S (P : nat -> S -> Prop) n body (s : S) :
  P 0 s -> (forall i s, i < n -> P i s -> P i.+1 (body i s)) -> P n (for_ n body s).
Proof.
move=> h0 hS; elim: n hS => [//|n IH] hS; rewrite for_S; apply: (hS n) => //.
by apply: IH => i t hi; apply: hS; lia.
Qed.

Lemma eq_for S n b1 b2 (s : S) :
  (forall i s, i < n -> b1 i s = b2 i s) -> for_ n b1 s = for_ n b2 s.
Proof.
elim: n => [//|n IH] h; rewrite !for_S IH ?h // => i t hi; apply: h; lia.
Qed.

(** A loop that updates every element once, reading only that element. *)
Lemma size_for_upd T n (f : nat -> seq T -> T) s :
  size (for_ n (fun i s => upd s i (f i s)) s) = size s.
Proof. by elim: n => [//|n IH]; rewrite for_S size_upd. Qed.

Lemma nth_for_upd T (x0 : T) n (g : nat -> T -> T) s k : n <= size s ->
  nth x0 (for_ n (fun i s => upd s i (g i (nth x0 s i))) s) k =
  if k < n then g k (nth x0 s k) else nth x0 s k.
Proof.
elim: n k => [//|n IH] k h; rewrite for_S nth_upd size_for_upd.
have -> : n < size s by [].
rewrite andbT ltnS; case: eqP => [->|hk]; first by rewrite leqnn IH ?ltnn //; lia.
rewrite IH; last by lia.
by have -> : (k <= n) = (k < n) by lia.
Qed.

Section Acc.
Variable R : ringType.
Implicit Types (s : seq R) (evs : seq (nat * R)).
Local Open Scope ring_scope.

Lemma size_add_at s i (v : R) : size (add_at s i v) = size s.
Proof. exact: size_upd. Qed.

Lemma nth_add_at s i (v : R) k :
  nth 0 (add_at s i v) k = nth 0 s k + (if (k == i) && (i < size s)%N then v else 0).
Proof. by rewrite nth_upd; case: ifP => [/andP[/eqP -> _]|_]; rewrite ?addr0. Qed.

Lemma accumulate_cat s e1 e2 : accumulate s (e1 ++ e2) = accumulate (accumulate s e1) e2.
Proof. exact: foldl_cat. Qed.

Lemma accumulate_rcons s e1 e : accumulate s (rcons e1 e) = add_at (accumulate s e1) e.1 e.2.
Proof. by rewrite /accumulate foldl_rcons. Qed.

Lemma size_accumulate s evs : size (accumulate s evs) = size s.
Proof. by elim/last_ind: evs => [//|evs e IH]; rewrite accumulate_rcons size_add_at. Qed.

Lemma nth_accumulate s evs k :
  nth 0 (accumulate s evs) k =
  nth 0 s k + \sum_(e <- evs | (e.1 == k) && (k < size s)%N) e.2.
Proof.
elim/last_ind: evs => [|evs e IH]; first by rewrite big_nil addr0.
rewrite accumulate_rcons nth_add_at size_accumulate IH -addrA; congr (_ + _).
rewrite -cats1 big_cat big_cons big_nil /=; congr (_ + _).
rewrite (eq_sym k); case: eqP => [<-|_] /=; last by [].
by case: ifP; rewrite ?addr0.
Qed.

Lemma nth_accumulate_in s evs k : (k < size s)%N ->
  nth 0 (accumulate s evs) k = nth 0 s k + \sum_(e <- evs | e.1 == k) e.2.
Proof. by move=> h; rewrite nth_accumulate h; under eq_bigl do rewrite andbT. Qed.

(** Nested loops of [+=] statements. *)
Lemma for_accumulate n (evs : nat -> seq (nat * R)) s :
  for_ n (fun i s => accumulate s (evs i)) s =
  accumulate s (flatten [seq evs i | i <- iota 0 n]).
Proof.
elim: n => [//|n IH]; rewrite for_S IH -(addn1 n) iotaD map_cat flatten_cat /= cats0.
by rewrite accumulate_cat.
Qed.

Lemma add_at_accumulate s i v : add_at s i v = accumulate s [:: (i, v)].
Proof. by []. Qed.

Lemma sum_flatten_iota n (evs : nat -> seq (nat * R)) (P : pred (nat * R)) :
  \sum_(e <- flatten [seq evs i | i <- iota 0 n] | P e) e.2 =
  \sum_(i < n) \sum_(e <- evs i | P e) e.2.
Proof.
rewrite big_flatten big_map -(big_mkord xpredT (fun i => \sum_(e <- evs i | P e) e.2)).
by rewrite /index_iota subn0.
Qed.
End Acc.

(** Loops of assignments to pairwise different places. *)
Section Assign.
Variables (T : Type) (x0 : T).
Implicit Types (s : seq T) (a : nat -> nat) (g : nat -> T -> T).

Lemma size_for_assign n a (f : nat -> seq T -> T) s :
  size (for_ n (fun i m => upd m (a i) (f i m)) s) = size s.
Proof. by elim: n => [//|n IH]; rewrite for_S size_upd. Qed.

Lemma nth_for_assign_out n a g s k : (forall i, i < n -> a i != k) ->
  nth x0 (for_ n (fun i m => upd m (a i) (g i (nth x0 m (a i)))) s) k = nth x0 s k.
Proof.
elim: n => [//|n IH] h; rewrite for_S nth_upd eq_sym (negbTE (h n _)) //=.
by apply: IH => i hi; apply: h; lia.
Qed.

Lemma nth_for_assign_in n a g s i :
  (forall i i', i < n -> i' < n -> a i = a i' -> i = i') -> i < n -> a i < size s ->
  nth x0 (for_ n (fun i m => upd m (a i) (g i (nth x0 m (a i)))) s) (a i) = g i (nth x0 s (a i)).
Proof.
elim: n => [//|n IH] inj hi hs; rewrite for_S nth_upd size_for_assign.
have [e|hne] := eqVneq i n.
  rewrite -e eqxx hs nth_for_assign_out // => j hj; apply/eqP => hj'.
  by have := inj j i _ _ hj'; lia.
have -> : (a i == a n) = false.
  by apply/eqP => e; have := inj i n _ _ e; lia.
rewrite IH //; last by lia.
by move=> p q hp hq; apply: inj; lia.
Qed.

Variables (m : nat) (b : nat -> nat -> nat) (h : nat -> nat -> T -> T).
Let body j s := for_ m (fun i s => upd s (b i j) (h i j (nth x0 s (b i j)))) s.

Lemma size_for2_assign n s : size (for_ n body s) = size s.
Proof. by elim: n => [//|k IH]; rewrite for_S size_for_assign. Qed.

Lemma nth_for2_assign_out n s k : (forall i j, i < m -> j < n -> b i j != k) ->
  nth x0 (for_ n body s) k = nth x0 s k.
Proof.
elim: n => [//|p IH] hk; rewrite for_S.
rewrite (@nth_for_assign_out m (b^~ p) (h^~ p)); last by move=> i hi; apply: hk.
by apply: IH => i j hi hj; apply: hk => //; lia.
Qed.

Lemma nth_for2_assign_in n s i j :
  (forall i j i' j', i < m -> j < n -> i' < m -> j' < n -> b i j = b i' j' -> i = i' /\ j = j') ->
  i < m -> j < n -> b i j < size s ->
  nth x0 (for_ n body s) (b i j) = h i j (nth x0 s (b i j)).
Proof.
elim: n => [//|p IH] inj hi hj hs; rewrite for_S.
have [e|hne] := eqVneq j p.
  subst p; rewrite (@nth_for_assign_in m (b^~ j) (h^~ j)) ?size_for2_assign //; last first.
    by move=> q q' hq hq' e; have [] := inj _ _ _ _ hq (ltnSn j) hq' (ltnSn j) e.
  rewrite nth_for2_assign_out // => i' j' hi' hj'; apply/eqP => e.
  by have := inj _ _ _ _ hi' _ hi hj e; lia.
rewrite (@nth_for_assign_out m (b^~ p) (h^~ p)) ?IH //.
- by move=> q r q' r' *; apply: inj => //; lia.
- by lia.
- move=> i' hi'; apply/eqP => e.
  by have := inj _ _ _ _ hi' (ltnSn p) hi hj e; lia.
Qed.
End Assign.

(** Loops whose bodies may fail *)
Lemma foldo_cat (S I : Type) (f : I -> S -> outcome S) s l1 l2 :
  foldo f s (l1 ++ l2) = obind (foldo f s l1) (fun s' => foldo f s' l2).
Proof. by elim: l1 s => //= i l IH s; case: (f i s). Qed.
Lemma foroS (S : Type) n (f : nat -> S -> outcome S) s :
  foro n.+1 f s = obind (foro n f s) (fun s' => f n s').
Proof.
rewrite /foro -addn1 iotaD foldo_cat /= add0n.
by case: (foldo _ _ _) => //= a; case: (f n a).
Qed.
Lemma foldo_pure (S I : Type) (f : I -> S -> outcome S) (g : I -> S -> S) (P : S -> Prop) s l :
  P s -> (forall i s, P s -> P (g i s)) -> (forall i s, P s -> List.In i l -> f i s = Ok (g i s)) ->
  foldo f s l = Ok (foldl (fun s i => g i s) s l).
Proof.
move=> h hg; elim: l s h => //= i l IH s h hf.
rewrite hf //=; last by left.
by apply: IH; [apply: hg | move=> j s' hs' hj; apply: hf => //; right].
Qed.
Lemma loadE (T : Type) (x0 : T) s i : load s i = if i < size s then Ok (nth x0 s i) else UB.
Proof.
rewrite /load; case: ltnP => h; first by rewrite (drop_nth x0 h).
by rewrite drop_oversize.
Qed.
