(** Proofs about the unit cube geometry: outer normals and the QR factors of the spanning vectors. *)
From mathcomp Require Import all_ssreflect all_algebra zify ring.
From Verif Require Import M_Base L_Base M_DenseLA S_DenseLA L_DenseLA M_Lapack S_Lapack L_Lapack M_Index
  S_Index L_Index M_Topology S_Topology L_Topology L_Topology2 M_Geometry S_Geometry L_Geometry L_Geometry2
  L_Geometry3 L_Geometry4.
Set Implicit Arguments. Unset Strict Implicit. Unset Printing Implicit Defensive.
Import Order.TTheory GRing.Theory Num.Theory.
Local Open Scope ring_scope.

(** *** Numbers that are not in a list *)
Section Skip.
Variable dirs : seq nat.
Local Notation rest h m := [seq x <- iota h m | x \notin dirs].

Lemma rest_cons h m x s : rest h m = x :: s ->
  exists k, [/\ x = (h + k)%N, (k < m)%N, x \notin dirs, (forall j, (j < k)%N -> (h + j)%N \in dirs)
    & s = rest x.+1 (h + m - x.+1)].
Proof.
elim: m h => [//|m IH] h /=; case: ifP => hh.
  by move=> [<- <-]; exists 0%N; split=> //; [rewrite addn0 | congr filter; congr iota; lia].
move=> /IH [k [-> hk hx hj es]]; exists k.+1; split=> //; first by rewrite addnS.
  move=> [|j] h2; first by rewrite addn0; move: hh; case: (h \in dirs).
  by rewrite addnS -addSn; apply: hj.
by rewrite es; congr filter; congr iota; lia.
Qed.

Lemma skip_dirsE fuel h k : (k < fuel)%N -> (forall j, (j < k)%N -> (h + j)%N \in dirs) ->
  (h + k)%N \notin dirs -> skip_dirs dirs fuel h = (h + k)%N.
Proof.
elim: fuel h k => [//|fuel IH] h [|k] hk hj hn /=.
  by rewrite addn0 in hn *; rewrite (negbTE hn).
have := hj 0%N isT; rewrite addn0 => ->; rewrite (IH _ k) ?addSnnS // => j h2.
by rewrite addSnnS; apply: hj.
Qed.
Lemma skip_rest h m x s : uniq dirs -> rest h m = x :: s -> skip_dirs dirs (size dirs).+1 h = x.
Proof.
move=> hu /rest_cons [k [-> _ hn hj _]]; apply: skip_dirsE => //.
have sub : {subset iota h k <= dirs}.
  by move=> j; rewrite mem_iota => /andP [h1 h2]; have := hj (j - h)%N; rewrite subnKC //; apply; lia.
by rewrite ltnS -(size_iota h k); apply: uniq_leq_size => //; exact: iota_uniq.
Qed.

Lemma outer_loopE goal fuel cnt dim : (cnt < goal)%N -> (goal - cnt <= size (rest dim fuel))%N ->
  outer_loop dirs goal fuel cnt dim = Ok (nth 0%N (rest dim fuel) (goal - cnt).-1).+1.
Proof.
elim: fuel cnt dim => [|fuel IH] cnt dim h1 /=; first by rewrite leqn0 subn_eq0 leqNgt h1.
rewrite h1; case: ifP => hd hs; last by rewrite IH.
case: (ltnP cnt.+1 goal) => h2.
  rewrite IH //; last by move: hs => /=; lia.
  by have -> : (goal - cnt).-1 = (goal - cnt.+1).-1.+1 by lia.
have -> : goal = cnt.+1 by lia.
rewrite subSn // subnn /=; case: (fuel) => [|f] /=; by rewrite ltnn.
Qed.
End Skip.

Section Cell.
Variable F : realFieldType.
Variables (dims : seq nat) (c : cell).
Hypothesis hpos : all (fun n => (0 < n)%N) dims.
Let n := size dims.
Hypothesis hc : size c = n.
Let d := n_along c.
Let g := hgeo_of F dims c.
Let dirs := along_dirs c.

Lemma across_rest : across_dirs c = [seq x <- iota 0 n | x \notin dirs].
Proof.
rewrite /across_dirs hc; apply: eq_in_filter => i; rewrite mem_iota add0n => /= hi.
by rewrite mem_along_dirs hc hi.
Qed.
Lemma size_across_dirs : size (across_dirs c) = (n - d)%N.
Proof. by have := size_across c; rewrite acrossE size_map hc. Qed.
Lemma d_le : (d <= n)%N. Proof. by rewrite -hc n_along_le. Qed.

Lemma outer_normalE i : (i < n - d)%N -> uc_outer_normal g i =
  Ok (mkseq (fun k => (k == nth 0%N (across_dirs c) i)%:R) n).
Proof.
move=> hi; rewrite /uc_outer_normal g_nE g_dE -/d hi.
have hs : (i < size (across_dirs c))%N by rewrite size_across_dirs.
rewrite outer_loopE //; last by rewrite -across_rest subn0.
rewrite subn0 -across_rest /=; congr Ok.
have ha : (nth 0%N (across_dirs c) i < n)%N.
  by have := mem_nth 0%N hs; rewrite mem_filter mem_iota add0n hc => /andP [].
apply: (@eq_from_nth _ 0); rewrite size_upd size_nseq muln1 ?size_mkseq // => k hk.
rewrite nth_upd size_nseq muln1 nth_nseq muln1 hk nth_mkseq // ha andbT.
by case: eqP.
Qed.

(** The columns of [mat_q] are the unit vectors of these directions. *)
Definition q_dirs : seq nat := dirs ++ across_dirs c.
Lemma size_q_dirs : size q_dirs = n.
Proof. by rewrite size_cat size_along_dirs size_across_dirs subnKC // d_le. Qed.
Lemma q_dirs_uniq : uniq q_dirs.
Proof.
rewrite cat_uniq along_dirs_uniq across_rest filter_uniq ?iota_uniq // andbT /=.
by apply/hasPn => x; rewrite mem_filter => /andP [].
Qed.
Lemma q_dirs_lt j : (j < n)%N -> (nth 0%N q_dirs j < n)%N.
Proof.
move=> hj; have : nth 0%N q_dirs j \in q_dirs by rewrite mem_nth // size_q_dirs.
rewrite mem_cat mem_along_dirs hc => /orP [/andP [] //|].
by rewrite across_rest mem_filter mem_iota => /andP [].
Qed.

Definition unit_upto m (q : seq F) : Prop := is_mat n n q /\
  forall i j, (i < n)%N -> (j < n)%N -> mget n q i j = ((j < m)%N && (i == nth 0%N q_dirs j))%:R.
Lemma unit_step m (q : seq F) : (m < n)%N -> unit_upto m q -> unit_upto m.+1 (mset n q (nth 0%N q_dirs m) m 1).
Proof.
move=> hm [hq h]; split; first exact: is_mat_mset.
move=> i j hi hj; rewrite (mget_mset _ hq) // ?q_dirs_lt // h // ltnS.
by case: (ltngtP j m) => [h1|h1|->]; rewrite ?andbF ?andbT //=; case: eqP.
Qed.
Lemma mat_qE : unit_upto n (uc_mat_q g).
Proof.
rewrite /uc_mat_q g_nE g_dE -/d -/n.
set q0 := for_ _ _ _.
have H0 : unit_upto d q0.
  suff H m : (m <= d)%N -> unit_upto m (for_ m (fun i q => mset n q (nth 0%N (g_dirs g) i) i 1) (zeros F n n)).
    exact: H.
  elim: m => [|m IH] hm; first by split=> [|i j _ _]; [exact: size_nseq | rewrite mget_zeros].
  rewrite for_S; have -> : nth 0%N (g_dirs g) m = nth 0%N q_dirs m by rewrite nth_cat size_along_dirs -/d hm.
  by apply: unit_step; [exact: leq_trans hm d_le | exact: IH (ltnW hm)].
have sk : forall h m x s, [seq y <- iota h m | y \notin dirs] = x :: s ->
    skip_dirs (g_dirs g) (size (g_dirs g)).+1 h = x by move=> h m x s; exact: skip_rest (along_dirs_uniq c).
move: (skip_dirs _ _) sk => skip sk.
suff H m t q h : (d + t + m = n)%N -> unit_upto (d + t) q -> (h <= n)%N ->
    [seq x <- iota h (n - h) | x \notin dirs] = drop t (across_dirs c) ->
    unit_upto n (foldl (fun (st : seq F * nat) index =>
      (mset n st.1 (skip st.2) index 1, (skip st.2).+1)) (q, h) (iota (d + t) m)).1.
  have := H (n - d)%N 0%N q0 0%N; rewrite !addn0 subnKC ?d_le // subn0 drop0 => H1; apply: H1 => //.
  by rewrite across_rest.
elim: m t q h => [|m IH] t q h et hq hh hr /=; first by rewrite -et addn0.
have ht : (t < size (across_dirs c))%N by rewrite size_across_dirs; lia.
rewrite (drop_nth 0%N ht) in hr.
rewrite (sk _ _ _ _ hr).
have [k [ex hk _ _ es]] := rest_cons hr.
have hx : (nth 0%N (across_dirs c) t < n)%N by rewrite ex; lia.
rewrite -addnS; apply: IH; [by lia | | exact: hx | ].
  have -> : nth 0%N (across_dirs c) t = nth 0%N q_dirs (d + t).
    by rewrite nth_cat size_along_dirs -/d ltnNge leq_addr /= addKn.
  by rewrite addnS; apply: unit_step => //; lia.
by rewrite es subnKC.
Qed.

Lemma mat_q_orth : (mx_of n n (uc_mat_q g))^T *m mx_of n n (uc_mat_q g) = 1%:M.
Proof.
have [_ H] := mat_qE; apply/matrixP => i j; rewrite !mxE.
have hi := ltn_ord i; rewrite (bigD1 (Ordinal (q_dirs_lt hi))) //= big1 ?addr0.
  rewrite !mxE -!/(mget n _ _ _) !H ?q_dirs_lt // !ltn_ord /= eqxx mul1r.
  by rewrite nth_uniq ?size_q_dirs ?q_dirs_uniq.
move=> k; rewrite -val_eqE /= => /negbTE hk.
by rewrite !mxE -!/(mget n _ _ _) !H // ltn_ord /= hk mul0r.
Qed.
(** QR decomposition of the matrix of the spanning vectors. *)
Lemma mat_qr j v : (j < d)%N -> uc_span_vec g j = Ok v ->
  forall i, (i < n)%N -> v`_i = \sum_(k < d) mget n (uc_mat_q g) i k * mget d (uc_mat_r g) k j.
Proof.
move=> hj; rewrite (uc_span_vecE F hc) // => -[<-] i hi; rewrite nth_mkseq //.
have hdn := d_le; have [_ H] := mat_qE.
rewrite (bigD1 (Ordinal hj)) //= big1 ?addr0.
  rewrite H ?(leq_trans hj) // nth_cat size_along_dirs -/d hj.
  rewrite /uc_mat_r /diagonal_vec g_dE -/d mget_diag ?minnn // eqxx hj /= (charE F) //.
  by case: eqP => [->|]; rewrite ?mul1r ?mul0r.
move=> k; rewrite -val_eqE /= => /negbTE hk.
by rewrite /uc_mat_r /diagonal_vec g_dE -/d mget_diag ?minnn // hk mulr0.
Qed.
Lemma outer_normal_col i v : (i < n - d)%N -> uc_outer_normal g i = Ok v ->
  size v = n /\ forall k, (k < n)%N -> v`_k = mget n (uc_mat_q g) k (d + i).
Proof.
move=> hi; rewrite outer_normalE // => -[<-]; split=> [|k hk]; first by rewrite size_mkseq.
have [_ H] := mat_qE; have hdn := d_le; rewrite nth_mkseq // H //; last by lia.
have -> /= : (d + i < n)%N by lia.
by rewrite nth_cat size_along_dirs -/d ltnNge leq_addr /= addKn.
Qed.
Lemma outer_normal_total i : (i < n - d)%N -> exists v, uc_outer_normal g i = Ok v.
Proof. by move=> hi; rewrite outer_normalE //; eexists. Qed.
End Cell.
