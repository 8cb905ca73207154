(** Proofs about M_DenseLA. *)
From mathcomp Require Import all_ssreflect all_algebra zify ring.
From Verif Require Import M_Base L_Base M_DenseLA S_DenseLA.
Set Implicit Arguments. Unset Strict Implicit. Unset Printing Implicit Defensive.
Import Order.TTheory GRing.Theory Num.Theory.
Local Open Scope ring_scope.

Lemma loc_lt nr nc i j : (i < nr)%N -> (j < nc)%N -> (loc nr i j < nr * nc)%N.
Proof. by rewrite /loc => hi hj; nia. Qed.

Lemma loc_checkedE nr nc i j k :
  (loc_checked nr nc i j = Ok k <-> [/\ (i < nr)%N, (j < nc)%N & k = loc nr i j])
  /\ (loc_checked nr nc i j = Abort <-> ~ ((i < nr)%N /\ (j < nc)%N)).
Proof.
rewrite /loc_checked; case: (boolP (i < nr)%N) => hi; case: (boolP (j < nc)%N) => hj /=;
  split; split => //; try (by case); try (by move=> h; case: h).
all: try (by move=> [<-]).
all: try (by move=> [_ _ ->]).
all: by move=> _ [].
Qed.

Lemma loc_inj nr i j i' j' : (i < nr)%N -> (i' < nr)%N ->
  loc nr i j = loc nr i' j' -> i = i' /\ j = j'.
Proof.
rewrite /loc => hi hi' e.
have ej : j = j'.
  have := congr1 (fun x => x %/ nr)%N e.
  by rewrite !divnMDl ?(divn_small hi) ?(divn_small hi') ?addn0 //; lia.
by split => //; subst j'; move: e; lia.
Qed.

Lemma loc_surj nr nc k : (k < nr * nc)%N ->
  exists i j, [/\ (i < nr)%N, (j < nc)%N & k = loc nr i j].
Proof.
move=> hk; have hnr : (0 < nr)%N by lia.
exists (k %% nr)%N, (k %/ nr)%N; split; rewrite ?ltn_mod //.
- by rewrite ltn_divLR // mulnC.
- exact: divn_eq.
Qed.

Section Ring.
Variable R : ringType.
Implicit Types (n nr nc ncl ncr nco nv ra ca rb cb i j col : nat) (M A B : seq R) (c : R).

Lemma mx_ofE nr nc M (i : 'I_nr) (j : 'I_nc) : mx_of nr nc M i j = mget nr M i j.
Proof. by rewrite mxE. Qed.

Lemma size_filled nr nc (v : R) : size (filled nr nc v) = (nr * nc)%N.
Proof. by rewrite size_nseq. Qed.

Lemma nth_zeros nr nc k : nth 0 (zeros R nr nc) k = 0.
Proof. by rewrite /zeros /filled nth_nseq; case: ifP. Qed.

Lemma mget_zeros nr nc nr' i j : mget nr' (zeros R nr nc) i j = 0.
Proof. exact: nth_zeros. Qed.

(** C01 *)
Lemma mget_mset nr nc M i j i' j' v : is_mat nr nc M ->
  (i < nr)%N -> (j < nc)%N -> (i' < nr)%N -> (j' < nc)%N ->
  mget nr (mset nr M i j v) i' j' = if (i' == i) && (j' == j) then v else mget nr M i' j'.
Proof.
move=> hM hi hj hi' hj'; rewrite /mget /mset nth_upd hM loc_lt // andbT.
have -> : (loc nr i' j' == loc nr i j) = (i' == i) && (j' == j).
  by apply/eqP/andP => [/loc_inj [] // -> ->|[/eqP -> /eqP ->]].
by [].
Qed.

Lemma size_get_column nr M col : size (get_column nr M col) = nr.
Proof. by rewrite /get_column (@size_for_assign _ _ id) size_filled muln1. Qed.

Lemma get_columnE nr M col i : (i < nr)%N -> nth 0 (get_column nr M col) i = mget nr M i col.
Proof.
move=> hi; rewrite /get_column (@nth_for_assign_in _ 0 nr id (fun i _ => mget nr M i col)) //.
by rewrite size_filled muln1.
Qed.

Lemma size_set_column nr M col v : size (set_column nr M col v) = size M.
Proof. by rewrite /set_column /mset size_for_assign. Qed.

Lemma mget_set_column nr nc M col v i j : is_mat nr nc M ->
  (col < nc)%N -> (i < nr)%N -> (j < nc)%N ->
  mget nr (set_column nr M col v) i j = if j == col then nth 0 v i else mget nr M i j.
Proof.
move=> hM hc hi hj; rewrite /set_column /mset.
case: eqP => [->|hne].
  rewrite /mget (@nth_for_assign_in _ 0 nr (fun i => loc nr i col) (fun i _ => nth 0 v i)) //.
    by move=> p q hp hq /loc_inj [].
  by rewrite hM loc_lt.
rewrite /mget (@nth_for_assign_out _ 0 nr (fun i => loc nr i col) (fun i _ => nth 0 v i)) //.
by move=> p hp; apply/eqP => /loc_inj [] // *; apply: hne.
Qed.

(** == and != *)
Lemma mat_eqP n A B : reflect (forall k, (k < n)%N -> nth 0 A k = nth 0 B k) (mat_eq n A B).
Proof.
rewrite /mat_eq; have -> : eq_loop A B (iota 0 n) = all (fun i => nth 0 A i == nth 0 B i) (iota 0 n).
  by elim: (iota 0 n) => //= i l ->; case: eqP.
apply: (iffP allP) => h k.
  by move=> hk; apply/eqP/h; rewrite mem_iota.
by rewrite mem_iota /= => hk; apply/eqP/h.
Qed.

Lemma mat_neE n A B : mat_ne n A B = ~~ mat_eq n A B.
Proof.
rewrite /mat_ne /mat_eq; elim: (iota 0 n) => //= i l IH.
by rewrite if_neg; case: ifP => _ //; rewrite IH.
Qed.

(** Scalar operations *)
Lemma size_pointwise n (f : nat -> seq R -> R) M :
  size (for_ n (fun i m => upd m i (f i m)) M) = size M.
Proof. exact: size_for_upd. Qed.

Lemma nth_adds n M c k : (n <= size M)%N ->
  nth 0 (adds n M c) k = if (k < n)%N then nth 0 M k + c else nth 0 M k.
Proof. by move=> h; rewrite /adds (@nth_for_upd _ 0 n (fun _ x => x + c)). Qed.
Lemma nth_subs n M c k : (n <= size M)%N ->
  nth 0 (subs n M c) k = if (k < n)%N then nth 0 M k - c else nth 0 M k.
Proof. by move=> h; rewrite /subs (@nth_for_upd _ 0 n (fun _ x => x - c)). Qed.
Lemma nth_muls n M c k : (n <= size M)%N ->
  nth 0 (muls n M c) k = if (k < n)%N then nth 0 M k * c else nth 0 M k.
Proof. by move=> h; rewrite /muls (@nth_for_upd _ 0 n (fun _ x => x * c)). Qed.
Lemma nth_hada_eq n M A k : (n <= size M)%N ->
  nth 0 (hada_eq n M A) k = if (k < n)%N then nth 0 M k * nth 0 A k else nth 0 M k.
Proof. by move=> h; rewrite /hada_eq (@nth_for_upd _ 0 n (fun i x => x * nth 0 A i)). Qed.

Lemma mx_adds nr nc M c : is_mat nr nc M ->
  mx_of nr nc (adds (nr * nc) M c) = mx_of nr nc M + const_mx c.
Proof.
move=> hM; apply/matrixP => i j; rewrite !mxE nth_adds ?hM // -/(loc _ _ _).
by rewrite loc_lt.
Qed.
Lemma mx_subs nr nc M c : is_mat nr nc M ->
  mx_of nr nc (subs (nr * nc) M c) = mx_of nr nc M - const_mx c.
Proof.
move=> hM; apply/matrixP => i j; rewrite !mxE nth_subs ?hM // -/(loc _ _ _).
by rewrite loc_lt.
Qed.
Lemma mx_muls nr nc M c : is_mat nr nc M ->
  mx_of nr nc (muls (nr * nc) M c) = map_mx (fun x => x * c) (mx_of nr nc M).
Proof.
move=> hM; apply/matrixP => i j; rewrite !mxE nth_muls ?hM // -/(loc _ _ _).
by rewrite loc_lt.
Qed.
Lemma mx_scal_minus nr nc M c : is_mat nr nc M ->
  mx_of nr nc (scal_minus (nr * nc) c M) = const_mx c - mx_of nr nc M.
Proof.
move=> hM; apply/matrixP => i j; rewrite !mxE -/(loc _ _ _) /scal_minus.
rewrite (@nth_for_assign_in _ 0 (nr * nc) id (fun i _ => c - nth 0 M i)) //; last rewrite hM.
all: exact: loc_lt.
Qed.
Lemma mx_hada nr nc M A : is_mat nr nc M ->
  mx_of nr nc (hada_eq (nr * nc) M A) = \matrix_(i, j) (mx_of nr nc M i j * mx_of nr nc A i j).
Proof.
move=> hM; apply/matrixP => i j; rewrite !mxE nth_hada_eq ?hM // -/(loc _ _ _).
by rewrite loc_lt.
Qed.

(** += and -= *)
Lemma size_add_eq nr nc nco M A : size (add_eq nr nc nco M A) = size M.
Proof.
rewrite /add_eq; case: ifP => _; first exact: size_for_upd.
by rewrite /mset /mget (size_for2_assign 0 nr (fun i j => loc nr i j) (fun i j x => x + nth 0 A i)).
Qed.
Lemma size_sub_eq nr nc nco M A : size (sub_eq nr nc nco M A) = size M.
Proof.
rewrite /sub_eq; case: ifP => _; first exact: size_for_upd.
by rewrite /mset /mget (size_for2_assign 0 nr (fun i j => loc nr i j) (fun i j x => x - nth 0 A i)).
Qed.

Lemma mget_add_eq_same nr nc M A i j : is_mat nr nc M -> (i < nr)%N -> (j < nc)%N ->
  mget nr (add_eq nr nc nc M A) i j = mget nr M i j + mget nr A i j.
Proof.
move=> hM hi hj; rewrite /add_eq eqxx /mget (@nth_for_upd _ 0 _ (fun i x => x + nth 0 A i)) ?hM //.
by rewrite loc_lt.
Qed.
Lemma mget_sub_eq_same nr nc M A i j : is_mat nr nc M -> (i < nr)%N -> (j < nc)%N ->
  mget nr (sub_eq nr nc nc M A) i j = mget nr M i j - mget nr A i j.
Proof.
move=> hM hi hj; rewrite /sub_eq eqxx /mget (@nth_for_upd _ 0 _ (fun i x => x - nth 0 A i)) ?hM //.
by rewrite loc_lt.
Qed.
Lemma mget_add_eq_vec nr nc M A i j : is_mat nr nc M -> (i < nr)%N -> (j < nc)%N ->
  mget nr (add_eq nr nc 1 M A) i j = mget nr M i j + nth 0 A i.
Proof.
move=> hM hi hj; rewrite /add_eq; case: eqP => [e|_].
  subst nc; rewrite /mget (@nth_for_upd _ 0 _ (fun i x => x + nth 0 A i)) ?hM //.
  by rewrite loc_lt // /loc; have -> : j = 0%N by lia.
rewrite /mget /mset (@nth_for2_assign_in _ 0 nr (fun i j => loc nr i j) (fun i j x => x + nth 0 A i)) //.
  by move=> p q p' q' hp _ hp' _ /loc_inj [].
by rewrite hM loc_lt.
Qed.
Lemma mget_sub_eq_vec nr nc M A i j : is_mat nr nc M -> (i < nr)%N -> (j < nc)%N ->
  mget nr (sub_eq nr nc 1 M A) i j = mget nr M i j - nth 0 A i.
Proof.
move=> hM hi hj; rewrite /sub_eq; case: eqP => [e|_].
  subst nc; rewrite /mget (@nth_for_upd _ 0 _ (fun i x => x - nth 0 A i)) ?hM //.
  by rewrite loc_lt // /loc; have -> : j = 0%N by lia.
rewrite /mget /mset (@nth_for2_assign_in _ 0 nr (fun i j => loc nr i j) (fun i j x => x - nth 0 A i)) //.
  by move=> p q p' q' hp _ hp' _ /loc_inj [].
by rewrite hM loc_lt.
Qed.

Lemma mget_col nr (v : seq R) i : mget nr v i 0 = nth 0 v i.
Proof. by []. Qed.

(** operator+ / operator- in the three accepted shapes *)
Lemma mx_mat_add nr nc A B : is_mat nr nc A ->
  mx_of nr nc (mat_add nr nc nc A B) = mx_of nr nc A + mx_of nr nc B.
Proof.
by move=> hA; apply/matrixP => i j; rewrite /mat_add eqxx !mxE -!/(mget _ _ _ _) mget_add_eq_same.
Qed.
Lemma mx_mat_add_right nr nc A v : is_mat nr nc A ->
  mx_of nr nc (mat_add nr nc 1 A v) = mx_of nr nc A + all_cols nc (mx_of nr 1 v).
Proof.
by move=> hA; apply/matrixP => i j; rewrite /mat_add orbT !mxE -!/(mget _ _ _ _) mget_add_eq_vec.
Qed.
Lemma mx_mat_add_left nr nc v A : is_mat nr 1 v -> is_mat nr nc A ->
  mx_of nr nc (mat_add nr 1 nc v A) = all_cols nc (mx_of nr 1 v) + mx_of nr nc A.
Proof.
move=> hv hA; apply/matrixP => i j; rewrite /mat_add [1%N == nc]eq_sym orbb.
case: eqP => [e|hne]; rewrite !mxE -!/(mget _ _ _ _).
  by subst nc; rewrite mget_add_eq_same //; move: (ltn_ord j); case: (nat_of_ord j).
by rewrite mget_add_eq_vec // addrC.
Qed.
Lemma mx_mat_sub nr nc A B : is_mat nr nc A ->
  mx_of nr nc (mat_sub nr nc nc A B) = mx_of nr nc A - mx_of nr nc B.
Proof.
by move=> hA; apply/matrixP => i j; rewrite /mat_sub eqxx !mxE -!/(mget _ _ _ _) mget_sub_eq_same.
Qed.
Lemma mx_mat_sub_right nr nc A v : is_mat nr nc A ->
  mx_of nr nc (mat_sub nr nc 1 A v) = mx_of nr nc A - all_cols nc (mx_of nr 1 v).
Proof.
by move=> hA; apply/matrixP => i j; rewrite /mat_sub orbT !mxE -!/(mget _ _ _ _) mget_sub_eq_vec.
Qed.

Lemma set_columns nr nc n (f : nat -> seq R) M : is_mat nr nc M -> (n <= nc)%N ->
  is_mat nr nc (for_ n (fun i m => set_column nr m i (f i)) M) /\
  forall i j, (i < nr)%N -> (j < nc)%N ->
  mget nr (for_ n (fun i m => set_column nr m i (f i)) M) i j =
  if (j < n)%N then nth 0 (f j) i else mget nr M i j.
Proof.
move=> hM; elim: n => [|n IH] hn; first by [].
have [|hs IHn] := IH _; first by lia.
rewrite for_S; split; first by rewrite /is_mat size_set_column.
move=> i j hi hj; rewrite (mget_set_column (nc := nc)) //.
case: (eqVneq j n) => [->|hne]; first by rewrite ltnSn.
by rewrite IHn // ltnS; have -> : (j <= n)%N = (j < n)%N by lia.
Qed.

Lemma mx_mat_sub_left nr nc v A : is_mat nr 1 v -> is_mat nr nc A ->
  mx_of nr nc (mat_sub nr 1 nc v A) = all_cols nc (mx_of nr 1 v) - mx_of nr nc A.
Proof.
move=> hv hA; apply/matrixP => i j; rewrite /mat_sub [1%N == nc]eq_sym orbb.
case: eqP => [e|hne]; rewrite !mxE -!/(mget _ _ _ _).
  by subst nc; rewrite mget_sub_eq_same //; move: (ltn_ord j); case: (nat_of_ord j).
have [_ ->] := @set_columns nr nc nc (fun i => sub_eq nr 1 1 v (get_column nr A i))
                 (zeros R nr nc) (size_filled nr nc 0) (leqnn nc); rewrite ?ltn_ord //.
by rewrite -[X in X = _](mget_col nr) mget_sub_eq_same // !mget_col get_columnE // !mxE.
Qed.

(** Special matrices *)
Lemma mget_diag nr nc n (f : nat -> R) i j : (n <= minn nr nc)%N -> (i < nr)%N -> (j < nc)%N ->
  mget nr (for_ n (fun i m => mset nr m i i (f i)) (zeros R nr nc)) i j =
  if (i == j) && (i < n)%N then f i else 0.
Proof.
move=> hn hi hj; rewrite /mset /mget.
case: ifP => [/andP[/eqP <- hin]|h].
  rewrite (@nth_for_assign_in _ 0 n (fun i => loc nr i i) (fun i _ => f i)) //.
    by move=> p q hp hq /loc_inj [] //; lia.
  by rewrite size_filled loc_lt //; lia.
rewrite (@nth_for_assign_out _ 0 n (fun i => loc nr i i) (fun i _ => f i)) ?nth_zeros //.
move=> p hp; apply/eqP => /loc_inj [] //; first by lia.
by move=> *; subst; move: h; rewrite eqxx hp.
Qed.

Lemma mx_diagonal nr nc c : mx_of nr nc (diagonal nr nc c) = \matrix_(i, j) (c *+ (i == j :> nat)).
Proof.
apply/matrixP => i j; rewrite mx_ofE mxE mget_diag //.
case: eqP => [e|] //=; rewrite leq_min ltn_ord /= {1}e ltn_ord //.
Qed.
Lemma mx_unit n : mx_of n n (diagonal n n 1) = 1%:M :> 'M[R]_n.
Proof. by rewrite mx_diagonal; apply/matrixP => i j; rewrite !mxE. Qed.
Lemma mx_diagonal_vec nr nc nv (d : seq R) : (nv <= minn nr nc)%N ->
  mx_of nr nc (diagonal_vec nr nc nv d) =
  \matrix_(i, j) (if (i == j :> nat) && (i < nv)%N then nth 0 d i else 0).
Proof. by move=> h; apply/matrixP => i j; rewrite mx_ofE mxE mget_diag. Qed.

Lemma mget_rep_mat nr nc (v : seq R) i j : (i < nr)%N -> (j < nc)%N ->
  mget nr (rep_mat nr nc v) i j = nth 0 v i.
Proof.
move=> hi hj; rewrite /rep_mat /mget /mset.
rewrite (@nth_for2_assign_in _ 0 nr (fun i j => loc nr i j) (fun i j _ => nth 0 v i)) //.
  by move=> p q p' q' hp _ hp' _ /loc_inj [].
by rewrite size_filled loc_lt.
Qed.
Lemma mx_rep_mat nr nc (v : seq R) : mx_of nr nc (rep_mat nr nc v) = all_cols nc (mx_of nr 1 v).
Proof. by apply/matrixP => i j; rewrite mx_ofE mget_rep_mat // !mxE. Qed.
Lemma mx_dyadic nr nc (l r : seq R) :
  mx_of nr nc (dyadic_product nr nc l r) = mx_of nr 1 l *m (mx_of nc 1 r)^T.
Proof.
apply/matrixP => i j; rewrite mx_ofE /dyadic_product /mget /mset.
rewrite (@nth_for2_assign_in _ 0 nr (fun i j => loc nr i j) (fun i j _ => nth 0 l i * nth 0 r j)) //.
- by rewrite !mxE big_ord1 !mxE.
- by move=> p q p' q' hp _ hp' _ /loc_inj [].
- by rewrite size_filled loc_lt.
Qed.
Lemma mx_transposed nr nc M : mx_of nc nr (transposed nr nc M) = (mx_of nr nc M)^T.
Proof.
apply/matrixP => j i; rewrite mx_ofE /transposed /mget /mset.
rewrite (@nth_for2_assign_in _ 0 nr (fun i j => loc nc j i) (fun i j _ => nth 0 M (loc nr i j))) //.
- by rewrite !mxE.
- by move=> p q p' q' hp hq hp' hq' /loc_inj [].
- by rewrite size_filled loc_lt.
Qed.
Lemma scalar_productE n A B : scalar_product n A B = \sum_(k < n) nth 0 A k * nth 0 B k.
Proof.
rewrite /scalar_product; elim: n => [|n IH]; first by rewrite big_ord0.
by rewrite for_S IH big_ord_recr.
Qed.
Lemma entries_productE n A : entries_product n A = \prod_(k < n) nth 0 A k.
Proof.
rewrite /entries_product; elim: n => [|n IH]; first by rewrite big_ord0.
by rewrite for_S IH big_ord_recr.
Qed.

(** Products: a triple loop of [+=] statements *)
Lemma for3_accumulate n1 n2 n3 (a : nat -> nat -> nat -> nat) (v : nat -> nat -> nat -> R) s :
  for_ n1 (fun x m => for_ n2 (fun y m => for_ n3 (fun z m => add_at m (a x y z) (v x y z)) m) m) s =
  accumulate s (flatten [seq flatten [seq flatten [seq [:: (a x y z, v x y z)] | z <- iota 0 n3]
     | y <- iota 0 n2] | x <- iota 0 n1]).
Proof.
rewrite -for_accumulate; apply: eq_for => x t _.
rewrite -for_accumulate; apply: eq_for => y u _.
by rewrite -for_accumulate; apply: eq_for.
Qed.

Lemma nth_for3 n1 n2 n3 (a : nat -> nat -> nat -> nat) (v : nat -> nat -> nat -> R) s k :
  (k < size s)%N ->
  nth 0 (for_ n1 (fun x m => for_ n2 (fun y m => for_ n3 (fun z m =>
           add_at m (a x y z) (v x y z)) m) m) s) k =
  nth 0 s k + \sum_(x < n1) \sum_(y < n2) \sum_(z < n3) (if a x y z == k then v x y z else 0).
Proof.
move=> hk; rewrite for3_accumulate nth_accumulate_in // sum_flatten_iota; congr (_ + _).
apply: eq_bigr => x _; rewrite sum_flatten_iota; apply: eq_bigr => y _.
rewrite sum_flatten_iota; apply: eq_bigr => z _.
by rewrite big_cons big_nil /=; case: ifP; rewrite ?addr0.
Qed.

Lemma size_for3 n1 n2 n3 (a : nat -> nat -> nat -> nat) (v : nat -> nat -> nat -> R) s :
  size (for_ n1 (fun x m => for_ n2 (fun y m => for_ n3 (fun z m =>
           add_at m (a x y z) (v x y z)) m) m) s) = size s.
Proof. by rewrite for3_accumulate size_accumulate. Qed.

Lemma sum_pick n (f : nat -> R) (i : nat) : (i < n)%N ->
  \sum_(x < n) (if (x : nat) == i then f x else 0) = f i.
Proof.
move=> hi; rewrite (bigD1 (Ordinal hi)) //= eqxx big1 ?addr0 // => x /eqP hx.
by case: eqP => // e; case: hx; apply: val_inj.
Qed.

Lemma loc_eq nr i j i' j' : (i < nr)%N -> (i' < nr)%N ->
  (loc nr i j == loc nr i' j') = (i == i') && (j == j').
Proof. by move=> hi hi'; apply/eqP/andP => [/loc_inj [] // -> ->|[/eqP -> /eqP ->]]. Qed.

Lemma mget_mat_mul ra ca cb A B i j : (i < ra)%N -> (j < cb)%N ->
  mget ra (mat_mul ra ca cb A B) i j = \sum_(k < ca) mget ra A i k * mget ca B k j.
Proof.
move=> hi hj; rewrite /mat_mul {1}/mget nth_for3 ?size_filled ?loc_lt // nth_zeros add0r.
rewrite -[RHS](@sum_pick cb (fun x => \sum_(k < ca) mget ra A i k * mget ca B k x) j hj).
apply: eq_bigr => x _; case: eqP => [->|/eqP hx].
  apply: eq_bigr => y _; rewrite -[RHS](@sum_pick ra (fun z => mget ra A z y * mget ca B y j) i hi).
  by apply: eq_bigr => z _; rewrite loc_eq // eqxx andbT.
by rewrite big1 // => y _; rewrite big1 // => z _; rewrite loc_eq // (negbTE hx) andbF.
Qed.
Lemma size_mat_mul ra ca cb A B : size (mat_mul ra ca cb A B) = (ra * cb)%N.
Proof. by rewrite size_for3 size_filled. Qed.

Lemma mx_mat_mul ra ca cb A B :
  mx_of ra cb (mat_mul ra ca cb A B) = mx_of ra ca A *m mx_of ca cb B.
Proof.
by apply/matrixP => i j; rewrite mx_ofE mget_mat_mul // mxE; apply: eq_bigr => k _; rewrite !mx_ofE.
Qed.

Lemma mget_mat_mul_unfit ra ca rb cb A B i j : (i < ra)%N -> (j < cb)%N ->
  mget ra (mat_mul_unfit ra ca rb cb A B) i j = \sum_(k < minn ca rb) mget ra A i k * mget rb B k j.
Proof.
move=> hi hj; rewrite /mat_mul_unfit {1}/mget nth_for3 ?size_filled ?loc_lt // nth_zeros add0r.
rewrite -[RHS](@sum_pick cb (fun x => \sum_(k < minn ca rb) mget ra A i k * mget rb B k x) j hj).
apply: eq_bigr => x _; case: eqP => [->|/eqP hx].
  apply: eq_bigr => y _; rewrite -[RHS](@sum_pick ra (fun z => mget ra A z y * mget rb B y j) i hi).
  by apply: eq_bigr => z _; rewrite loc_eq // eqxx andbT.
by rewrite big1 // => y _; rewrite big1 // => z _; rewrite loc_eq // (negbTE hx) andbF.
Qed.

Lemma mx_transposed_mat_times_mat ra ca cb A B :
  mx_of ca cb (transposed_mat_times_mat ra ca cb A B) = (mx_of ra ca A)^T *m mx_of ra cb B.
Proof.
apply/matrixP => i j; rewrite mx_ofE /transposed_mat_times_mat {1}/mget.
rewrite nth_for3 ?size_filled ?loc_lt // nth_zeros add0r mxE.
transitivity (\sum_(x < cb) (if x == j :> nat then \sum_(z < ra) mget ra A z i * mget ra B z x else 0)).
  apply: eq_bigr => x _; case: eqP => [->|/eqP hx].
    rewrite -[RHS](@sum_pick ca (fun y => \sum_(z < ra) mget ra A z y * mget ra B z j) i) //.
    apply: eq_bigr => y _; rewrite loc_eq // eqxx andbT.
    by case: eqP => [->|] //; rewrite big1.
  by rewrite big1 // => y _; rewrite big1 // => z _; rewrite loc_eq // (negbTE hx) andbF.
rewrite (@sum_pick cb (fun x => \sum_(z < ra) mget ra A z i * mget ra B z x) j) //.
by apply: eq_bigr => k _; rewrite !mxE.
Qed.

(** What mat_times_transposed_mat really computes: entry (i, j) is sum_k A(k,i) B(j,k). *)
Lemma mx_mat_times_transposed_mat n rb A B :
  mx_of n rb (mat_times_transposed_mat n n rb A B) = (mx_of n n A)^T *m (mx_of rb n B)^T :> 'M[R]_(n, rb).
Proof.
apply/matrixP => i j; rewrite mx_ofE /mat_times_transposed_mat {1}/mget.
rewrite nth_for3 ?size_filled ?loc_lt // nth_zeros add0r mxE.
transitivity (\sum_(x < rb) (if x == j :> nat then \sum_(z < n) mget n A z i * mget rb B x z else 0)).
  apply: eq_bigr => x _; case: eqP => [->|/eqP hx].
    rewrite -[RHS](@sum_pick n (fun y => \sum_(z < n) mget n A z y * mget rb B j z) i) //.
    apply: eq_bigr => y _; rewrite loc_eq // eqxx andbT.
    by case: eqP => [->|] //; rewrite big1.
  by rewrite big1 // => y _; rewrite big1 // => z _; rewrite loc_eq // (negbTE hx) andbF.
rewrite (@sum_pick rb (fun x => \sum_(z < n) mget n A z i * mget rb B x z) j) //.
by apply: eq_bigr => k _; rewrite !mxE.
Qed.
End Ring.

(** Division *)
Section Field.
Variable F : fieldType.
Implicit Types (n nr nc : nat) (M O : seq F) (c : F).

Lemma divs_eq_throw n M c : (divs_eq n M c).1 = (c == 0).
Proof. by rewrite /divs_eq; case: ifP. Qed.
Lemma divs_eq_unchanged n M c : (divs_eq n M c).1 -> (divs_eq n M c).2 = M.
Proof. by rewrite /divs_eq; case: ifP. Qed.
Lemma divs_eqE n M c k : (n <= size M)%N -> c != 0 ->
  nth 0 (divs_eq n M c).2 k = if (k < n)%N then nth 0 M k / c else nth 0 M k.
Proof.
by move=> hn hc; rewrite /divs_eq (negbTE hc) (@nth_for_upd _ 0 n (fun _ x => x / c)).
Qed.

(** The entry-wise division: what has happened up to the first zero divisor. *)
Lemma hada_div_loopE M O b m :
  (b + m <= size M)%N ->
  (hada_div_loop M O (iota b m)).1 = has (fun i => nth 0%R O i == 0%R) (iota b m) /\
  size (hada_div_loop M O (iota b m)).2 = size M /\
  forall k, nth 0 (hada_div_loop M O (iota b m)).2 k =
    if (b <= k < b + find (fun i => nth 0%R O i == 0%R) (iota b m))%N
    then nth 0 M k / nth 0 O k else nth 0 M k.
Proof.
elim: m b M => [|m IH] b M hs /=.
  by split => //; split => // k; case: ifP => //; lia.
case: ifP => [h0|h0] /=.
  by split => //; split => // k; case: ifP => //; lia.
have [|h1 [h2 h3]] := IH b.+1 (upd M b (nth 0 M b / nth 0 O b)) _.
  by rewrite size_upd; lia.
split => //; split; first by rewrite h2 size_upd.
move=> k; rewrite h3 !nth_upd.
have -> : (b < size M)%N by lia.
rewrite andbT addSnnS; case: (eqVneq k b) => [->|hne].
  by rewrite ltnn /= leqnn addnS ltnS leq_addr.
by have -> : (b < k)%N = (b <= k)%N by lia.
Qed.

Lemma hada_div_eqE n M O : (n <= size M)%N ->
  (hada_div_eq n M O).1 = has (fun i => nth 0%R O i == 0%R) (iota 0 n) /\
  forall k, nth 0 (hada_div_eq n M O).2 k =
    if (k < find (fun i => nth 0%R O i == 0%R) (iota 0 n))%N
    then nth 0 M k / nth 0 O k else nth 0 M k.
Proof. by move=> h; have [|? [_ ?]] := @hada_div_loopE M O 0 n. Qed.

Lemma hada_divi_ok n M O : (n <= size M)%N ->
  (forall k, (k < n)%N -> nth 0 O k != 0) ->
  exists q, hada_divi n M O = Ok q /\ size q = size M /\
    forall k, (k < n)%N -> nth 0 q k = nth 0 M k / nth 0 O k.
Proof.
move=> hn hO; have [|h1 [h2 h3]] := @hada_div_loopE M O 0 n; first by lia.
rewrite /hada_divi /hada_div_eq; case: (hada_div_loop M O (iota 0 n)) h1 h2 h3 => t q /= h1 h2 h3.
have hh : has (fun i => nth 0%R O i == 0%R) (iota 0 n) = false.
  by apply/hasP => -[k]; rewrite mem_iota /= => hk; apply/negP/hO.
rewrite h1 hh; exists q; split=> //; split=> // k hk; rewrite h3.
by have := hasNfind (negbT hh); rewrite size_iota => ->; rewrite hk.
Qed.

Lemma hada_divi_throw n M O : (n <= size M)%N ->
  (exists k, (k < n)%N /\ nth 0 O k = 0) -> hada_divi n M O = Throw.
Proof.
move=> hn [k [hk h0]]; have [h1 _] := hada_div_eqE O hn.
rewrite /hada_divi; case: (hada_div_eq n M O) h1 => t q /= ->.
have -> // : has (fun i => nth 0%R O i == 0%R) (iota 0 n).
by apply/hasP; exists k; rewrite ?mem_iota ?h0.
Qed.
End Field.

(** Order *)
Section Ordered.
Variable F : realDomainType.
Implicit Types (n nr nc : nat) (A B C M : seq F).

(** Lexicographic order, stated independently: at the first difference A is smaller. *)
Lemma lt_loopP A B b m : reflect
  (exists k, [/\ (b <= k < b + m)%N, (forall p, (b <= p < k)%N -> nth 0 A p = nth 0 B p)
                                    & nth 0 A k < nth 0 B k])
  (lt_loop A B (iota b m)).
Proof.
elim: m b => [|m IH] b /=.
  by constructor => -[k []]; lia.
case: (ltgtP (nth 0 A b) (nth 0 B b)) => h.
- by constructor; exists b; split => // [|p]; lia.
- constructor => -[k [hk hp hl]].
  have [e|hne] := eqVneq k b; first by subst; have := lt_trans h hl; rewrite ltxx.
  by have := hp b; rewrite leqnn /= => e; move: h; rewrite e ?ltxx //; lia.
- apply: (iffP (IH b.+1)) => -[k [hk hp hl]]; exists k; split => //.
  + by lia.
  + by move=> p hpk; have [->//|hne] := eqVneq p b; apply: hp; lia.
  + by have [e|hne] := eqVneq k b; [subst; move: hl; rewrite h ltxx|lia].
  + by move=> p hpk; apply: hp; lia.
Qed.

Lemma mat_ltP n A B : reflect
  (exists k, [/\ (k < n)%N, (forall p, (p < k)%N -> nth 0 A p = nth 0 B p) & nth 0 A k < nth 0 B k])
  (mat_lt n A B).
Proof.
rewrite /mat_lt; by apply: (iffP (lt_loopP A B 0 n)) => -[k [hk hp hl]]; exists k; split.
Qed.

Lemma mat_lt_irr n A : ~~ mat_lt n A A.
Proof. by apply/mat_ltP => -[k [_ _]]; rewrite ltxx. Qed.

Lemma mat_lt_trans n B A C : mat_lt n A B -> mat_lt n B C -> mat_lt n A C.
Proof.
move=> /mat_ltP[k [hk hp hl]] /mat_ltP[k' [hk' hp' hl']]; apply/mat_ltP.
have [h|h|e] := ltngtP k k'.
- by exists k; split => //; [move=> p hpk; rewrite hp // hp' //; lia | rewrite -hp'].
- by exists k'; split => //; [move=> p hpk; rewrite hp ?hp' //; lia | rewrite hp].
- subst k'; exists k; split => //; first by move=> p hpk; rewrite hp // hp'.
  exact: lt_trans hl hl'.
Qed.

Lemma mat_lt_total n A B : [|| mat_lt n A B, mat_eq n A B | mat_lt n B A].
Proof.
rewrite /mat_lt /mat_eq; elim: (iota 0 n) => [//|i l IH] /=.
by case: ltgtP.
Qed.

Lemma mat_lt_asym n A B : mat_lt n A B -> ~~ mat_lt n B A.
Proof. by move=> h; apply/negP => h'; have := mat_lt_trans h h'; rewrite (negbTE (mat_lt_irr _ _)). Qed.

Lemma mat_lt_neq n A B : mat_lt n A B -> ~~ mat_eq n A B.
Proof. by move=> /mat_ltP[k [hk _ hl]]; apply/mat_eqP => /(_ k hk) e; move: hl; rewrite e ltxx. Qed.

(** Norms *)
Lemma for_sum n (f : nat -> F) : for_ n (fun i s => s + f i) 0 = \sum_(i < n) f i.
Proof. by elim: n => [|n IH]; rewrite ?big_ord0 // for_S IH big_ord_recr. Qed.

Lemma for_max n (f : nat -> F) : (forall i, 0 <= f i) ->
  let m := for_ n (fun i mx => if mx < f i then f i else mx) 0 in
  [/\ 0 <= m, forall i, (i < n)%N -> f i <= m & (0 < n)%N -> exists2 i, (i < n)%N & m = f i].
Proof.
move=> hf; elim: n => [|n [h0 h1 h2]] //; rewrite for_S.
set m := for_ n _ 0 in h0 h1 h2 *; case: ltP => h; split => //.
- by move=> i; rewrite ltnS leq_eqVlt => /orP[/eqP ->//|/h1 hi]; apply: le_trans hi (ltW h).
- by exists n.
- by move=> i; rewrite ltnS leq_eqVlt => /orP[/eqP ->//|/h1 hi].
- move=> _; case: (posnP n) => [e|/h2 [i hi hm]]; last by exists i => //; lia.
  exists n => //; apply/eqP; rewrite eq_le h andbT; subst n; exact: hf.
Qed.

Lemma norm_1_mat nr nc M : nc != 1%N ->
  let N := norm_1 nr nc M in
  [/\ 0 <= N, forall j : 'I_nc, \sum_i `|mx_of nr nc M i j| <= N
   & (0 < nc)%N -> exists j : 'I_nc, N = \sum_i `|mx_of nr nc M i j|].
Proof.
move=> h1; rewrite /norm_1 (negbTE h1).
pose f j := \sum_(i < nr) `|mget nr M i j|.
have -> : for_ nc (fun col mx => let nrm := for_ nr (fun row s => s + `|mget nr M row col|) 0 in
            if mx < nrm then nrm else mx) 0 = for_ nc (fun i mx => if mx < f i then f i else mx) 0.
  by apply: eq_for => j s _ /=; rewrite (for_sum nr (fun i => `|mget nr M i j|)).
have [|a b c] := @for_max nc f; first by move=> j; apply: sumr_ge0.
split => //.
- by move=> j; apply: le_trans (b j _) => //; rewrite le_eqVlt; apply/orP; left; apply/eqP;
     apply: eq_bigr => i _; rewrite mx_ofE.
- by move=> /c [j hj ->]; exists (Ordinal hj); apply: eq_bigr => i _; rewrite mx_ofE.
Qed.

Lemma norm_infty_mat nr nc M : nc != 1%N ->
  let N := norm_infty nr nc M in
  [/\ 0 <= N, forall i : 'I_nr, \sum_j `|mx_of nr nc M i j| <= N
   & (0 < nr)%N -> exists i : 'I_nr, N = \sum_j `|mx_of nr nc M i j|].
Proof.
move=> h1; rewrite /norm_infty (negbTE h1).
pose f i := \sum_(j < nc) `|mget nr M i j|.
have -> : for_ nr (fun row mx => let nrm := for_ nc (fun col s => s + `|mget nr M row col|) 0 in
            if mx < nrm then nrm else mx) 0 = for_ nr (fun i mx => if mx < f i then f i else mx) 0.
  by apply: eq_for => j s _ /=; rewrite (for_sum nc (fun i => `|mget nr M j i|)).
have [|a b c] := @for_max nr f; first by move=> j; apply: sumr_ge0.
split => //.
- by move=> j; apply: le_trans (b j _) => //; rewrite le_eqVlt; apply/orP; left; apply/eqP;
     apply: eq_bigr => i _; rewrite mx_ofE.
- by move=> /c [j hj ->]; exists (Ordinal hj); apply: eq_bigr => i _; rewrite mx_ofE.
Qed.

Lemma norm_1_vec nr M : norm_1 nr 1 M = \sum_(i < nr) `|nth 0 M i|.
Proof. by rewrite /norm_1 eqxx (for_sum nr (fun i => `|nth 0 M i|)). Qed.

Lemma norm_infty_vec nr M : (0 < nr)%N ->
  (forall i, (i < nr)%N -> `|nth 0 M i| <= norm_infty nr 1 M) /\
  exists2 i, (i < nr)%N & norm_infty nr 1 M = `|nth 0 M i|.
Proof.
move=> h; rewrite /norm_infty eqxx muln1.
suff H n : let m := foldl (fun s i => Num.max s `|nth 0 M i|) `|nth 0 M 0| (iota 1 n) in
   (forall i, (i < n.+1)%N -> `|nth 0 M i| <= m) /\ exists2 i, (i < n.+1)%N & m = `|nth 0 M i|.
  by have := H (nr - 1)%N; have -> : (nr - 1).+1 = nr by lia.
elim: n => [|n [IH1 [i0 hi0 IH2]]].
  by split => [[]//|]; exists 0%N.
rewrite -(addn1 n) iotaD foldl_cat [iota _ 1]/= add1n /=; split.
- by move=> i; rewrite addn1 ltnS leq_eqVlt le_maxr => /orP[/eqP ->|/IH1 ->//]; rewrite lexx orbT.
- rewrite IH2; case: (leP `|nth 0 M n.+1| `|nth 0 M i0|) => h'.
    by exists i0; [lia|].
  by exists n.+1; [lia|].
Qed.
End Ordered.

Section Rcf.
Variable F : rcfType.
Lemma norm_2E nr (M : seq F) :
  0 <= norm_2 nr M /\ norm_2 nr M ^+ 2 = \sum_(i < nr) nth 0 M i ^+ 2.
Proof.
rewrite /norm_2 scalar_productE; split; first exact: sqrtr_ge0.
rewrite sqr_sqrtr; first by apply: eq_bigr => i _; rewrite expr2.
by apply: sumr_ge0 => i _; rewrite -expr2 sqr_ge0.
Qed.
End Rcf.

Section FieldBinary.
Variable F : fieldType.
Lemma mx_mat_div_scal nr nc (M : seq F) c : is_mat nr nc M -> c != 0 ->
  exists q, mat_div_scal (nr * nc) M c = Ok q /\ mx_of nr nc q = c^-1 *: mx_of nr nc M.
Proof.
move=> hM hc; exists (divs_eq (nr * nc) M c).2; split.
  by rewrite /mat_div_scal /divs_eq (negbTE hc).
apply/matrixP => i j; rewrite !mxE -!/(loc _ _ _) divs_eqE ?hM // loc_lt // mulrC //.
Qed.
Lemma mat_div_scal_zero n (M : seq F) : mat_div_scal n M 0 = Throw.
Proof. by rewrite /mat_div_scal /divs_eq eqxx. Qed.

Lemma scal_div_loopE c (M q : seq F) b m : size q = size M -> (b + m <= size M)%N ->
  (forall k, (b <= k < b + m)%N -> nth 0 M k != 0) ->
  exists r, scal_div_loop c M q (iota b m) = Ok r /\
  forall k, nth 0 r k = if (b <= k < b + m)%N then c / nth 0 M k else nth 0 q k.
Proof.
elim: m b q => [|m IH] b q hq hs hn /=.
  by exists q; split => // k; case: ifP => //; lia.
rewrite (negbTE (hn b _)); last by lia.
have [|||r [-> hr]] := IH b.+1 (upd q b (c / nth 0 M b)).
- by rewrite size_upd.
- by lia.
- by move=> k hk; apply: hn; lia.
exists r; split => // k; rewrite hr nth_upd hq.
have -> : (b < size M)%N by lia.
rewrite andbT addSnnS; case: (eqVneq k b) => [->|hne].
  by rewrite ltnn /= leqnn addnS ltnS leq_addr.
by have -> : (b < k)%N = (b <= k)%N by lia.
Qed.

Lemma scal_divE nr nc c (M : seq F) : is_mat nr nc M ->
  (forall i j, mx_of nr nc M i j != 0) ->
  exists r, scal_div (nr * nc) c M = Ok r /\ mx_of nr nc r = \matrix_(i, j) (c / mx_of nr nc M i j).
Proof.
move=> hM h0; rewrite /scal_div; have [|||r [-> hr]] := @scal_div_loopE c M M 0 (nr * nc) => //; first by rewrite hM.
  move=> k /andP[_]; rewrite add0n => /loc_surj [i [j [hi hj ->]]].
  by have := h0 (Ordinal hi) (Ordinal hj); rewrite mxE.
exists r; split => //; apply/matrixP => i j; rewrite !mxE hr -/(loc _ _ _) add0n loc_lt //.
Qed.

Lemma scal_div_loop_zero c (M q : seq F) l :
  has (fun k => nth 0 M k == 0) l -> scal_div_loop c M q l = Throw.
Proof. by elim: l q => //= i l IH q; case: ifP => //= _ h; apply: IH. Qed.
Lemma scal_div_zero n c (M : seq F) k : (k < n)%N -> nth 0 M k = 0 -> scal_div n c M = Throw.
Proof.
by move=> hk h0; apply: scal_div_loop_zero; apply/hasP; exists k; rewrite ?mem_iota ?h0.
Qed.
End FieldBinary.

Lemma mx_muls_comm (R : comRingType) nr nc (M : seq R) c : is_mat nr nc M ->
  mx_of nr nc (muls (nr * nc) M c) = c *: mx_of nr nc M.
Proof. by move=> hM; rewrite mx_muls //; apply/matrixP => i j; rewrite !mxE mulrC. Qed.

Lemma sum_loc (V : zmodType) nr nc (f : nat -> V) :
  \sum_(k < nr * nc) f k = \sum_(j < nc) \sum_(i < nr) f (loc nr i j).
Proof.
elim: nc => [|nc IH]; first by rewrite muln0 !big_ord0.
rewrite big_ord_recr -IH mulnS addnC big_split_ord /=; congr (_ + _).
by apply: eq_bigr => i _; rewrite /loc mulnC.
Qed.

Lemma scalar_product_mx (R : ringType) nr nc (A B : seq R) :
  scalar_product (nr * nc) A B = \sum_j \sum_i mx_of nr nc A i j * mx_of nr nc B i j.
Proof.
rewrite scalar_productE (sum_loc nr nc (fun k => nth 0 A k * nth 0 B k)).
by apply: eq_bigr => j _; apply: eq_bigr => i _; rewrite !mxE.
Qed.

Section Statements.
Variable R : ringType.
Lemma is_mat_mset nr nc (M : seq R) i j v : is_mat nr nc M -> is_mat nr nc (mset nr M i j v).
Proof. by rewrite /is_mat /mset size_upd. Qed.
Lemma mx_get_column nr nc (M : seq R) (k : 'I_nc) :
  mx_of nr 1 (get_column nr M k) = col k (mx_of nr nc M).
Proof.
by apply/matrixP => i j; rewrite mx_ofE [j]ord1 /mget /loc mul0n add0n get_columnE // !mxE.
Qed.
Lemma mx_set_column nr nc (M : seq R) (k : 'I_nc) v : is_mat nr nc M ->
  is_mat nr nc (set_column nr M k v) /\
  mx_of nr nc (set_column nr M k v) =
    \matrix_(i, j) (if j == k then mx_of nr 1 v i 0 else mx_of nr nc M i j).
Proof.
move=> hM; split; first by rewrite /is_mat size_set_column.
apply/matrixP => i j; rewrite mx_ofE mxE (mget_set_column _ hM) // mx_ofE.
by rewrite -(inj_eq val_inj); case: ifP => // _; rewrite mxE.
Qed.
Lemma is_mat_add_eq nr nc nco (M : seq R) A : is_mat nr nc M -> is_mat nr nc (add_eq nr nc nco M A).
Proof. by rewrite /is_mat size_add_eq. Qed.
Lemma mx_add_eq nr nc (M : seq R) A : is_mat nr nc M ->
  mx_of nr nc (add_eq nr nc nc M A) = mx_of nr nc M + mx_of nr nc A.
Proof. by move=> hM; apply/matrixP => i j; rewrite mx_ofE mget_add_eq_same // !mxE. Qed.
Lemma mx_sub_eq nr nc (M : seq R) A : is_mat nr nc M ->
  mx_of nr nc (sub_eq nr nc nc M A) = mx_of nr nc M - mx_of nr nc A.
Proof. by move=> hM; apply/matrixP => i j; rewrite mx_ofE mget_sub_eq_same // !mxE. Qed.
Lemma mx_add_eq_vec nr nc (M : seq R) v : is_mat nr nc M ->
  mx_of nr nc (add_eq nr nc 1 M v) = mx_of nr nc M + all_cols nc (mx_of nr 1 v).
Proof. by move=> hM; apply/matrixP => i j; rewrite mx_ofE mget_add_eq_vec // !mxE. Qed.
Lemma mx_sub_eq_vec nr nc (M : seq R) v : is_mat nr nc M ->
  mx_of nr nc (sub_eq nr nc 1 M v) = mx_of nr nc M - all_cols nc (mx_of nr 1 v).
Proof. by move=> hM; apply/matrixP => i j; rewrite mx_ofE mget_sub_eq_vec // !mxE. Qed.
End Statements.

Lemma cross_product_orth (R : comRingType) (l r : seq R) :
  scalar_product 3 l (cross_product l r) = 0 /\ scalar_product 3 r (cross_product l r) = 0.
Proof.
by rewrite !scalar_productE !big_ord_recr !big_ord0 /=; split; ring.
Qed.

Lemma mat_lt_trichotomy (F : realDomainType) n (A B : seq F) :
  ((mat_lt n A B : nat) + (mat_eq n A B : nat) + (mat_lt n B A : nat))%N = 1%N.
Proof.
have := mat_lt_total n A B.
have h1 := @mat_lt_neq F n A B; have h2 := @mat_lt_neq F n B A; have h3 := @mat_lt_asym F n A B.
have h4 : mat_eq n A B -> mat_eq n B A.
  by move=> /mat_eqP h; apply/mat_eqP => k hk; rewrite h.
move: h1 h2 h3 h4; case: (mat_lt n A B); case: (mat_eq n A B); case: (mat_lt n B A); case: (mat_eq n B A) => //= h1 h2 h3 h4 _.
all: try by have := h1 isT. all: try by have := h2 isT. all: try by have := h3 isT.
all: by have := h4 isT.
Qed.

Lemma mx_mat_times_transposed_mat_comm (R : comRingType) n rb (A B : seq R) :
  mx_of n rb (mat_times_transposed_mat n n rb A B) = (mx_of rb n B *m mx_of n n A)^T.
Proof. by rewrite mx_mat_times_transposed_mat trmx_mul. Qed.
Lemma mat_times_transposed_mat_sym (R : comRingType) n rb (A B : seq R) :
  (mx_of n n A)^T = mx_of n n A ->
  mx_of n rb (mat_times_transposed_mat n n rb A B) = mx_of n n A *m (mx_of rb n B)^T.
Proof. by move=> h; rewrite mx_mat_times_transposed_mat h. Qed.
Lemma mat_times_transposed_mat_wrong : exists A B : seq int, is_mat 2 2 A /\ is_mat 2 2 B /\
  mx_of 2 2 (mat_times_transposed_mat 2 2 2 A B) <> mx_of 2 2 A *m (mx_of 2 2 B)^T.
Proof.
exists [:: 0; 1; 0; 0], [:: 1; 0; 0; 1]; split=> //; split=> //.
move=> /matrixP /(_ 0 1); rewrite !mxE !big_ord_recr big_ord0 /= !mxE /=.
by vm_compute.
Qed.
Lemma divs_eq_fails (F : fieldType) n (M : seq F) c :
  ((divs_eq n M c).1 = (c == 0)) /\ ((divs_eq n M c).1 -> (divs_eq n M c).2 = M).
Proof. by split; [exact: divs_eq_throw|exact: divs_eq_unchanged]. Qed.
Lemma hada_div_damage : exists M O : seq rat,
  size M = 2%N /\ size O = 2%N /\ (hada_div_eq 2 M O).1 /\ (hada_div_eq 2 M O).2 <> M.
Proof. by exists [:: 1; 1], [:: 2%:R; 0]; vm_compute. Qed.
