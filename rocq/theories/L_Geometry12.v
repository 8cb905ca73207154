(** Normals in the full space of hyperedges read from file. *)
From mathcomp Require Import all_ssreflect all_algebra zify.
From Verif Require Import M_Base L_Base M_DenseLA S_DenseLA L_DenseLA M_Lapack S_Lapack L_Lapack M_Topology
  M_Geometry L_Geometry8 L_Geometry9.
Set Implicit Arguments. Unset Strict Implicit. Unset Printing Implicit Defensive.
Import Order.TTheory GRing.Theory Num.Theory.
Local Open Scope ring_scope.

Section Normals.
Variable F : realFieldType.
Variable geqr2 : nat -> nat -> seq F -> qr_result F.
Variables (n d : nat) (trans mat : seq F) (T : linear F).
Hypothesis hT : linear_new geqr2 n d trans mat = Ok T.
Hypothesis hd : (0 < d <= n)%N.
Hypothesis hf : r_fits n d.
Hypothesis hok : qr_info (geqr2 n d mat) ->
  geqr2_ok n d mat (qr_fac (geqr2 n d mat)) (qr_tau (geqr2 n d mat)).

Let hP := linear_newP hT hd hf hok.

Lemma q_dot (l j : nat) : (l < n)%N -> (j < n)%N ->
  \sum_(k < n) (get_column n (l_q T) l)`_k * (get_column n (l_q T) j)`_k = (l == j)%:R.
Proof.
move=> hl hj; have [+ _ _ _] := hP => /matrixP /(_ (Ordinal hl) (Ordinal hj)); rewrite !mxE /= => <-.
by apply: eq_bigr => k _; rewrite !get_columnE // !mxE.
Qed.

Lemma q_col (l j : nat) : (l < n)%N -> (j < d)%N ->
  \sum_(k < n) (get_column n (l_q T) l)`_k * mget n mat k j =
  if (l < d)%N then mget d (l_r T) l j else 0.
Proof.
move=> hl hj; have [h1 h2 _ _] := hP.
have : (mx_of n n (l_q T))^T *m mx_of n d mat = zero_extended n d (l_r T).
  by rewrite -h2 mulmxA h1 mul1mx.
move=> /matrixP /(_ (Ordinal hl) (Ordinal hj)); rewrite !mxE /= => <-.
by apply: eq_bigr => k _; rewrite !get_columnE // !mxE.
Qed.

Let sg (i : nat) : F := if (i %% 2 == 1)%N then -1 else 1.
Lemma inner_normal_val i v : gf_inner_normal T i = Ok v ->
  [/\ (i %/ 2 < d)%N, size v = n & forall k, (k < n)%N -> v`_k = sg i * (get_column n (l_q T) (i %/ 2))`_k].
Proof.
have [en ed _ _] := linear_newE hT.
rewrite /gf_inner_normal /linear_inner_normal en ed; case: ifP => // hi; case: ifP => // hj /= [<-].
have hs (u : seq F) c : size (muls n u c) = size u by exact: size_pointwise.
split=> //; first by case: ifP => _; rewrite ?hs size_get_column.
move=> k hk; rewrite /sg; case: ifP => _; rewrite ?mul1r //.
by rewrite nth_muls ?size_get_column // hk mulrC.
Qed.

Lemma file_inner_normal i v : gf_inner_normal T i = Ok v ->
  [/\ size v = n, \sum_(k < n) v`_k * v`_k = 1
    & forall j, (j < i %/ 2)%N -> \sum_(k < n) v`_k * mget n mat k j = 0].
Proof.
move=> /inner_normal_val [hi hs hv]; have h2 : (i %/ 2 < n)%N by lia.
have es : sg i * sg i = 1 by rewrite /sg; case: ifP; rewrite ?mulrNN mulr1.
split=> //.
  rewrite -[RHS]es -[in RHS](mulr1 (_ * _)).
  have <- : (i %/ 2 == i %/ 2)%N%:R = 1 :> F by rewrite eqxx.
  rewrite -(q_dot h2 h2) mulr_sumr; apply: eq_bigr => k _.
  by rewrite !hv // mulrACA.
move=> j hj.
under eq_bigr do rewrite hv // -mulrA.
rewrite -mulr_sumr q_col //; last by lia.
rewrite hi; have [_ _ hR _] := hP.
have hjd : (j < d)%N by lia.
by have := hR (Ordinal hi) (Ordinal hjd) hj; rewrite mxE => h; rewrite /mget /loc h mulr0.
Qed.

Lemma file_inner_opp j v w : gf_inner_normal T (2 * j) = Ok v -> gf_inner_normal T (2 * j).+1 = Ok w ->
  forall k, w`_k = - v`_k.
Proof.
move=> /inner_normal_val [h1 h2 h3] /inner_normal_val [g1 g2 g3] k.
have e1 : ((2 * j).+1 %/ 2 = j)%N by lia.
have e2 : (2 * j %/ 2 = j)%N by lia.
have m1 : ((2 * j).+1 %% 2 = 1)%N by lia.
have m2 : (2 * j %% 2 = 0)%N by lia.
case: (ltnP k n) => hk; last by rewrite !nth_default ?h2 ?g2 ?oppr0.
by rewrite h3 // g3 // /sg e1 e2 m1 m2 /= mulN1r mul1r.
Qed.

Lemma file_outer_normal i : (i < n - d)%N -> exists v,
  [/\ gf_outer_normal T i = Ok v, size v = n, \sum_(k < n) v`_k * v`_k = 1,
      forall j, (j < d)%N -> \sum_(k < n) v`_k * mget n mat k j = 0
    & forall i' w, (i' < n - d)%N -> i' != i -> gf_outer_normal T i' = Ok w ->
      \sum_(k < n) v`_k * w`_k = 0].
Proof.
have [en ed _ _] := linear_newE hT; move=> hi.
have hl : (i + d < n)%N by lia.
exists (get_column n (l_q T) (i + d)); split.
- by rewrite /gf_outer_normal /linear_outer_normal en ed hi.
- by rewrite size_get_column.
- by rewrite q_dot // eqxx.
- move=> j hj; rewrite q_col //; have -> // : (i + d < d)%N = false by lia.
- move=> i' w hi' ne; rewrite /gf_outer_normal /linear_outer_normal en ed hi' => -[<-].
  by rewrite q_dot //; [have -> // : (i + d == i' + d)%N = false by lia | lia].
Qed.
End Normals.

(** Concrete hyperedges whose inner normals are not outward, resp. not orthogonal to the face. *)
Local Open Scope ring_scope.
Lemma ex_neg_ok : geqr2_ok 2 1 [:: -3%:Q; 4%:Q] [:: 5%:Q; -1%:Q/2%:Q] [:: 8%:Q/5%:Q].
Proof. by apply: geqr2_checkP; vm_compute. Qed.

Lemma inner_inward : exists (g : nat -> nat -> seq rat -> qr_result [realFieldType of rat]) (mat : seq rat) T v,
  [/\ geqr2_ok 2 1 mat (qr_fac (g 2%N 1%N mat)) (qr_tau (g 2%N 1%N mat)),
      linear_new g 2 1 [:: 0; 0] mat = Ok T, gf_inner_normal T 0 = Ok v
    & 0 < \sum_(k < 2) v`_k * mget 2 mat k 0].
Proof.
set g := @ex_qr [:: 5%:Q; -1%:Q/2%:Q] [:: 8%:Q/5%:Q].
have /okP[T e h] : okb (fun T => okb (fun v => 0 < v`_0 * (-3%:Q) + v`_1 * 4%:Q) (gf_inner_normal T 0))
  (linear_new g 2 1 [:: 0; 0] [:: -3%:Q; 4%:Q]) by vm_compute.
have /okP[v e' h'] := h.
exists g, [:: -3%:Q; 4%:Q], T, v; split=> //.
  exact: ex_neg_ok.
by rewrite !big_ord_recr big_ord0 /= add0r.
Qed.

Lemma inner_not_normal : exists (g : nat -> nat -> seq rat -> qr_result [realFieldType of rat]) (mat : seq rat) T v,
  [/\ geqr2_ok 2 2 mat (qr_fac (g 2%N 2%N mat)) (qr_tau (g 2%N 2%N mat)),
      linear_new g 2 2 [:: 0; 0] mat = Ok T, linear_det_edge T != 0, gf_inner_normal T 0 = Ok v
    & \sum_(k < 2) v`_k * mget 2 mat k 1 <> 0].
Proof.
set g := @ex_qr [:: -5%:Q; 1%:Q/2%:Q; -4%:Q; 3%:Q] [:: 8%:Q/5%:Q; 0].
have /okP[T e /andP[hd h]] : okb (fun T => (linear_det_edge T != 0) &&
    okb (fun v => v`_0 * 0 + v`_1 * 5%:Q != 0) (gf_inner_normal T 0))
  (linear_new g 2 2 [:: 0; 0] [:: 3%:Q; 4%:Q; 0; 5%:Q]) by vm_compute.
have /okP[v e' h'] := h.
exists g, [:: 3%:Q; 4%:Q; 0; 5%:Q], T, v; split=> //.
  exact: ex_sq_ok.
by apply/eqP; rewrite !big_ord_recr big_ord0 /= add0r.
Qed.
