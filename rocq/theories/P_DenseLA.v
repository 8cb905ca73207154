(** Properties C01-C06: SmallMat (dense_la.hxx). Statements only; proofs are in L_DenseLA. *)
From mathcomp Require Import all_ssreflect all_algebra.
From Verif Require Import M_Base M_DenseLA S_DenseLA L_DenseLA.
Set Implicit Arguments. Unset Strict Implicit. Unset Printing Implicit Defensive.
Local Open Scope ring_scope.

(** * C01 storage *)
(** Every index pair inside the matrix has its own place inside the storage. *)
Theorem C01_in_range (nr nc i j : nat) :
  (i < nr)%N -> (j < nc)%N -> (loc nr i j < nr * nc)%N.
Proof. exact: loc_lt. Qed.
Print Assumptions C01_in_range.

(** The two assertions let through exactly the pairs inside the matrix. *)
Theorem C01_checked (nr nc i j k : nat) :
  (loc_checked nr nc i j = Ok k <-> [/\ (i < nr)%N, (j < nc)%N & k = loc nr i j])
  /\ (loc_checked nr nc i j = Abort <-> ~ ((i < nr)%N /\ (j < nc)%N)).
Proof. exact: loc_checkedE. Qed.
Print Assumptions C01_checked.

Theorem C01_every_place_used (nr nc k : nat) : (k < nr * nc)%N ->
  exists i j, [/\ (i < nr)%N, (j < nc)%N & k = loc nr i j].
Proof. exact: loc_surj. Qed.
Print Assumptions C01_every_place_used.

Theorem C01_write_read (R : ringType) (nr nc : nat) (M : seq R) i j i' j' v :
  is_mat nr nc M -> (i < nr)%N -> (j < nc)%N -> (i' < nr)%N -> (j' < nc)%N ->
  mget nr (mset nr M i j v) i' j' = if (i' == i) && (j' == j) then v else mget nr M i' j'.
Proof. exact: mget_mset. Qed.
Print Assumptions C01_write_read.

Theorem C01_write_keeps_size (R : ringType) (nr nc : nat) (M : seq R) i j v :
  is_mat nr nc M -> is_mat nr nc (mset nr M i j v).
Proof. exact: is_mat_mset. Qed.
Print Assumptions C01_write_keeps_size.

Theorem C01_get_column (R : ringType) (nr nc : nat) (M : seq R) (k : 'I_nc) :
  mx_of nr 1 (get_column nr M k) = col k (mx_of nr nc M).
Proof. exact: mx_get_column. Qed.
Print Assumptions C01_get_column.

Theorem C01_set_column (R : ringType) (nr nc : nat) (M : seq R) (k : 'I_nc) v : is_mat nr nc M ->
  is_mat nr nc (set_column nr M k v) /\
  mx_of nr nc (set_column nr M k v) =
    \matrix_(i, j) (if j == k then mx_of nr 1 v i 0 else mx_of nr nc M i j).
Proof. exact: mx_set_column. Qed.
Print Assumptions C01_set_column.

(** A 2 x 3 matrix meets the hypotheses, and a write to (1,2) is seen there only. *)
Example C01_example : is_mat 2 3 [:: 1; 2; 3; 4; 5; 6 : int] /\
  mset 2 [:: 1; 2; 3; 4; 5; 6 : int] 1 2 9 = [:: 1; 2; 3; 4; 5; 9 : int].
Proof. by []. Qed.

(** * C02 sums, differences, scalings *)
Section C02.
Variables (R : ringType) (nr nc : nat).
Implicit Types (A B M v : seq R) (c : R).

Theorem C02_add A B : is_mat nr nc A ->
  mx_of nr nc (mat_add nr nc nc A B) = mx_of nr nc A + mx_of nr nc B.
Proof. exact: mx_mat_add. Qed.
Theorem C02_add_vector_right A v : is_mat nr nc A ->
  mx_of nr nc (mat_add nr nc 1 A v) = mx_of nr nc A + all_cols nc (mx_of nr 1 v).
Proof. exact: mx_mat_add_right. Qed.
Theorem C02_add_vector_left v A : is_mat nr 1 v -> is_mat nr nc A ->
  mx_of nr nc (mat_add nr 1 nc v A) = all_cols nc (mx_of nr 1 v) + mx_of nr nc A.
Proof. exact: mx_mat_add_left. Qed.
Theorem C02_sub A B : is_mat nr nc A ->
  mx_of nr nc (mat_sub nr nc nc A B) = mx_of nr nc A - mx_of nr nc B.
Proof. exact: mx_mat_sub. Qed.
Theorem C02_sub_vector_right A v : is_mat nr nc A ->
  mx_of nr nc (mat_sub nr nc 1 A v) = mx_of nr nc A - all_cols nc (mx_of nr 1 v).
Proof. exact: mx_mat_sub_right. Qed.
Theorem C02_sub_vector_left v A : is_mat nr 1 v -> is_mat nr nc A ->
  mx_of nr nc (mat_sub nr 1 nc v A) = all_cols nc (mx_of nr 1 v) - mx_of nr nc A.
Proof. exact: mx_mat_sub_left. Qed.
(** In-place forms. *)
Theorem C02_add_in_place M A : is_mat nr nc M ->
  mx_of nr nc (add_eq nr nc nc M A) = mx_of nr nc M + mx_of nr nc A.
Proof. exact: mx_add_eq. Qed.
Theorem C02_sub_in_place M A : is_mat nr nc M ->
  mx_of nr nc (sub_eq nr nc nc M A) = mx_of nr nc M - mx_of nr nc A.
Proof. exact: mx_sub_eq. Qed.
Theorem C02_add_vector_in_place M v : is_mat nr nc M ->
  mx_of nr nc (add_eq nr nc 1 M v) = mx_of nr nc M + all_cols nc (mx_of nr 1 v).
Proof. exact: mx_add_eq_vec. Qed.
Theorem C02_sub_vector_in_place M v : is_mat nr nc M ->
  mx_of nr nc (sub_eq nr nc 1 M v) = mx_of nr nc M - all_cols nc (mx_of nr 1 v).
Proof. exact: mx_sub_eq_vec. Qed.
(** Scalars. *)
Theorem C02_add_scalar M c : is_mat nr nc M ->
  mx_of nr nc (adds (nr * nc) M c) = mx_of nr nc M + const_mx c.
Proof. exact: mx_adds. Qed.
Theorem C02_sub_scalar M c : is_mat nr nc M ->
  mx_of nr nc (subs (nr * nc) M c) = mx_of nr nc M - const_mx c.
Proof. exact: mx_subs. Qed.
Theorem C02_scalar_sub M c : is_mat nr nc M ->
  mx_of nr nc (scal_minus (nr * nc) c M) = const_mx c - mx_of nr nc M.
Proof. exact: mx_scal_minus. Qed.
Theorem C02_hadamard M A : is_mat nr nc M ->
  mx_of nr nc (hada_eq (nr * nc) M A) = \matrix_(i, j) (mx_of nr nc M i j * mx_of nr nc A i j).
Proof. exact: mx_hada. Qed.
Theorem C02_equality A B :
  reflect (forall k, (k < nr * nc)%N -> nth 0 A k = nth 0 B k) (mat_eq (nr * nc) A B).
Proof. exact: mat_eqP. Qed.
Theorem C02_inequality A B : mat_ne (nr * nc) A B = ~~ mat_eq (nr * nc) A B.
Proof. exact: mat_neE. Qed.
End C02.
Theorem C02_mul_scalar (R : comRingType) (nr nc : nat) (M : seq R) c : is_mat nr nc M ->
  mx_of nr nc (muls (nr * nc) M c) = c *: mx_of nr nc M.
Proof. exact: mx_muls_comm. Qed.
Theorem C02_div_scalar (F : fieldType) (nr nc : nat) (M : seq F) c : is_mat nr nc M -> c != 0 ->
  exists q, mat_div_scal (nr * nc) M c = Ok q /\ mx_of nr nc q = c^-1 *: mx_of nr nc M.
Proof. exact: mx_mat_div_scal. Qed.
Theorem C02_scalar_div (F : fieldType) (nr nc : nat) c (M : seq F) : is_mat nr nc M ->
  (forall i j, mx_of nr nc M i j != 0) ->
  exists r, scal_div (nr * nc) c M = Ok r /\ mx_of nr nc r = \matrix_(i, j) (c / mx_of nr nc M i j).
Proof. exact: scal_divE. Qed.
Theorem C02_scalar_div_zero (F : fieldType) (n : nat) c (M : seq F) k :
  (k < n)%N -> nth 0 M k = 0 -> scal_div n c M = Throw.
Proof. exact: scal_div_zero. Qed.
Theorem C02_hadamard_div (F : fieldType) (n : nat) (M O : seq F) : (n <= size M)%N ->
  (forall k, (k < n)%N -> nth 0 O k != 0) ->
  exists q, hada_divi n M O = Ok q /\ size q = size M /\
    forall k, (k < n)%N -> nth 0 q k = nth 0 M k / nth 0 O k.
Proof. exact: hada_divi_ok. Qed.
Theorem C02_hadamard_div_zero (F : fieldType) (n : nat) (M O : seq F) : (n <= size M)%N ->
  (exists k, (k < n)%N /\ nth 0 O k = 0) -> hada_divi n M O = Throw.
Proof. exact: hada_divi_throw. Qed.
Print Assumptions C02_add. Print Assumptions C02_add_vector_right.
Print Assumptions C02_add_vector_left. Print Assumptions C02_sub.
Print Assumptions C02_sub_vector_right. Print Assumptions C02_sub_vector_left.
Print Assumptions C02_add_in_place. Print Assumptions C02_sub_in_place.
Print Assumptions C02_add_vector_in_place. Print Assumptions C02_sub_vector_in_place.
Print Assumptions C02_add_scalar. Print Assumptions C02_sub_scalar.
Print Assumptions C02_scalar_sub. Print Assumptions C02_hadamard.
Print Assumptions C02_equality. Print Assumptions C02_inequality.
Print Assumptions C02_mul_scalar. Print Assumptions C02_div_scalar.
Print Assumptions C02_scalar_div. Print Assumptions C02_scalar_div_zero.
Print Assumptions C02_hadamard_div. Print Assumptions C02_hadamard_div_zero.

Example C02_example :
  is_mat 2 2 [:: 1; 2; 3; 4 : int] /\ is_mat 2 1 [:: 10; 20 : int] /\
  mat_sub 2 1 2 [:: 10; 20] [:: 1; 2; 3; 4 : int] = [:: 9; 18; 7; 16].
Proof. by vm_compute. Qed.
Example C02_example_div : hada_divi 2 [:: 1; 2 : rat] [:: 2; 2] = Ok [:: 1 / 2%:R; 1].
Proof. by vm_compute. Qed.

(** * C03 products *)
Section C03.
Variable R : ringType.
Implicit Types (A B M : seq R).
Theorem C03_product (ra ca cb : nat) A B :
  mx_of ra cb (mat_mul ra ca cb A B) = mx_of ra ca A *m mx_of ca cb B.
Proof. exact: mx_mat_mul. Qed.
Theorem C03_transposed_product (ra ca cb : nat) A B :
  mx_of ca cb (transposed_mat_times_mat ra ca cb A B) = (mx_of ra ca A)^T *m mx_of ra cb B.
Proof. exact: mx_transposed_mat_times_mat. Qed.
Theorem C03_transposed (nr nc : nat) M : mx_of nc nr (transposed nr nc M) = (mx_of nr nc M)^T.
Proof. exact: mx_transposed. Qed.
Theorem C03_dyadic (nr nc : nat) (l r : seq R) :
  mx_of nr nc (dyadic_product nr nc l r) = mx_of nr 1 l *m (mx_of nc 1 r)^T.
Proof. exact: mx_dyadic. Qed.
Theorem C03_identity (n : nat) : mx_of n n (diagonal n n 1) = 1%:M :> 'M[R]_n.
Proof. exact: mx_unit. Qed.
Theorem C03_diagonal (nr nc nv : nat) (d : seq R) : (nv <= minn nr nc)%N ->
  mx_of nr nc (diagonal_vec nr nc nv d) =
  \matrix_(i, j) (if (i == j :> nat) && (i < nv)%N then nth 0 d i else 0).
Proof. exact: mx_diagonal_vec. Qed.
Theorem C03_repeated (nr nc : nat) (v : seq R) :
  mx_of nr nc (rep_mat nr nc v) = all_cols nc (mx_of nr 1 v).
Proof. exact: mx_rep_mat. Qed.
Theorem C03_scalar_product (nr nc : nat) A B :
  scalar_product (nr * nc) A B = \sum_j \sum_i mx_of nr nc A i j * mx_of nr nc B i j.
Proof. exact: scalar_product_mx. Qed.
Theorem C03_unfit_product (ra ca rb cb : nat) A B i j : (i < ra)%N -> (j < cb)%N ->
  mget ra (mat_mul_unfit ra ca rb cb A B) i j = \sum_(k < minn ca rb) mget ra A i k * mget rb B k j.
Proof. exact: mget_mat_mul_unfit. Qed.
End C03.
Theorem C03_cross_product (R : comRingType) (l r : seq R) :
  scalar_product 3 l (cross_product l r) = 0 /\ scalar_product 3 r (cross_product l r) = 0.
Proof. exact: cross_product_orth. Qed.
(** Norms used with the products. *)
Theorem C03_norm_1_matrix (F : realDomainType) (nr nc : nat) (M : seq F) : nc != 1%N ->
  let N := norm_1 nr nc M in
  [/\ 0 <= N, forall j : 'I_nc, \sum_i `|mx_of nr nc M i j| <= N
   & (0 < nc)%N -> exists j : 'I_nc, N = \sum_i `|mx_of nr nc M i j|].
Proof. exact: norm_1_mat. Qed.
Theorem C03_norm_infty_matrix (F : realDomainType) (nr nc : nat) (M : seq F) : nc != 1%N ->
  let N := norm_infty nr nc M in
  [/\ 0 <= N, forall i : 'I_nr, \sum_j `|mx_of nr nc M i j| <= N
   & (0 < nr)%N -> exists i : 'I_nr, N = \sum_j `|mx_of nr nc M i j|].
Proof. exact: norm_infty_mat. Qed.
Theorem C03_norm_1_vector (F : realDomainType) (nr : nat) (M : seq F) :
  norm_1 nr 1 M = \sum_(i < nr) `|nth 0 M i|.
Proof. exact: norm_1_vec. Qed.
Theorem C03_norm_infty_vector (F : realDomainType) (nr : nat) (M : seq F) : (0 < nr)%N ->
  (forall i, (i < nr)%N -> `|nth 0 M i| <= norm_infty nr 1 M) /\
  exists2 i, (i < nr)%N & norm_infty nr 1 M = `|nth 0 M i|.
Proof. exact: norm_infty_vec. Qed.
Theorem C03_norm_2 (F : rcfType) (nr : nat) (M : seq F) :
  0 <= norm_2 nr M /\ norm_2 nr M ^+ 2 = \sum_(i < nr) nth 0 M i ^+ 2.
Proof. exact: norm_2E. Qed.
Print Assumptions C03_product. Print Assumptions C03_transposed_product.
Print Assumptions C03_transposed. Print Assumptions C03_dyadic.
Print Assumptions C03_identity. Print Assumptions C03_diagonal.
Print Assumptions C03_repeated. Print Assumptions C03_scalar_product.
Print Assumptions C03_unfit_product. Print Assumptions C03_cross_product.
Print Assumptions C03_norm_1_matrix. Print Assumptions C03_norm_infty_matrix.
Print Assumptions C03_norm_1_vector. Print Assumptions C03_norm_infty_vector.
Print Assumptions C03_norm_2.

Example C03_example :
  mat_mul 2 3 1 [:: 1; 2; 3; 4; 5; 6 : int] [:: 1; 0; -1] = [:: -4%:Z; -4%:Z].
Proof. by vm_compute. Qed.

(** * C04 mat_times_transposed_mat *)
(** The function only compiles for a square left factor; there it computes (B A)^T. *)
Theorem C04_actual_value (R : comRingType) (n rb : nat) (A B : seq R) :
  mx_of n rb (mat_times_transposed_mat n n rb A B) = (mx_of rb n B *m mx_of n n A)^T.
Proof. exact: mx_mat_times_transposed_mat_comm. Qed.
Print Assumptions C04_actual_value.

Theorem C04_refuted : exists A B : seq int, is_mat 2 2 A /\ is_mat 2 2 B /\
  mx_of 2 2 (mat_times_transposed_mat 2 2 2 A B) <> mx_of 2 2 A *m (mx_of 2 2 B)^T.
Proof. exact: mat_times_transposed_mat_wrong. Qed.
Print Assumptions C04_refuted.

(** It is right whenever A is symmetric. *)
Theorem C04_partial (R : comRingType) (n rb : nat) (A B : seq R) :
  (mx_of n n A)^T = mx_of n n A ->
  mx_of n rb (mat_times_transposed_mat n n rb A B) = mx_of n n A *m (mx_of rb n B)^T.
Proof. exact: mat_times_transposed_mat_sym. Qed.
Print Assumptions C04_partial.
Example C04_example : (mx_of 2 2 [:: 1; 5; 5; 2 : int])^T = mx_of 2 2 [:: 1; 5; 5; 2].
Proof. by apply/matrixP => -[[|[|]] ?] // -[[|[|]] ?] //; rewrite !mxE. Qed.

(** * C05 order *)
Section C05.
Variables (F : realDomainType) (n : nat).
Implicit Types (A B C : seq F).
Theorem C05_meaning A B : reflect
  (exists k, [/\ (k < n)%N, (forall p, (p < k)%N -> nth 0 A p = nth 0 B p) & nth 0 A k < nth 0 B k])
  (mat_lt n A B).
Proof. exact: mat_ltP. Qed.
Theorem C05_irreflexive A : ~~ mat_lt n A A.
Proof. exact: mat_lt_irr. Qed.
Theorem C05_transitive A B C : mat_lt n A B -> mat_lt n B C -> mat_lt n A C.
Proof. exact: mat_lt_trans. Qed.
Theorem C05_trichotomy A B :
  ((mat_lt n A B : nat) + (mat_eq n A B : nat) + (mat_lt n B A : nat))%N = 1%N.
Proof. exact: mat_lt_trichotomy. Qed.
End C05.
Print Assumptions C05_meaning. Print Assumptions C05_irreflexive.
Print Assumptions C05_transitive. Print Assumptions C05_trichotomy.
Example C05_example : mat_lt 2 [:: 1; 5 : int] [:: 2; 0] /\ mat_lt 2 [:: 2; 0 : int] [:: 2; 1].
Proof. by vm_compute. Qed.

(** * C06 failed divisions *)
(** By a scalar: the operand survives. *)
Theorem C06_scalar (F : fieldType) (n : nat) (M : seq F) c :
  ((divs_eq n M c).1 = (c == 0)) /\ ((divs_eq n M c).1 -> (divs_eq n M c).2 = M).
Proof. exact: divs_eq_fails. Qed.
Print Assumptions C06_scalar.

(** Entry-wise: the entries before the first zero divisor have been changed when the exception is
    raised. *)
Theorem C06_hadamard_refuted : exists M O : seq rat,
  size M = 2%N /\ size O = 2%N /\ (hada_div_eq 2 M O).1 /\ (hada_div_eq 2 M O).2 <> M.
Proof. exact: hada_div_damage. Qed.
Print Assumptions C06_hadamard_refuted.

(** What is true: exactly the entries before the first zero divisor are divided, all others are
    unchanged; the exception is raised iff some divisor is zero. *)
Theorem C06_hadamard_partial (F : fieldType) (n : nat) (M O : seq F) : (n <= size M)%N ->
  (hada_div_eq n M O).1 = has (fun i => nth 0%R O i == 0%R) (iota 0 n) /\
  forall k, nth 0 (hada_div_eq n M O).2 k =
    if (k < find (fun i => nth 0%R O i == 0%R) (iota 0 n))%N
    then nth 0 M k / nth 0 O k else nth 0 M k.
Proof. exact: hada_div_eqE. Qed.
Print Assumptions C06_hadamard_partial.
Example C06_example : hada_div_eq 3 [:: 4; 5; 6 : rat] [:: 2; 0; 3] = (true, [:: 2; 5; 6]).
Proof. by vm_compute. Qed.
