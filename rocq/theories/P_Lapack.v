(** Properties C07-C11: QR decomposition, determinant, dense solve.  LAPACK is a parameter with the
    contracts of S_Lapack.  Statements only; proofs are in L_Lapack. *)
From mathcomp Require Import all_ssreflect all_algebra.
From Verif Require Import M_Base M_DenseLA S_DenseLA M_Lapack S_Lapack L_Lapack.
Set Implicit Arguments. Unset Strict Implicit. Unset Printing Implicit Defensive.
Local Open Scope ring_scope.

(** * C07 qr_decomp factors its argument *)
Theorem C07_factors (F : realFieldType) (geqr2 : nat -> nat -> seq F -> qr_result F)
    (nr nc : nat) (A r0 : seq F) : (0 < nc <= nr)%N ->
  is_mat nc nc r0 -> r_fits nr nc -> r_clean nr nc r0 ->
  let g := geqr2 nr nc A in
  qr_info g -> geqr2_ok nr nc A (qr_fac g) (qr_tau g) ->
  exists m Q R, [/\ qr_decomp geqr2 nr nc A r0 = Ok (m, Q, R),
    (mx_of nr nr Q)^T *m mx_of nr nr Q = 1%:M,
    mx_of nr nr Q *m zero_extended nr nc R = mx_of nr nc A,
    (forall i j : 'I_nc, (j < i)%N -> mx_of nc nc R i j = 0) /\
    (forall i : 'I_nc, (0 < i)%N -> 0 <= mx_of nc nc R i i)
  & \det (mx_of nr nr Q) = (-1) ^+ (n_reflections nc (qr_tau g) + nr)].
Proof. exact: qr_decomp_correct. Qed.
Print Assumptions C07_factors.

Theorem C07_failure (F : realFieldType) (geqr2 : nat -> nat -> seq F -> qr_result F)
    (nr nc : nat) (A r0 : seq F) :
  ~~ qr_info (geqr2 nr nc A) -> qr_decomp geqr2 nr nc A r0 = Throw.
Proof. exact: qr_decomp_throws. Qed.
Print Assumptions C07_failure.

(** The variant that returns only Q. *)
Theorem C07_q_only (F : realFieldType) (geqr2 : nat -> nat -> seq F -> qr_result F)
    (nr nc : nat) (A : seq F) : let g := geqr2 nr nc A in
  qr_info g -> geqr2_ok nr nc A (qr_fac g) (qr_tau g) ->
  exists Q, [/\ qr_decomp_q geqr2 nr nc A = Ok Q,
    (mx_of nr nr Q)^T *m mx_of nr nr Q = 1%:M
  & mx_of nr nr Q *m upper_part nr nc (qr_fac g) = mx_of nr nc A].
Proof. exact: qr_decomp_qE. Qed.
Print Assumptions C07_q_only.

(** The first argument is documented to hold R afterwards; it holds the factor before the sign
    normalisation, so Q * mat differs from A in general. *)
Theorem C07_documented_mat_refuted :
  exists (g : nat -> nat -> seq rat -> qr_result [realFieldType of rat]) (A r0 : seq rat) m Q R,
  [/\ is_mat 1 1 A, qr_info (g 1%N 1%N A),
      geqr2_ok 1 1 A (qr_fac (g 1%N 1%N A)) (qr_tau (g 1%N 1%N A)),
      qr_decomp g 1 1 A r0 = Ok (m, Q, R) & mx_of 1 1 Q *m mx_of 1 1 m <> mx_of 1 1 A].
Proof. exact: qr_mat_not_R. Qed.
Print Assumptions C07_documented_mat_refuted.

(** The hypotheses are met by LAPACK's actual result for a 2 x 2 matrix. *)
Example C07_example :
  geqr2_ok 2 2 [:: 3%:Q; 4%:Q; 0; 5%:Q] [:: -5%:Q; 1%:Q/2%:Q; -4%:Q; 3%:Q] [:: 8%:Q/5%:Q; 0] /\
  r_fits 2 2 /\ r_clean 2 2 [:: 7%:Q; 7%:Q; 7%:Q; 7%:Q].
Proof. by split; [exact: ex_sq_ok | split => //; constructor 1]. Qed.

(** * C08 det Q = 1 is false *)
Theorem C08_refuted :
  exists (g : nat -> nat -> seq rat -> qr_result [realFieldType of rat]) (A r0 : seq rat) m Q R,
  [/\ is_mat 2 1 A, qr_info (g 2%N 1%N A),
      geqr2_ok 2 1 A (qr_fac (g 2%N 1%N A)) (qr_tau (g 2%N 1%N A)),
      qr_decomp g 2 1 A r0 = Ok (m, Q, R) & \det (mx_of 2 2 Q) <> 1].
Proof. exact: qr_det_not_one. Qed.
Print Assumptions C08_refuted.

(** The determinant of Q is the parity of the number of reflections plus n_rows (see C07_factors).
    For a square matrix dgeqr2 never reflects in the last step; if it reflects in all others, the
    determinant is -1. *)
Theorem C08_square_value (F : realFieldType) (n : nat) (tau : seq F) :
  n_reflections n tau = (n - 1)%N -> (0 < n)%N -> (-1) ^+ (n_reflections n tau + n) = -1 :> F.
Proof. exact: qr_det_square. Qed.
Print Assumptions C08_square_value.
Example C08_example : n_reflections 2 [:: 8%:Q/5%:Q; 0] = (2 - 1)%N.
Proof. by vm_compute. Qed.

(** * C09 determinant *)
Theorem C09_refuted :
  exists (g : nat -> nat -> seq rat -> qr_result [realFieldType of rat]) (A : seq rat),
  [/\ is_mat 2 2 A, qr_info (g 2%N 2%N A),
      geqr2_ok 2 2 A (qr_fac (g 2%N 2%N A)) (qr_tau (g 2%N 2%N A)),
      \det (mx_of 2 2 A) = 15%:R & mat_determinant g 2 2 A = Ok (- 15%:R)].
Proof. exact: determinant_wrong_sign. Qed.
Print Assumptions C09_refuted.

(** Exact value: right up to the parity of n plus the number of reflections. *)
Theorem C09_partial (F : realFieldType) (geqr2 : nat -> nat -> seq F -> qr_result F)
    (n : nat) (A : seq F) : let g := geqr2 n n A in
  qr_info g -> geqr2_ok n n A (qr_fac g) (qr_tau g) ->
  mat_determinant geqr2 n n A = Ok ((-1) ^+ (n + n_reflections n (qr_tau g)) * \det (mx_of n n A)).
Proof. exact: determinant_value. Qed.
Print Assumptions C09_partial.

(** Rectangular matrices: the result is a square root of det (A^T A), as documented. *)
Theorem C09_rectangular (F : realFieldType) (geqr2 : nat -> nat -> seq F -> qr_result F)
    (nr nc : nat) (A : seq F) : (nc <= nr)%N -> let g := geqr2 nr nc A in
  qr_info g -> geqr2_ok nr nc A (qr_fac g) (qr_tau g) ->
  exists d, mat_determinant geqr2 nr nc A = Ok d /\
            d ^+ 2 = \det ((mx_of nr nc A)^T *m mx_of nr nc A).
Proof. exact: determinant_square. Qed.
Print Assumptions C09_rectangular.
Example C09_example : geqr2_ok 2 1 [:: 3%:Q; 4%:Q] [:: -5%:Q; 1%:Q/2%:Q] [:: 8%:Q/5%:Q].
Proof. exact: ex_col_ok. Qed.

(** * C10 extraction of R *)
Theorem C10_stale_refuted : exists (h r0 r : seq rat),
  [/\ is_mat 4 3 h, is_mat 3 3 r0, get_r 4 3 h r0 = Ok r & mget 3 r 2 1 <> 0].
Proof. exact: get_r_stale. Qed.
Print Assumptions C10_stale_refuted.
Theorem C10_bounds_refuted : exists (h r0 : seq rat),
  [/\ is_mat 7 3 h, is_mat 3 3 r0 & get_r 7 3 h r0 = UB].
Proof. exact: get_r_out_of_bounds. Qed.
Print Assumptions C10_bounds_refuted.
(** Exactly the shapes that run out of bounds. *)
Theorem C10_bounds_exact (F : realFieldType) (nr nc : nat) (h r0 : seq F) :
  (nc <= nr)%N -> size r0 = (nc * nc)%N -> ~~ r_fits nr nc -> get_r nr nc h r0 = UB.
Proof. exact: get_r_ub. Qed.
Print Assumptions C10_bounds_exact.
(** In the remaining shapes R is right if it was lower-zero before, or for square or narrow
    matrices. *)
Theorem C10_partial (F : realFieldType) (nr nc : nat) (h r0 : seq F) :
  (nc <= nr)%N -> is_mat nc nc r0 -> r_fits nr nc -> r_clean nr nc r0 ->
  exists r, [/\ get_r nr nc h r0 = Ok r, is_mat nc nc r &
    mx_of nc nc r = \matrix_(i, j) (if (i <= j)%N then nth 0 h (j * nr + i) else 0)].
Proof. exact: get_r_clean. Qed.
Print Assumptions C10_partial.
(** The form that works in place is right for every shape. *)
Theorem C10_in_place (F : realFieldType) (nr nc : nat) (h : seq F) : is_mat nr nc h ->
  mx_of nr nc (get_r_in_place nr nc h) = upper_part nr nc h.
Proof. exact: mx_get_r_in_place. Qed.
Print Assumptions C10_in_place.
Example C10_example : r_fits 6 3 /\ r_clean 6 3 (nseq 9 (0 : rat)).
Proof. by split => //; constructor 3 => i j _; rewrite mxE nth_nseq; case: ifP. Qed.

(** * C11 solving *)
Theorem C11_const (F : realFieldType) (gesv : nat -> nat -> seq F -> seq F -> sv_result F)
    (n nc : nat) (b A : seq F) :
  (sv_info (gesv n nc A b) -> gesv_ok n nc A b (sv_rhs (gesv n nc A b))) ->
  (solve_const gesv n nc b A).2 = (A, b) /\
  ((exists x, [/\ (solve_const gesv n nc b A).1 = Ok x, is_mat n nc x &
                  mx_of n n A *m mx_of n nc x = mx_of n nc b] /\ sv_info (gesv n nc A b)) \/
   ((solve_const gesv n nc b A).1 = Throw /\ ~~ sv_info (gesv n nc A b))).
Proof. exact: solve_constE. Qed.
Print Assumptions C11_const.
Theorem C11_unique (F : realFieldType) (n nc : nat) (A b x y : seq F) :
  mx_of n n A \in unitmx -> gesv_ok n nc A b x -> gesv_ok n nc A b y ->
  mx_of n nc x = mx_of n nc y.
Proof. exact: solve_unique. Qed.
Print Assumptions C11_unique.
(** For non-constant operands the answer is right but the right-hand side is overwritten. *)
Theorem C11_non_const_refuted :
  exists (g : nat -> nat -> seq rat -> seq rat -> sv_result [realFieldType of rat]) (A b : seq rat),
  [/\ forall n nc A b, (n, nc) = (1, 1)%N -> size A = 1%N -> size b = 1%N ->
        sv_info (g n nc A b) -> gesv_ok n nc A b (sv_rhs (g n nc A b)),
      (solve_mut g 1 1 b A).1 = Ok [:: 2%:Q] & (solve_mut g 1 1 b A).2.2 <> b].
Proof. exact: solve_mut_destroys. Qed.
Print Assumptions C11_non_const_refuted.
Theorem C11_non_const_partial (F : realFieldType)
    (gesv : nat -> nat -> seq F -> seq F -> sv_result F) (n nc : nat) (b A : seq F) :
  (sv_info (gesv n nc A b) -> gesv_ok n nc A b (sv_rhs (gesv n nc A b))) ->
  (exists x, [/\ (solve_mut gesv n nc b A).1 = Ok x, is_mat n nc x &
                  mx_of n n A *m mx_of n nc x = mx_of n nc b] /\ (solve_mut gesv n nc b A).2.2 = x) \/
   ((solve_mut gesv n nc b A).1 = Throw /\ ~~ sv_info (gesv n nc A b)).
Proof. exact: solve_mutE. Qed.
Print Assumptions C11_non_const_partial.
Example C11_example : gesv_ok 1 1 [:: 2%:Q] [:: 4%:Q] [:: 2%:Q].
Proof.
split => //; apply/matrixP => i j.
by rewrite !mxE big_ord_recr big_ord0 /= !mxE GRing.add0r [i]ord1 [j]ord1; apply/eqP; vm_compute.
Qed.
