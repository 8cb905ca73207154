(** Properties C29-C32: large-vector helpers and conjugate gradients. *)
From mathcomp Require Import all_ssreflect all_algebra.
From Verif Require Import M_Base M_SparseLA S_SparseLA L_SparseLA.
Set Implicit Arguments. Unset Strict Implicit. Unset Printing Implicit Defensive.
Local Open Scope ring_scope.

(** * C29 large-vector helpers *)
Theorem C29_inner_product (F : realFieldType) (n : nat) (l r : seq F) : size l = n -> size r = n ->
  inner_product l r = Ok (dot (vec n l) (vec n r)).
Proof. exact: inner_productE. Qed.
Print Assumptions C29_inner_product.
Theorem C29_symmetric (F : realFieldType) (l r : seq F) : inner_product l r = inner_product r l.
Proof. exact: inner_product_sym. Qed.
Print Assumptions C29_symmetric.
Theorem C29_bilinear (F : realFieldType) (n : nat) (a : F) (u v w : 'cV[F]_n) :
  dot (a *: u + v) w = a * dot u w + dot v w /\ dot w (a *: u + v) = a * dot w u + dot w v.
Proof. exact: dot_bilinear. Qed.
Print Assumptions C29_bilinear.
Theorem C29_positive (F : realFieldType) (v : seq F) : exists2 p, inner_product v v = Ok p &
  (0 <= p) && ((p == 0) == all (fun x => x == 0) v).
Proof. exact: inner_product_pos. Qed.
Print Assumptions C29_positive.
Theorem C29_norm (F : rcfType) (v : seq F) : exists2 p, norm_2 Num.sqrt v = Ok p &
  0 <= p /\ inner_product v v = Ok (p ^+ 2).
Proof. exact: norm_2E. Qed.
Print Assumptions C29_norm.
Theorem C29_linear_combination (F : realFieldType) (n : nat) (lf : F) (l : seq F) (rf : F) (r : seq F) :
  size l = n -> size r = n ->
  exists c, [/\ linear_combination lf l rf r = Ok c, size c = n &
                vec n c = lf *: vec n l + rf *: vec n r].
Proof. exact: linear_combinationE. Qed.
Print Assumptions C29_linear_combination.
(** The names l, r and res may coincide in any way. *)
Theorem C29_aliasing (F : realFieldType) (n : nat) (lf : F) (l : nat) (rf : F) (r res : nat)
    (h : heap F) : size (h l) = n -> size (h r) = n -> size (h res) = n ->
  exists h', [/\ linear_combination_to lf l rf r res h = Ok h', forall a, size (h' a) = size (h a),
    vec n (h' res) = lf *: vec n (h l) + rf *: vec n (h r) & forall a, a != res -> h' a = h a].
Proof. exact: lin_toE. Qed.
Print Assumptions C29_aliasing.
Theorem C29_mismatch (F : realFieldType) (lf : F) (l : seq F) (rf : F) (r : seq F) (a b c : nat)
    (h : heap F) :
  (size l != size r -> inner_product l r = Abort /\ linear_combination lf l rf r = Abort) /\
  ((size (h a) != size (h b)) || (size (h a) != size (h c)) ->
     linear_combination_to lf a rf b c h = Abort).
Proof. exact: mismatch. Qed.
Print Assumptions C29_mismatch.
Example C29_example : exists p, inner_product [:: 1; 1 : rat] [:: 1; 1] = Ok p /\ p == 2%:R.
Proof. by eexists; split; [reflexivity | vm_compute]. Qed.

(** * C30 a returned vector solves the system *)
Theorem C30_residual (F : realFieldType) (n : nat) (A : seq F -> outcome (seq F)) (M : 'M[F]_n)
    (b : seq F) (N : nat) (tol : F) (x : seq F) :
  implements A M -> size b = n -> (conjugate_gradient A b N tol).1 = Ok x ->
  size x = n /\ dot (vec n b - M *m vec n x) (vec n b - M *m vec n x) < tol * tol.
Proof. exact: cg_sound. Qed.
Print Assumptions C30_residual.

(** * C31 termination within n steps *)
(** A symmetric and definite on an invariant subspace containing b (for instance the free dofs). *)
Theorem C31_returns (F : realFieldType) (n : nat) (A : seq F -> outcome (seq F)) (M : 'M[F]_n)
    (U : 'cV[F]_n -> Prop) (b : seq F) (tol : F) :
  implements A M -> invariant_subspace U M -> anisotropic U M -> symmetric M ->
  size b = n -> U (vec n b) -> 0 < tol -> exists x, (conjugate_gradient A b 0 tol).1 = Ok x.
Proof. exact: cg_returns. Qed.
Print Assumptions C31_returns.
(** The documented case: symmetric positive definite. *)
Theorem C31_spd (F : realFieldType) (n : nat) (A : seq F -> outcome (seq F)) (M : 'M[F]_n)
    (b : seq F) (tol : F) :
  implements A M -> symmetric M -> (forall u : 'cV[F]_n, u != 0 -> 0 < dot u (M *m u)) ->
  size b = n -> 0 < tol -> exists x, (conjugate_gradient A b 0 tol).1 = Ok x.
Proof. exact: cg_spd. Qed.
Print Assumptions C31_spd.
Theorem C31_steps (F : realFieldType) (n : nat) (A : seq F -> outcome (seq F)) (M : 'M[F]_n)
    (b : seq F) (N : nat) (tol : F) (x : seq F) (m : nat) :
  implements A M -> size b = n -> cg_run A b N tol = Ok (x, m) ->
  (m <= if N == 0%N then n else N)%N.
Proof. exact: cg_total_bound. Qed.
Print Assumptions C31_steps.
(** A matrix that is not the identity and a subspace that is not everything. *)
Example C31_example : exists (A : seq rat -> outcome (seq rat)) (M : 'M[rat]_2) (U : 'cV[rat]_2 -> Prop),
  [/\ implements A M, invariant_subspace U M, anisotropic U M, symmetric M & U (vec 2 [:: 3%:Q; 0])].
Proof. exact: cg_example. Qed.

(** * C32 reported iterations *)
(** The variable passed for n_iterations never changes, although 0 iterations were needed. *)
Theorem C32_refuted : exists (A : seq rat -> outcome (seq rat)) (b : seq rat) (N : nat) (tol : rat),
  exists x m, cg_run A b N tol = Ok (x, m) /\ (conjugate_gradient A b N tol).2 != m.
Proof. exact: cg_iterations_lost. Qed.
Print Assumptions C32_refuted.
(** A zero tolerance always fails, even for b = 0 where the starting vector 0 is exact. *)
Theorem C32_zero_tolerance (F : realFieldType) (n : nat) (A : seq F -> outcome (seq F)) (M : 'M[F]_n)
    (b : seq F) (N : nat) : implements A M -> size b = n ->
  forall x, (conjugate_gradient A b N 0).1 <> Ok x.
Proof. exact: cg_tol0. Qed.
Print Assumptions C32_zero_tolerance.
