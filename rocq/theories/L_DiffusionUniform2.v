(** DiffusionUniform with the integrals of TPP. *)
From mathcomp Require Import all_ssreflect all_algebra zify.
From Verif Require Import M_Base L_Base M_DenseLA S_DenseLA M_Lapack S_Lapack M_Index.
From Verif Require Import S_Hdg L_Hdg S_Tpp L_Poly M_DiffusionUniform S_LocalSolver L_Tens L_LocalBase L_LocalLink.
From Verif Require Import L_DiffusionUniform.
Set Implicit Arguments. Unset Strict Implicit. Unset Printing Implicit Defensive.
Import Order.TTheory GRing.Theory Num.Theory.
Local Open Scope ring_scope.

Section Gesv.
Variable F : realFieldType.
(** The storage of a matrix. *)
Definition seq_of (n nc : nat) (M : 'M[F]_(n, nc)) : seq F :=
  mkseq (fun k => if (insub (k %% n)%N : option 'I_n, insub (k %/ n)%N : option 'I_nc) is (Some i, Some j)
                  then M i j else 0) (n * nc).
Lemma seq_ofK n nc (M : 'M[F]_(n, nc)) : mx_of n nc (seq_of M) = M.
Proof.
apply/matrixP => i j; rewrite mxE.
have n0 : (0 < n)%N by case: (n) i => // -[].
have hk : (j * n + i < n * nc)%N by rewrite [(n * nc)%N]mulnC; exact: block_lt.
rewrite nth_mkseq //.
have -> : ((j * n + i) %% n = i)%N by rewrite modnMDl modn_small.
have -> : ((j * n + i) %/ n = j)%N by rewrite divnMDl // divn_small // addn0.
by rewrite (valK i) (valK j).
Qed.
(** A solver that satisfies the contract. *)
Definition inv_gesv (n nc : nat) (A b : seq F) : sv_result F :=
  SvResult (mx_of n n A \in unitmx) A (seq_of (invmx (mx_of n n A) *m mx_of n nc b)).
Lemma inv_gesv_correct : gesv_correct inv_gesv.
Proof.
move=> n nc A b sA sb hA; split => //; split; first exact: size_mkseq.
by rewrite /= seq_ofK mulKVmx.
Qed.
End Gesv.

Section Tpp.
Variable F : realFieldType.
Variables (dim p : nat) (b : nat -> {poly F}).
Hypotheses (dim0 : (0 < dim)%N) (hb : orthonormal_basis (p + 1) b).
Notation H := (cube_hdg b dim p).
Notation nb := ((p + 1) ^ (dim - 1))%N.

Lemma p0 : (0 < p + 1)%N. Proof. by rewrite addn1. Qed.
Lemma cube_ok : hdg_ok H.
Proof.
rewrite /cube_hdg; case: dim dim0 => // m _; rewrite subn1 /=.
exact: (tens_ok m p0 hb).
Qed.
Definition cube_one : 'cV[F]_((p + 1) ^ dim) := \col_i (i == 0%N :> nat)%:R.
Lemma cube_const : hdg_const H cube_one (unit_vec F nb).
Proof.
rewrite /cube_hdg /cube_one; case: dim dim0 => // m _; rewrite subn1 /=.
exact: (tens_const m p0 hb).
Qed.
Lemma cube_grad : hdg_grad H cube_one.
Proof.
rewrite /cube_hdg /cube_one; case: dim dim0 => // m _; rewrite subn1 /=.
exact (@tens_grad F _ b m p0 hb).
Qed.
Lemma nb0 : (0 < nb)%N. Proof. by rewrite expn_gt0 p0. Qed.

Variable gesv : nat -> nat -> seq F -> seq F -> sv_result F.
Hypothesis hg : gesv_correct gesv.
Variable tau : F.
Hypothesis tau0 : 0 < tau.
Notation ttf := (trace_to_flux gesv dim p (tpp_integrator b dim p) tau).

Lemma uniform_flux x out : is_trace (2 * dim) nb x -> is_trace (2 * dim) nb out ->
  exists2 y, ttf x out = Ok y & flux_of H tau x y.
Proof.
move=> hx ho.
have := @trace_to_flux_ok F gesv dim p (tpp_integrator b dim p) tau x out hg.
rewrite (n_shape_fctE p dim0) n_shape_bdrE /=; apply => //.
exact: cube_ok.
Qed.
Lemma uniform_fluxP x out y : is_trace (2 * dim) nb x -> is_trace (2 * dim) nb out ->
  ttf x out = Ok y -> flux_of H tau x y.
Proof. by move=> hx ho hy; have [z hz fz] := uniform_flux hx ho; move: hy; rewrite hz => -[<-]. Qed.

Lemma uniform_linear c x x' out out' out'' : is_trace (2 * dim) nb x -> is_trace (2 * dim) nb x' ->
  is_trace (2 * dim) nb out -> is_trace (2 * dim) nb out' -> is_trace (2 * dim) nb out'' ->
  exists y y', [/\ ttf x out = Ok y, ttf x' out' = Ok y' &
    ttf (comb_trace c (2 * dim) nb x x') out'' = Ok (comb_trace c (2 * dim) nb y y')].
Proof.
move=> hx hx' ho ho' ho''.
have [y hy fy] := uniform_flux hx ho; have [y' hy' fy'] := uniform_flux hx' ho'.
have [z hz fz] := uniform_flux (comb_is_trace _ _ c x x') ho''.
exists y, y'; split => //; rewrite hz; congr Ok.
exact: (flux_unique cube_ok tau0 fz (flux_of_lin c fy fy')).
Qed.
Lemma uniform_symmetric x x' out out' : is_trace (2 * dim) nb x -> is_trace (2 * dim) nb x' ->
  is_trace (2 * dim) nb out -> is_trace (2 * dim) nb out' ->
  exists y y', [/\ ttf x out = Ok y, ttf x' out' = Ok y' &
    pairing (2 * dim) nb x' y = pairing (2 * dim) nb x y'].
Proof.
move=> hx hx' ho ho'.
have [y hy fy] := uniform_flux hx ho; have [y' hy' fy'] := uniform_flux hx' ho'.
by exists y, y'; split => //; exact: (flux_sym cube_ok fy fy').
Qed.
Lemma uniform_negative x out : is_trace (2 * dim) nb x -> is_trace (2 * dim) nb out ->
  exists2 y, ttf x out = Ok y & pairing (2 * dim) nb x y <= 0.
Proof.
move=> hx ho; have [y hy fy] := uniform_flux hx ho; exists y => //.
exact: (flux_neg cube_ok (ltW tau0) fy).
Qed.
Lemma const_is_trace c : is_trace (2 * dim) nb (const_trace c (2 * dim) nb : seq (seq F)).
Proof. by split; [exact: size_nseq | apply/allP => l /nseqP[-> _]; rewrite size_mkseq]. Qed.
Lemma uniform_const c out : is_trace (2 * dim) nb out ->
  ttf (const_trace c (2 * dim) nb) out = Ok (nseq (2 * dim) (nseq nb 0)).
Proof.
move=> ho; have [y -> fy] := uniform_flux (const_is_trace c) ho; congr Ok.
exact: (flux_of_const cube_ok tau0 cube_const fy).
Qed.
Lemma pairing_const (y : seq (seq F)) :
  pairing (2 * dim) nb (const_trace 1 (2 * dim) nb) y = \sum_(f < 2 * dim) nth 0 (nth [::] y f) 0.
Proof.
apply: eq_bigr => f _; rewrite nth_nseq ltn_ord (sum_ord1 (i := Ordinal nb0)) => [|j hj].
  by rewrite nth_mkseq ?nb0 // mul1r.
by rewrite nth_mkseq // (negbTE hj) mul0r.
Qed.
Lemma uniform_conserved x out : is_trace (2 * dim) nb x -> is_trace (2 * dim) nb out ->
  exists2 y, ttf x out = Ok y & \sum_(f < 2 * dim) nth 0 (nth [::] y f) 0 = 0.
Proof.
move=> hx ho; have [y hy fy] := uniform_flux hx ho; exists y => //.
rewrite -pairing_const; exact: (flux_of_conserved cube_ok cube_const fy).
Qed.
Lemma uniform_kernel x out : is_trace (2 * dim) nb x -> is_trace (2 * dim) nb out ->
  exists2 y, ttf x out = Ok y &
    pairing (2 * dim) nb x y = 0 -> exists c, x = const_trace c (2 * dim) nb.
Proof.
move=> hx ho; have [y hy fy] := uniform_flux hx ho; exists y => // h0.
exact: (flux_of_kernel cube_ok tau0 cube_const cube_grad hx fy h0).
Qed.
End Tpp.
