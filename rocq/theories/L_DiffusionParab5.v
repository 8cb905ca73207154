(** What errors and plots of DiffusionParab show. *)
From mathcomp Require Import all_ssreflect all_algebra zify.
From Verif Require Import M_Base L_Base M_Index M_DenseLA M_Lapack S_Lapack S_Hdg L_Hdg S_Tpp S_TppGeo S_LocalSolver.
From Verif Require Import M_DiffusionUniform M_Diffusion S_Diffusion M_DiffusionParab S_DiffusionParab.
From Verif Require Import L_LocalBase L_LocalLink L_DiffusionUniform L_DiffusionUniform2 L_Diffusion L_Diffusion2 L_Diffusion3.
From Verif Require Import L_Theta L_DiffusionParab L_DiffusionParab2 L_DiffusionParab3.
Set Implicit Arguments. Unset Strict Implicit. Unset Printing Implicit Defensive.
Import Order.TTheory GRing.Theory Num.Theory.
Local Open Scope ring_scope.

Section Shown.
Variable F : realFieldType.
Variables (gesv : nat -> nat -> seq F -> seq F -> sv_result F).
Variables (dim p : nat) (dirs : seq nat) (tau theta dt : F) (P : dp_data F).
Hypotheses (dim0 : (0 < dim)%N) (hP : parab_data dim p P) (hg : gesv_correct gesv).
Hypotheses (tau0 : 0 <= tau) (c0 : 0 <= theta * dt).
Notation nf := ((p + 1) ^ dim)%N.
Notation nb := ((p + 1) ^ (dim - 1))%N.
Notation set := (dp_set_data gesv dim p dirs tau theta dt P).
Notation bulk := (dp_bulk_values gesv dim p dirs tau theta dt P).
Notation is_tr := (is_trace (2 * dim) nb).

Lemma coeffs_vec (v : seq F) : size v = nf -> coeffs_of (vec_of nf v) = v.
Proof.
move=> sv; apply: (@eq_from_nth _ 0); first by rewrite size_map size_enum_ord sv.
move=> i; rewrite size_map size_enum_ord => hi.
by rewrite (nth_map (Ordinal hi)) ?size_enum_ord // mxE nth_enum_ord.
Qed.
Lemma vec_mkseq (X : seq F) k : mkseq (fun i => nth 0 X (k + i)) nf = coeffs_of (\col_(i < nf) nth 0 X (k + i)).
Proof.
apply: (@eq_from_nth _ 0); first by rewrite size_mkseq size_map size_enum_ord.
move=> i; rewrite size_mkseq => hi.
by rewrite nth_mkseq // (nth_map (Ordinal hi)) ?size_enum_ord // mxE nth_enum_ord.
Qed.
Lemma mkseq_rcons (T : Type) (h : nat -> T) n : mkseq h n.+1 = rcons (mkseq h n) (h n).
Proof. by rewrite /mkseq -addn1 iotaD map_cat /= add0n cats1. Qed.
Lemma mkseq_enum (T : Type) (h : nat -> T) n : mkseq h n = [seq h (d : 'I_n) | d <- enum 'I_n].
Proof. by rewrite /mkseq -val_enum_ord -map_comp. Qed.
Lemma parab_shown S x absc : is_tr x -> exists q u, step_of dim p dirs tau theta dt P S x q u /\
  bulk S absc x = Ok (rcons [seq mkseq (df_eval (dp_df P) absc (coeffs_of (q d))) (hc_pow dim (size absc)) | d <- enum 'I_dim]
                        (mkseq (df_eval (dp_df P) absc (coeffs_of u)) (hc_pow dim (size absc)))).
Proof.
move=> hx; have [X [-> sX hst]] := parab_bulk dirs dim0 hP hg tau0 c0 S absc hx.
eexists; eexists; split; first exact: hst.
congr Ok; rewrite (addn1 dim) mkseq_rcons mkseq_enum !vec_mkseq; congr rcons.
by apply: eq_map => d; rewrite vec_mkseq.
Qed.
Lemma parab_errors S x x' P' : is_tr x -> state_ok dim p S -> exists S' q u,
  [/\ set x S = Ok S', step_of dim p dirs tau theta dt P S x q u &
      dp_errors P' S' x' = Ok [:: df_diffsq (dp_df P') (coeffs_of u)]].
Proof.
move=> hx hS; have [S' [q [u [h1 h2 [[s1 _ _] hu _ _]]]]] := parab_set_data dirs dim0 hP hg tau0 c0 hx hS.
exists S', q, u; split=> //; rewrite /dp_errors -hu coeffs_vec //.
Qed.
End Shown.

Section Other.
Variable F : realFieldType.
Variables (gesv : nat -> nat -> seq F -> seq F -> sv_result F).
Variables (dim p : nat) (tau dt : F) (P : dp_data F).
Hypotheses (dim0 : (0 < dim)%N) (hP : parab_data dim p P) (hg : gesv_correct gesv).
Hypotheses (tau0 : 0 < tau) (dt0 : 0 < dt).
Notation nf := ((p + 1) ^ dim)%N.
Notation nb := ((p + 1) ^ (dim - 1))%N.
Notation set := (dp_set_data gesv dim p [::] tau 1 dt P).
Notation bulk := (dp_bulk_values gesv dim p [::] tau 1 dt P).
Notation zt := (zero_trace F (2 * dim) nb).
Lemma parab_plot_refuted S absc : (forall i, (i < nf)%N -> df_src (dp_df P) i = 0) -> state_ok dim p S ->
  old_u dim p S != 0 ->
  exists S' (q : 'I_dim -> 'cV[F]_nf) (u : 'cV[F]_nf), [/\ set zt S = Ok S', u != old_u dim p S' &
    bulk S' absc zt = Ok (rcons [seq mkseq (df_eval (dp_df P) absc (coeffs_of (q d))) (hc_pow dim (size absc)) | d <- enum 'I_dim]
                        (mkseq (df_eval (dp_df P) absc (coeffs_of u)) (hc_pow dim (size absc))))].
Proof.
move=> hs hS hu.
have [S' hS' ho] := parab_plot_other dim0 hP hg tau0 (@ltr01 F) dt0 (erefl [::]) hs erefl erefl hS hu.
have c0 : 0 <= 1 * dt by rewrite mul1r ltW.
have [q [u [h1 h2]]] := parab_shown [::] dim0 hP hg (ltW tau0) c0 S' absc (zt_is_trace _ _ _).
exists S', q, u; split=> //; exact: ho h1.
Qed.
End Other.
