(** The extended systems of DiffusionEigs and BilaplacianEigs. *)
From mathcomp Require Import all_ssreflect all_algebra.
From Verif Require Import S_Lapack S_LocalSolver M_Base L_Base M_Index L_Index M_Global S_Global L_Global L_Global2 M_Lapack M_DiffusionUniform M_Diffusion.
From Verif Require Import S_Diffusion S_GlobalParab L_GlobalParab M_DiffusionEigs S_DiffusionEigs S_GlobalEigs.
From Verif Require Import M_Bilaplacian M_BilapEigs S_BilapEigs S_GlobalBilapEigs L_GlobalBilapEigs.
From Verif Require Import L_DiffusionEigs2 L_DiffusionEigs3 L_GlobalEigs L_GlobalEigs2.
From Verif Require Import M_Drivers S_Drivers L_DriversNewt.
Set Implicit Arguments. Unset Strict Implicit. Unset Printing Implicit Defensive.
Import GRing.Theory Num.Theory.
Local Open Scope ring_scope.

Section Diff.
Variables (F : realFieldType) (gesv : nat -> nat -> seq F -> seq F -> sv_result F) (norm : seq F -> F).
Variables (dim p : nat) (dirs : seq nat) (tau : F).
Variables (nodes : seq (seq nat)) (n_nodes : nat) (nt : nat -> nat) (junk : seq (seq F)) (P : nat -> de_data F).
Hypotheses (dim0 : (0 < dim)%N) (hP : eigs_data_all dim p nodes P).
Hypothesis (hv : valid_graph dim n_nodes (indexed nodes)).
Hypothesis (hg : gesv_correct gesv).
Hypothesis (hj : size junk = (2 * dim)%N).
Hypothesis hnorm : forall v, norm v ^+ 2 = dot (size v) v v.
Notation N := (n_nodes * (p + 1) ^ (dim - 1))%N.
Notation res := (eigs_res gesv dim p dirs tau nodes junk P).
Notation jac := (eigs_jacobian gesv dim p dirs tau nodes junk P).
Lemma de_ext x e a : size x = N -> res (rcons x a) e = omap (fun r => rcons r 0) (res x e).
Proof.
by move=> hx; rewrite /eigs_res -cats1 (mat_vec_tail hv) //; case: (mat_vec _ _ _ _ _) => //= r; rewrite cats1.
Qed.
Lemma de_jext y e x mu a b : size y = N -> size x = N ->
  jac (rcons y a) e (rcons x b) mu = omap (fun r => rcons r 0) (jac y e x mu).
Proof.
by move=> hy hx; rewrite /eigs_jacobian -!cats1 (mat_vec2_tail hv) //; case: (mat_vec2 _ _ _ _ _ _) => //= r; rewrite cats1.
Qed.
Lemma de_ext_zeros x eig : eigs_types dim nodes nt P -> regular_all dim p tau nodes P eig -> size x = N ->
  dir_free dim p dirs n_nodes nt x ->
  eval_residual norm res (rcons x eig) = Ok (nseq N.+1 0) <->
  (exists q u, eigenpair dim p dirs tau nodes n_nodes nt P x eig q u) /\ dot N x x = 1.
Proof.
move=> hty hr hx fx; rewrite (ext_zeros hnorm de_ext eig hx).
by rewrite (@eigen_char F gesv dim p dirs tau nodes n_nodes nt junk P dim0 hP hg hv hj hty eig hr x hx fx).
Qed.
Lemma de_ext_derivative x y mu e : time_free_all nodes P -> regular_all dim p tau nodes P mu -> size x = N -> size y = N ->
  exists K delta r j, [/\ 0 < delta, eval_residual norm res (rcons x mu) = Ok r,
    eval_jacobian jac (rcons x mu) (rcons y e) = Ok j & forall t, `|t| <= delta ->
    regular_all dim p tau nodes P (mu + t * e) /\
    exists rt, eval_residual norm res (axpy t (rcons y e) (rcons x mu)) = Ok rt /\
    forall d, `|nth 0 rt d - nth 0 r d - t * nth 0 j d| <= K * t ^+ 2].
Proof.
move=> htf hr hx hy; apply: (ext_derivative hnorm de_ext de_jext hx hy).
have [K [delta [r [j [d0 er ej H]]]]] := eigs_global_derivative dirs dim0 hP hg hv hj e htf hr hx hy.
exists K, delta, r, j; split=> //; split; first by rewrite -hx; apply: (mat_vec_size hv hx er).
split; first by rewrite -hy; apply: (mat_vec2_size hv hy ej).
move=> t ht; have [h1 [rt [h2 h3]]] := H t ht; split=> //; exists rt; split=> //; split=> //.
have sa : size (axpy t y x) = N by rewrite /axpy size_map size_iota.
by rewrite -sa; apply: (mat_vec_size hv sa h2).
Qed.
End Diff.

Section Bilap.
Variables (F : realFieldType) (gesv : nat -> nat -> seq F -> seq F -> sv_result F) (norm : seq F -> F).
Variables (dim p : nat) (dirs laps : seq nat) (tau : F).
Variables (nodes : seq (seq nat)) (n_nodes : nat) (nt : nat -> nat) (junk : seq (seq F)) (P : nat -> be_data F).
Hypotheses (dim0 : (0 < dim)%N) (hP : be_data_all dim p nodes P).
Hypothesis (hv : valid_graph dim n_nodes (indexed nodes)).
Hypothesis (hg : gesv_correct gesv).
Hypothesis (hj : size junk = (2 * dim)%N).
Hypothesis hnorm : forall v, norm v ^+ 2 = dot (size v) v v.
Notation N := (n_nodes * (2 * (p + 1) ^ (dim - 1)))%N.
Notation res := (be_res gesv dim p dirs laps tau nodes junk P).
Notation jac := (be_jac_global gesv dim p dirs laps tau nodes junk P).
Lemma be_ext x e a : size x = N -> res (rcons x a) e = omap (fun r => rcons r 0) (res x e).
Proof.
by move=> hx; rewrite /be_res -cats1 (mat_vec_tail hv) //; case: (mat_vec _ _ _ _ _) => //= r; rewrite cats1.
Qed.
Lemma be_jext y e x mu a b : size y = N -> size x = N ->
  jac (rcons y a) e (rcons x b) mu = omap (fun r => rcons r 0) (jac y e x mu).
Proof.
by move=> hy hx; rewrite /be_jac_global -!cats1 (mat_vec2_tail hv) //; case: (mat_vec2 _ _ _ _ _ _) => //= r; rewrite cats1.
Qed.
Lemma be_ext_zeros x eig : be_types dim nodes nt P -> be_regular_all dim p tau nodes P eig -> size x = N ->
  be_off dim p dirs laps n_nodes nt x ->
  eval_residual norm res (rcons x eig) = Ok (nseq N.+1 0) <->
  (exists q u r w, bi_eigenpair dim p dirs laps tau nodes n_nodes nt P x eig q u r w) /\ dot N x x = 1.
Proof.
move=> hty hr hx fx; rewrite (ext_zeros hnorm be_ext eig hx).
have -> // : res x eig = Ok (nseq N 0) <-> exists q u r w, bi_eigenpair dim p dirs laps tau nodes n_nodes nt P x eig q u r w.
exact: bi_eigen_char.
Qed.
Lemma be_ext_derivative x y mu e : be_time_free_all nodes P -> be_regular_all dim p tau nodes P mu -> size x = N -> size y = N ->
  exists K delta r j, [/\ 0 < delta, eval_residual norm res (rcons x mu) = Ok r,
    eval_jacobian jac (rcons x mu) (rcons y e) = Ok j & forall t, `|t| <= delta ->
    be_regular_all dim p tau nodes P (mu + t * e) /\
    exists rt, eval_residual norm res (axpy t (rcons y e) (rcons x mu)) = Ok rt /\
    forall d, `|nth 0 rt d - nth 0 r d - t * nth 0 j d| <= K * t ^+ 2].
Proof.
move=> htf hr hx hy; apply: (ext_derivative hnorm be_ext be_jext hx hy).
have [K [delta [r [j [d0 er ej H]]]]] : exists K delta r j, [/\ 0 < delta, res x mu = Ok r, jac y e x mu = Ok j & forall t, `|t| <= delta ->
   be_regular_all dim p tau nodes P (mu + t * e) /\ exists rt, res (axpy t y x) (mu + t * e) = Ok rt /\
    forall d, `|nth 0 rt d - nth 0 r d - t * nth 0 j d| <= K * t ^+ 2] by apply: be_global_derivative hx hy.
exists K, delta, r, j; split=> //; split; first by rewrite -hx; apply: (mat_vec_size hv hx er).
split; first by rewrite -hy; apply: (mat_vec2_size hv hy ej).
move=> t ht; have [h1 [rt [h2 h3]]] := H t ht; split=> //; exists rt; split=> //; split=> //.
have sa : size (axpy t y x) = N by rewrite /axpy size_map size_iota.
by rewrite -sa; apply: (mat_vec_size hv sa h2).
Qed.
End Bilap.
