(** Properties C118-C121: the eigenvalue drivers of reproducibles_python.  The operators of the wrapped C++ class, the
    norm and GMRES are arguments; the instances use the models of DiffusionEigs and BilaplacianEigs.
    Statements only; proofs are in L_Drivers to L_Drivers5, L_DriversNewt, L_DriversNewt2 and L_Newton. *)
From mathcomp Require Import all_ssreflect all_algebra.
From Verif Require Import S_Lapack S_LocalSolver M_Base M_Lapack M_Global S_Global M_DiffusionUniform M_Diffusion S_Diffusion.
From Verif Require Import S_GlobalParab M_DiffusionEigs S_DiffusionEigs S_GlobalEigs M_BilapEigs S_BilapEigs S_GlobalBilapEigs.
From Verif Require Import M_Drivers S_Drivers L_DiffusionUniform2 L_Lapack L_ParabEx L_EigsEx.
From Verif Require Import L_Drivers L_Drivers2 L_Drivers3 L_Drivers4 L_Drivers5 L_DriversNewt L_DriversNewt2 L_Newton L_DriversNorm.
Set Implicit Arguments. Unset Strict Implicit. Unset Printing Implicit Defensive.
Import Order.TTheory GRing.Theory Num.Theory.
Local Open Scope ring_scope.

(** * C118 index lists of helper_ev_approx *)
Section Lists.
Variables (N : nat) (dir : seq nat).
Hypotheses (hs : sorted ltn dir) (hN : all (fun d => d < N)%N dir).
Let n' := (N - size dir)%N.
(** The constructor succeeds; the lists number the free unknowns in increasing order. *)
Theorem C118_lists : exists ix, [/\ make_index N dir = Ok ix, size ix.1 = n', size ix.2 = N,
  forall i, (i < n')%N -> nth None ix.1 i = Some (nth 0%N (free_dofs N dir) i) &
  forall d, (d < N)%N -> nth None ix.2 d = if d \in dir then None else Some (index d (free_dofs N dir))].
Proof. exact: index_lists. Qed.
Variables (F : realFieldType) (ix : seq (option nat) * seq (option nat)).
Hypothesis hix : make_index N dir = Ok ix.
Theorem C118_long (v : seq F) : size v = n' -> long_vector ix v = Ok (extend N dir v) /\ vanishes dir (extend N dir v).
Proof. exact (fun h => conj (long_vectorE hs hN hix h) (extend_vanishes hs hN v)). Qed.
Theorem C118_short (x : seq F) : size x = N -> short_vector ix x = Ok (restrict N dir x).
Proof. exact (@short_vectorE dir hs N hN F ix x hix). Qed.
(** The two maps are inverse to each other on vectors that vanish at the constrained unknowns, and adjoint. *)
Theorem C118_short_long (v : seq F) : size v = n' -> obind (long_vector ix v) (short_vector ix) = Ok v.
Proof. exact (@short_long F N dir ix hs hN hix v). Qed.
Theorem C118_long_short (x : seq F) : size x = N -> vanishes dir x -> obind (short_vector ix x) (long_vector ix) = Ok x.
Proof. exact (@long_short F N dir ix hs hN hix x). Qed.
Theorem C118_adjoint (x v : seq F) : dot n' (restrict N dir x) v = dot N x (extend N dir v).
Proof. exact: adjoint. Qed.
End Lists.
Print Assumptions C118_lists. Print Assumptions C118_long. Print Assumptions C118_short.
Print Assumptions C118_short_long. Print Assumptions C118_long_short. Print Assumptions C118_adjoint.

(** The list that dirichlet_indices returns meets the hypotheses. *)
Section Wrapper.
Variables (dim nb : nat) (dirs : seq nat) (nodes : seq (seq nat)) (n_nodes : nat) (nt : nat -> nat) (types : nat -> seq nat).
Hypotheses (nb0 : (0 < nb)%N) (hv : valid_graph dim n_nodes (indexed nodes)).
Hypothesis hsz : forall i, size (types i) = (2 * dim)%N.
Hypothesis htp : forall i k, (i < size nodes)%N -> (k < 2 * dim)%N ->
  (nth 0%N (types i) k == 1%N) = (nt (nth 0%N (nth [::] nodes i) k) \in dirs).
Hypothesis hc : forall v, (v < n_nodes)%N -> nt v \in dirs -> has (fun l => v \in l) nodes.
Let dir := dirichlet_indices nb types [::] (indexed nodes).
Theorem C118_dirichlet : [/\ sorted ltn dir, all (fun d => d < n_nodes * nb)%N dir &
  forall d, (d \in dir) = (d < n_nodes * nb)%N && (nt (d %/ nb)%N \in dirs)].
Proof. exact (And3 (dir_sorted nb nodes types) (dir_all nb0 hv hsz htp hc) (dir_mem nb0 hv hsz htp hc)). Qed.
End Wrapper.
Print Assumptions C118_dirichlet.
Example C118_example : make_index 5 [:: 1; 3]%N = Ok ([:: Some 0%N; Some 2%N; Some 4%N],
  [:: Some 0%N; None; Some 1%N; None; Some 2%N]).
Proof. exact: index_example. Qed.
Print Assumptions C118_example.
(** The constructor accepts lists with duplicates and lists that are not increasing, and loses or mixes up unknowns. *)
Theorem C118_duplicate_refuted : make_index 3 [:: 0; 0]%N = Ok ([:: Some 1%N], [:: None; Some 0%N; None]) /\
  make_index 3 [:: 1; 0]%N = Ok ([:: Some 0%N], [:: Some 0%N; None; None]).
Proof. exact (conj duplicate_loses unsorted_wrong). Qed.
Print Assumptions C118_duplicate_refuted.

(** * C119 operators on the free unknowns *)
Section Ops.
Variables (F : realFieldType) (N : nat) (dir : seq nat) (ix : seq (option nat) * seq (option nat)).
Hypotheses (hs : sorted ltn dir) (hN : all (fun d => d < N)%N dir) (hix : make_index N dir = Ok ix).
Let n' := (N - size dir)%N.
Let ext := extend (F := F) N dir.
Let free i := nth 0%N (free_dofs N dir) i.
Implicit Types (v w x y k m : seq F).
Let symmetric (A : seq F -> seq F) := forall x y, size x = N -> size y = N -> vanishes dir x -> vanishes dir y ->
  dot N (A x) y = dot N (A y) x.
Let negative (A : seq F -> seq F) := forall x, size x = N -> vanishes dir x -> x != nseq N 0 -> dot N (A x) x < 0.

(** Drivers with mass flux: trace_to_flux is A, trace_to_mass_flux is M. *)
Section Approx.
Variables (flux0 mass_flux : seq F -> outcome (seq F)) (A M : seq F -> seq F) (sigma : F).
Hypotheses (hA : acts_as N flux0 A) (hM : acts_as N mass_flux M).
Theorem C119_stiff v : size v = n' -> exists2 k, ma_stiff flux0 ix v = Ok k &
  size k = n' /\ forall i, (i < n')%N -> nth 0 k i = - nth 0 (A (ext v)) (free i).
Proof. by move=> h; exact: (ma_stiffE hs hN hix hA h). Qed.
Theorem C119_mass v : size v = n' -> exists2 m, ma_mass mass_flux ix v = Ok m &
  size m = n' /\ forall i, (i < n')%N -> nth 0 m i = nth 0 (M (ext v)) (free i).
Proof. by move=> h; exact: (ma_massE hs hN hix hM h). Qed.
Theorem C119_stiff_symmetric v w k l : symmetric A -> size v = n' -> size w = n' ->
  ma_stiff flux0 ix v = Ok k -> ma_stiff flux0 ix w = Ok l -> dot n' k w = dot n' l v.
Proof. by move=> h; exact: (ma_stiff_sym hs hN hix hA h). Qed.
Theorem C119_mass_symmetric v w k l : symmetric M -> size v = n' -> size w = n' ->
  ma_mass mass_flux ix v = Ok k -> ma_mass mass_flux ix w = Ok l -> dot n' k w = dot n' l v.
Proof. by move=> h; exact: (ma_mass_sym hs hN hix hM h). Qed.
Theorem C119_stiff_positive v k : negative A -> size v = n' -> v != nseq n' 0 -> ma_stiff flux0 ix v = Ok k -> 0 < dot n' k v.
Proof. by move=> h; exact: (ma_pos hs hN hix hA h). Qed.
(** shifted_mult is the stiffness minus sigma times the mass. *)
Theorem C119_shifted v k m : size v = n' -> ma_stiff flux0 ix v = Ok k -> ma_mass mass_flux ix v = Ok m ->
  exists2 s, ma_shifted flux0 mass_flux sigma ix v = Ok s &
  size s = n' /\ forall i, (i < n')%N -> nth 0 s i = nth 0 k i - sigma * nth 0 m i.
Proof. exact: (ma_shiftedE hs hN hix sigma hA hM). Qed.
(** Eigenpairs of the reduced operators are those of the full ones. *)
Theorem C119_eigen v lam k m : size v = n' -> ma_stiff flux0 ix v = Ok k -> ma_mass mass_flux ix v = Ok m ->
  k = times lam m <-> forall d, (d < N)%N -> d \notin dir -> nth 0 (A (ext v)) d + lam * nth 0 (M (ext v)) d = 0.
Proof. exact: (ma_eigen hs hN hix hA hM). Qed.
End Approx.

(** Drivers with shifted inverse: trace_to_flux is A0 at 0 and As at sigma. *)
Section Inverse.
Variables (flux : seq F -> F -> outcome (seq F)) (A0 As : seq F -> seq F) (sigma : F).
Hypotheses (h0 : acts_as N (flux^~ 0) A0) (h1 : acts_as N (flux^~ sigma) As) (s0 : sigma != 0).
Theorem C119_inverse_mass v : size v = n' -> exists2 m, si_mass flux sigma ix v = Ok m &
  size m = n' /\ forall i, (i < n')%N -> nth 0 m i = - (nth 0 (A0 (ext v)) (free i) - nth 0 (As (ext v)) (free i)) / sigma.
Proof. by move=> h; exact: (si_massE hs hN hix h0 h1 h). Qed.
Theorem C119_inverse_shifted v k m : size v = n' -> si_stiff flux ix v = Ok k -> si_mass flux sigma ix v = Ok m ->
  exists2 s, si_shifted flux sigma ix v = Ok s &
  size s = n' /\ forall i, (i < n')%N -> nth 0 s i = nth 0 k i - sigma * nth 0 m i.
Proof. exact: (si_shiftedE hs hN hix h0 h1 s0). Qed.
Theorem C119_inverse_symmetric v w k l : symmetric As -> size v = n' -> size w = n' ->
  si_shifted flux sigma ix v = Ok k -> si_shifted flux sigma ix w = Ok l -> dot n' k w = dot n' l v.
Proof. by move=> h; exact: (si_sym hs hN hix h1 h). Qed.
Theorem C119_inverse_positive v k : negative A0 -> size v = n' -> v != nseq n' 0 -> si_stiff flux ix v = Ok k -> 0 < dot n' k v.
Proof. by move=> h; exact: (si_pos hs hN hix h0 h). Qed.
End Inverse.
End Ops.
Print Assumptions C119_stiff. Print Assumptions C119_mass. Print Assumptions C119_stiff_symmetric.
Print Assumptions C119_mass_symmetric. Print Assumptions C119_stiff_positive. Print Assumptions C119_shifted.
Print Assumptions C119_eigen. Print Assumptions C119_inverse_mass. Print Assumptions C119_inverse_shifted.
Print Assumptions C119_inverse_symmetric. Print Assumptions C119_inverse_positive.

Section Diffusion.
Variables (F : realFieldType) (gesv : nat -> nat -> seq F -> seq F -> sv_result F) (norm : seq F -> F).
Variables (dim p : nat) (dirs : seq nat) (tau : F).
Variables (nodes : seq (seq nat)) (n_nodes : nat) (nt : nat -> nat) (junk : seq (seq F)) (P : nat -> de_data F).
Hypotheses (dim0 : (0 < dim)%N) (hP : eigs_data_all dim p nodes P).
Hypothesis (hv : valid_graph dim n_nodes (indexed nodes)).
Hypothesis (hg : gesv_correct gesv).
Hypothesis (hj : size junk = (2 * dim)%N).
Hypothesis (hty : eigs_types dim nodes nt P).
Let nb := ((p + 1) ^ (dim - 1))%N.
Let N := (n_nodes * nb)%N.
Let dir := dirichlet_indices nb (fun i => de_node_types dim dirs (P i)) [::] (indexed nodes).
Let res := eigs_res gesv dim p dirs tau nodes junk P.
Let jac := eigs_jacobian gesv dim p dirs tau nodes junk P.
(** With shifted inverse, sigma itself is an eigenvalue of the reduced operators if and only if it is one of the discrete
    problem. *)
Theorem C119_diffusion ix sigma v k m : (forall v, (v < n_nodes)%N -> nt v \in dirs -> has (fun l => v \in l) nodes) ->
  make_index N dir = Ok ix -> 0 < tau -> sigma != 0 ->
  regular_all dim p tau nodes P sigma -> size v = (N - size dir)%N ->
  si_stiff res ix v = Ok k -> si_mass res sigma ix v = Ok m ->
  k = times sigma m <-> exists q u, eigenpair dim p dirs tau nodes n_nodes nt P (extend N dir v) sigma q u.
Proof. by move=> h; exact: (shifted_pair dim0 hP hv hg hj hty h). Qed.

(** * C120 the system of the Newton drivers *)
Hypothesis hnorm : forall v, norm v ^+ 2 = dot (size v) v v.
Theorem C120_diffusion_zeros x eig : regular_all dim p tau nodes P eig -> size x = N ->
  dir_free dim p dirs n_nodes nt x ->
  eval_residual norm res (rcons x eig) = Ok (nseq N.+1 0) <->
  (exists q u, eigenpair dim p dirs tau nodes n_nodes nt P x eig q u) /\ dot N x x = 1.
Proof. by move=> h; exact: (de_ext_zeros dim0 hP hv hg hj hnorm hty h). Qed.
Theorem C120_diffusion_derivative x y mu e : time_free_all nodes P -> regular_all dim p tau nodes P mu -> size x = N -> size y = N ->
  exists K delta r j, [/\ 0 < delta, eval_residual norm res (rcons x mu) = Ok r,
    eval_jacobian jac (rcons x mu) (rcons y e) = Ok j & forall t, `|t| <= delta ->
    regular_all dim p tau nodes P (mu + t * e) /\
    exists rt, eval_residual norm res (axpy t (rcons y e) (rcons x mu)) = Ok rt /\
    forall d, `|nth 0 rt d - nth 0 r d - t * nth 0 j d| <= K * t ^+ 2].
Proof. exact: (de_ext_derivative dirs dim0 hP hv hg hj hnorm). Qed.
End Diffusion.
Print Assumptions C119_diffusion. Print Assumptions C120_diffusion_zeros. Print Assumptions C120_diffusion_derivative.
(** One interval: the unknown 0 is constrained, and 3/2 is an eigenvalue with trace (0, 1). *)
Example C119_example (F : rcfType) (P := fun _ : nat => oneP (fun=> 1 : F) [:: 1; 0]%N)
  (dir := dirichlet_indices 1 (fun i => de_node_types 1 [:: 1%N] (P i)) [::] (indexed pair_nodes)) :
  [/\ dir = [:: 0%N], make_index 2 dir = Ok ([:: Some 1%N], [:: None; Some 0%N]), extend 2 dir [:: 1 : F] = [:: 0; 1],
  forall v, (v < 2)%N -> row_type v \in [:: 1%N] -> has (fun l => v \in l) pair_nodes &
  regular_all 1 0 1 pair_nodes P (3%:R / 2%:R)] /\
  exists q u, eigenpair 1 0 [:: 1%N] 1 pair_nodes 2 row_type P [:: 0; 1] (3%:R / 2%:R) q u.
Proof. exact: driver_example. Qed.
Print Assumptions C119_example.

Section Bilap.
Variables (F : realFieldType) (gesv : nat -> nat -> seq F -> seq F -> sv_result F) (norm : seq F -> F).
Variables (dim p : nat) (dirs laps : seq nat) (tau : F).
Variables (nodes : seq (seq nat)) (n_nodes : nat) (nt : nat -> nat) (junk : seq (seq F)) (P : nat -> be_data F).
Hypotheses (dim0 : (0 < dim)%N) (hP : be_data_all dim p nodes P).
Hypothesis (hv : valid_graph dim n_nodes (indexed nodes)).
Hypothesis (hg : gesv_correct gesv).
Hypothesis (hj : size junk = (2 * dim)%N).
Hypothesis (hty : be_types dim nodes nt P).
Let nb := ((p + 1) ^ (dim - 1))%N.
Let N := (n_nodes * (2 * nb))%N.
Let dir := dirichlet_indices (2 * nb) (fun i => be_node_types dim dirs (P i)) [::] (indexed nodes).
Let res := be_res gesv dim p dirs laps tau nodes junk P.
Let jac := be_jac_global gesv dim p dirs laps tau nodes junk P.
Let covered := forall v, (v < n_nodes)%N -> nt v \in dirs -> has (fun l => v \in l) nodes.
Theorem C119_bilaplacian ix sigma v k m : covered ->
  (forall v, (v < n_nodes)%N -> (nt v \in dirs) = (nt v \in laps)) ->
  make_index N dir = Ok ix -> 0 < tau -> sigma != 0 ->
  be_regular_all dim p tau nodes P sigma -> size v = (N - size dir)%N ->
  si_stiff res ix v = Ok k -> si_mass res sigma ix v = Ok m ->
  k = times sigma m <-> exists q u r w, bi_eigenpair dim p dirs laps tau nodes n_nodes nt P (extend N dir v) sigma q u r w.
Proof. by move=> h; exact: (be_shifted_pair dim0 hP hv hg hj hty h). Qed.
(** Where u is given, the helper sets w to zero, whether w is given or not. *)
Theorem C119_bilaplacian_w_refuted v j x : covered -> (v < n_nodes)%N -> (j < nb)%N -> nt v \in dirs ->
  nth 0 (extend (F := F) N dir x) (v * (2 * nb) + (nb + j)) = 0.
Proof. by move=> h h1 h2 h3; exact (@be_removed_zero F dim p dirs nodes n_nodes nt P hv hty h v j x h1 h2 h3). Qed.

Hypothesis hnorm : forall v, norm v ^+ 2 = dot (size v) v v.
Theorem C120_bilaplacian_zeros x eig : be_regular_all dim p tau nodes P eig -> size x = N ->
  be_off dim p dirs laps n_nodes nt x ->
  eval_residual norm res (rcons x eig) = Ok (nseq N.+1 0) <->
  (exists q u r w, bi_eigenpair dim p dirs laps tau nodes n_nodes nt P x eig q u r w) /\ dot N x x = 1.
Proof. by move=> h; exact: (be_ext_zeros dim0 hv hg hj hnorm hty h). Qed.
Theorem C120_bilaplacian_derivative x y mu e : be_time_free_all nodes P -> be_regular_all dim p tau nodes P mu -> size x = N -> size y = N ->
  exists K delta r j, [/\ 0 < delta, eval_residual norm res (rcons x mu) = Ok r,
    eval_jacobian jac (rcons x mu) (rcons y e) = Ok j & forall t, `|t| <= delta ->
    be_regular_all dim p tau nodes P (mu + t * e) /\
    exists rt, eval_residual norm res (axpy t (rcons y e) (rcons x mu)) = Ok rt /\
    forall d, `|nth 0 rt d - nth 0 r d - t * nth 0 j d| <= K * t ^+ 2].
Proof. exact: (be_ext_derivative dirs laps dim0 hP hv hg hj hnorm). Qed.
End Bilap.
Print Assumptions C119_bilaplacian. Print Assumptions C119_bilaplacian_w_refuted.
Print Assumptions C120_bilaplacian_zeros. Print Assumptions C120_bilaplacian_derivative.

(** The start vector given by another driver is a multiple of length 1 with the same eigenvalue, so that the last row of
    its residual vanishes; normalising it again changes nothing. *)
Section Normalise.
Variables (F : realFieldType) (norm : seq F -> F).
Hypothesis hnorm : forall v, norm v ^+ 2 = dot (size v) v v.
Theorem C120_normalise x eig : has (fun a => a != 0) x -> exists c : F, [/\ c != 0,
  normalise norm (rcons x eig) = rcons (times c x) eig & dot (size x) (times c x) (times c x) = 1].
Proof. exact: (normaliseP hnorm). Qed.
Theorem C120_normalise_row (flux : seq F -> F -> outcome (seq F)) x eig r r' : has (fun a => a != 0) x ->
  flux (normalise norm (rcons x eig)) eig = Ok (rcons r r') ->
  eval_residual norm flux (normalise norm (rcons x eig)) = Ok (rcons r 0).
Proof. exact: (normalise_row hnorm). Qed.
Theorem C120_normalise_again x eig : (forall v, 0 <= norm v) -> has (fun a => a != 0) x ->
  normalise norm (normalise norm (rcons x eig)) = normalise norm (rcons x eig).
Proof. exact: (normalise_again hnorm). Qed.
End Normalise.
Print Assumptions C120_normalise. Print Assumptions C120_normalise_row. Print Assumptions C120_normalise_again.
(** The norm that meets the hypotheses. *)
Example C120_norm (F : rcfType) (v : seq F) : Num.sqrt (dot (size v) v v) ^+ 2 = dot (size v) v v /\ 0 <= Num.sqrt (dot (size v) v v).
Proof. exact: norm_example. Qed.
Print Assumptions C120_norm.

(** * C121 the damped Newton method of the drivers *)
Section Newton.
Variables (F : realFieldType) (norm : seq F -> F) (gmres : seq F -> seq F -> F -> seq F * nat).
Variable res : seq F -> outcome (seq F).
Hypothesis norm0 : forall v, 0 <= norm v.
(** A result has a residual below 10^-9, reached in at most ten steps each of which reduces the norm at least by the
    factor 1 - 1/10 * 1/2 * 10^-4. *)
Theorem C121_result x0 x : newton norm gmres res x0 = Ok x -> exists r0 r k, [/\ res x0 = Ok r0, res x = Ok r,
  norm r < 10%:R ^- 9, (0 < k <= 10)%N & norm r <= (1 - 10%:R^-1 * (2%:R^-1 * 10%:R ^- 4)) ^+ k * norm r0].
Proof. exact: (newtonP norm0). Qed.
(** The line search ends. *)
Theorem C121_ends x0 : (forall x, res x <> UB) -> newton norm gmres res x0 <> UB.
Proof. exact: newton_ub. Qed.
(** What all steps along the updates of GMRES keep holds for the result. *)
Theorem C121_invariant (Q : seq F -> Prop) x0 x :
  (forall x r t u k g x', Q x -> res x = Ok r -> gmres x r t = (u, k) -> step x u g = Ok x' -> Q x') ->
  Q x0 -> newton norm gmres res x0 = Ok x -> Q x.
Proof. exact: newton_inv. Qed.
(** If the full first step leads to a zero of the residual, this zero is returned. *)
Theorem C121_exact x0 r0 u x1 r1 : res x0 = Ok r0 -> gmres x0 r0 (10%:R ^- 2 * norm r0) = (u, 0%N) ->
  np_subtract x0 u = Ok x1 -> res x1 = Ok r1 -> norm r1 = 0 -> newton norm gmres res x0 = Ok x1.
Proof. exact: (newton_one norm0). Qed.
(** If GMRES does not converge in the first step, the driver raises an exception; BiCGStab is never tried. *)
Theorem C121_gmres_refuted x0 r0 : res x0 = Ok r0 -> (gmres x0 r0 (10%:R ^- 2 * norm r0)).2 != 0%N ->
  newton norm gmres res x0 = Throw.
Proof. exact: newton_fails. Qed.
End Newton.
Print Assumptions C121_result. Print Assumptions C121_ends. Print Assumptions C121_invariant.
Print Assumptions C121_exact. Print Assumptions C121_gmres_refuted.
(** One unknown, the residual x, and the exact update. *)
Example C121_example (F : realFieldType) (a : F) :
  newton (fun v => `|nth 0 v 0|) (fun _ r _ => (r, 0%N)) (fun x => Ok x) [:: a] = Ok [:: 0].
Proof. exact: newton_example. Qed.
Print Assumptions C121_example.
