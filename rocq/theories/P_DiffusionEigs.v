(** Properties C77-C79: the local solver DiffusionEigs, its Jacobian and the discrete eigenvalue problem.  The
    integrals of TPP and the LAPACK solver enter with the contracts of S_DiffusionEigs and S_LocalSolver.
    Statements only; proofs are in L_DiffusionEigs2, L_DiffusionEigs3, L_EigsEx, L_GlobalEigs and L_GlobalEigs2. *)
From mathcomp Require Import all_ssreflect all_algebra.
From Verif Require Import M_Base M_Index M_DenseLA S_DenseLA M_Lapack S_Lapack S_Hdg S_Tpp M_DiffusionUniform M_Diffusion.
From Verif Require Import S_LocalSolver S_Diffusion S_TppGeo M_Global S_Global S_GlobalParab M_DiffusionEigs S_DiffusionEigs S_GlobalEigs.
From Verif Require Import L_DiffusionUniform2 L_Lapack L_DiffusionEigs2 L_DiffusionEigs3 L_ParabEx L_EigsEx L_GlobalEigs L_GlobalEigs2.
From Verif Require Import L_FluxChecks.
Set Implicit Arguments. Unset Strict Implicit. Unset Printing Implicit Defensive.
Import Order.TTheory GRing.Theory Num.Theory.
Local Open Scope ring_scope.

Section Local.
Variable F : realFieldType.
Variables (gesv : nat -> nat -> seq F -> seq F -> sv_result F).
Variables (dim p : nat) (dirs : seq nat) (tau : F) (P : de_data F).
Hypotheses (dim0 : (0 < dim)%N) (hP : eigs_data dim p P) (hg : gesv_correct gesv).
Let nF := (2 * dim)%N.
Let nb := ((p + 1) ^ (dim - 1))%N.
Let flux := de_trace_to_flux gesv dim p dirs tau P.
Let jacobian := de_jacobian gesv dim p dirs tau P.
Let regular := regular dim p tau P.
Let mask (f : nat) : bool := nth 0%N (df_types (de_df P)) f \in dirs.

(** * C77 trace_to_flux at a given eigenvalue *)
(** At regular eig, the fluxes of the local solution with source eig u, zero on Dirichlet faces. *)
Theorem C77_flux eig x out : regular eig -> is_trace nF nb x -> is_trace nF nb out -> exists y q u,
  [/\ flux x out eig = Ok y, eig_loc dim p tau P eig q u (tr nb x) 0 & eig_flux_of dim p dirs tau P eig x q u y].
Proof. exact: eigs_flux. Qed.
Theorem C77_unique eig x ru q u q' u' : regular eig -> eig_loc dim p tau P eig q u x ru ->
  eig_loc dim p tau P eig q' u' x ru -> (forall d, q d = q' d) /\ u = u'.
Proof. exact: loc_unique_e. Qed.
Theorem C77_linear eig c x x' out : regular eig -> is_trace nF nb x -> is_trace nF nb x' -> is_trace nF nb out ->
  exists y y', [/\ flux x out eig = Ok y, flux x' out eig = Ok y' &
    flux (comb_trace c nF nb x x') out eig = Ok (comb_trace c nF nb y y')].
Proof. exact: eigs_linear. Qed.
Theorem C77_symmetric eig x x' out : regular eig -> is_trace nF nb x -> is_trace nF nb x' -> is_trace nF nb out ->
  vanishes mask nF nb x -> vanishes mask nF nb x' ->
  exists y y', [/\ flux x out eig = Ok y, flux x' out eig = Ok y' & pairing nF nb x' y = pairing nF nb x y'].
Proof. exact: eigs_symmetric. Qed.
(** Values that are not positive are regular, and the fluxes are those of a negative form. *)
Theorem C77_nonpositive eig : 0 < tau -> eig <= 0 -> regular eig.
Proof. exact: eigs_neg. Qed.
Theorem C77_negative eig x out : 0 < tau -> eig <= 0 -> is_trace nF nb x -> is_trace nF nb out ->
  vanishes mask nF nb x -> exists y, flux x out eig = Ok y /\ pairing nF nb x y <= 0.
Proof. exact: eigs_negative. Qed.
(** There are at most (p+1)^dim values that are not regular. *)
Theorem C77_few s : time_free P -> 0 < tau -> uniq s -> (forall eig, eig \in s -> ~ regular eig) ->
  (size s <= (p + 1) ^ dim)%N.
Proof. exact: (eigs_few dim0 hP hg). Qed.
(** At these values the solver stops. *)
Theorem C77_irregular eig x out : gesv_detects gesv -> ~ regular eig -> is_trace nF nb x -> is_trace nF nb out ->
  flux x out eig = Abort.
Proof. exact: eigs_irregular. Qed.

(** Traces of the wrong size end in an assertion. *)
Theorem C77_checked eig mu v x out : ~ is_trace nF nb x \/ ~ is_trace nF nb out ->
  flux x out eig = Abort /\ jacobian x out eig v mu = Abort.
Proof. exact: eigs_checked. Qed.

(** * C78 jacobian_of_trace_to_flux is the derivative *)
Theorem C78_derivative mu e x eta out out' : time_free P -> regular mu -> is_trace nF nb x -> is_trace nF nb eta ->
  is_trace nF nb out -> is_trace nF nb out' -> exists K delta y0 j,
  [/\ 0 < delta, flux x out mu = Ok y0, jacobian eta out' e x mu = Ok j & forall t, `|t| <= delta ->
   regular (mu + t * e) /\ exists yt, flux (comb_trace t nF nb eta x) out (mu + t * e) = Ok yt /\
    forall (f : 'I_nF) (k : 'I_nb), `|tr nb yt f k 0 - tr nb y0 f k 0 - t * tr nb j f k 0| <= K * t ^+ 2].
Proof. exact: eigs_derivative. Qed.
End Local.
Print Assumptions C77_flux.
Print Assumptions C77_unique.
Print Assumptions C77_linear.
Print Assumptions C77_symmetric.
Print Assumptions C77_nonpositive.
Print Assumptions C77_negative.
Print Assumptions C77_few.
Print Assumptions C77_irregular.
Print Assumptions C77_checked.
Print Assumptions C78_derivative.
(** Not so if the coefficient depends on time, for which the solver inserts the eigenvalue: the Jacobian misses
    this part. *)
Theorem C78_time_refuted (F : rcfType) (tau : F) (gesv : nat -> nat -> seq F -> seq F -> sv_result F) :
  0 < tau -> gesv_correct gesv -> exists (P : de_data F) (x : seq (seq F)) y0 j (zero := nseq 2 (nseq 1 0)),
  [/\ eigs_data 1 0 P, is_trace 2 1 x, de_trace_to_flux gesv 1 0 [::] tau P x zero 0 = Ok y0,
      de_jacobian gesv 1 0 [::] tau P zero zero 1 x 0 = Ok j &
  forall K delta, 0 < delta -> exists t yt,
   [/\ `|t| <= delta, regular 1 0 tau P t, de_trace_to_flux gesv 1 0 [::] tau P x zero t = Ok yt &
    K * t ^+ 2 < `|nth 0 (nth [::] yt 0) 0 - nth 0 (nth [::] y0 0) 0 - t * nth 0 (nth [::] j 0) 0|]].
Proof. exact: time_missed. Qed.
Print Assumptions C78_time_refuted.
Example C77_example (F : rcfType) (dim : nat) (types : seq nat) :
  [/\ gesv_correct (@inv_gesv F), gesv_detects (@inv_gesv F) &
    exists P : de_data F, [/\ eigs_data dim 1 P, time_free P & df_types (de_df P) = types]].
Proof. exact: eigs_example. Qed.
Print Assumptions C77_example.

Section Global.
Variables (F : realFieldType) (gesv : nat -> nat -> seq F -> seq F -> sv_result F).
Variables (dim p : nat) (dirs : seq nat) (tau : F).
Variables (nodes : seq (seq nat)) (n_nodes : nat) (nt : nat -> nat) (junk : seq (seq F)) (P : nat -> de_data F).
Hypotheses (dim0 : (0 < dim)%N) (hP : eigs_data_all dim p nodes P).
Hypothesis (hv : valid_graph dim n_nodes (indexed nodes)).
Let N := (n_nodes * (p + 1) ^ (dim - 1))%N.
Let residual := eigs_res gesv dim p dirs tau nodes junk P.
Let jacobian := eigs_jacobian gesv dim p dirs tau nodes junk P.
Let regular := regular_all dim p tau nodes P.
Let free (x : seq F) : Prop := dir_free dim p dirs n_nodes nt x.
Let eigenpair := eigenpair dim p dirs tau nodes n_nodes nt P.
Let inner := inner dim p nodes P.

(** The same for the global functions on a hypergraph. *)
Theorem C78_global x y mu e : gesv_correct gesv -> size junk = (2 * dim)%N ->
  time_free_all nodes P -> regular mu -> size x = N -> size y = N ->
  exists K delta r j, [/\ 0 < delta, residual x mu = Ok r, jacobian y e x mu = Ok j & forall t, `|t| <= delta ->
   regular (mu + t * e) /\ exists rt, residual (axpy t y x) (mu + t * e) = Ok rt /\
    forall d, `|nth 0 rt d - nth 0 r d - t * nth 0 j d| <= K * t ^+ 2].
Proof. move=> hg hj; exact: eigs_global_derivative. Qed.

(** * C79 the discrete eigenvalue problem *)
(** The zeros of the residual are the eigenpairs. *)
Theorem C79_zeros eig x : gesv_correct gesv -> size junk = (2 * dim)%N -> eigs_types dim nodes nt P ->
  regular eig -> size x = N -> free x ->
  residual x eig = Ok (nseq N 0) <-> exists q u, eigenpair x eig q u.
Proof. move=> hg hj hty hr; exact: eigen_char. Qed.
(** The eigenvalue is the quotient of the energy and the square of the L2 norm. *)
Theorem C79_rayleigh x eig q u : eigenpair x eig q u -> eig * inner u u = eig_energy dim p tau nodes P eig x q u.
Proof. exact: rayleigh. Qed.
Theorem C79_norm x eig q u d : 0 < tau -> covered dirs nodes n_nodes nt -> eigenpair x eig q u -> nth 0 x d != 0 ->
  0 < inner u u /\ 0 <= eig.
Proof. move=> t0; exact: pair_norm_eig. Qed.
(** With a chain of hyperedges from every hypernode to a Dirichlet node, eigenvalues are positive. *)
Theorem C79_positive x eig q u d : 0 < tau ->
  (forall v, (v < n_nodes)%N -> anchored (indexed nodes) (fun v => nt v \in dirs) v) ->
  eigenpair x eig q u -> nth 0 x d != 0 -> 0 < eig.
Proof. move=> t0; exact: pair_eig_gt0. Qed.
Theorem C79_orthogonal x eig q u x' eig' q' u' : time_free_all nodes P -> eigenpair x eig q u ->
  eigenpair x' eig' q' u' -> eig != eig' -> inner u u' = 0.
Proof. exact: orthogonal. Qed.
(** At most as many eigenvalues as bulk functions. *)
Theorem C79_count s : 0 < tau -> time_free_all nodes P -> covered dirs nodes n_nodes nt -> uniq s ->
  (forall eig, eig \in s -> exists x q u d, eigenpair x eig q u /\ nth 0 x d != 0) ->
  (size s <= size nodes * (p + 1) ^ dim)%N.
Proof. move=> t0; exact: pair_count. Qed.
End Global.
Print Assumptions C78_global.
Print Assumptions C79_zeros.
Print Assumptions C79_rayleigh.
Print Assumptions C79_norm.
Print Assumptions C79_positive.
Print Assumptions C79_orthogonal.
Print Assumptions C79_count.
Example C79_example (F : rcfType) (P := fun _ : nat => oneP (fun=> 1 : F) [:: 1; 0]%N) :
  [/\ valid_graph 1 2 (indexed pair_nodes),
    forall v, (v < 2)%N -> anchored (indexed pair_nodes) (fun v => row_type v \in [:: 1%N]) v,
    eigs_data_all 1 0 pair_nodes P, eigs_types 1 pair_nodes row_type P & time_free_all pair_nodes P] /\
  eigenpair 1 0 [:: 1%N] 1 pair_nodes 2 row_type P [:: 0; 1] (3%:R / 2%:R)
    (fun _ _ => const_mx (-1)) (fun _ => const_mx 2%:R).
Proof. exact: pair_exists. Qed.
Print Assumptions C79_example.
