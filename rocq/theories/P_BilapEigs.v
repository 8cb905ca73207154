(** Properties C115-C117: the local solver BilaplacianEigs, its Jacobian and the discrete eigenvalue problem.  The
    integrals of TPP and the LAPACK solver enter with the contracts of S_BilapEigs and S_LocalSolver.
    Statements only; proofs are in L_BilapEigs to L_BilapEigsEx, L_BiNear, L_BilapSquare and L_GlobalBilapEigs. *)
From mathcomp Require Import all_ssreflect all_algebra.
From Verif Require Import M_Base M_Lapack S_Lapack S_Hdg S_Tpp M_DiffusionUniform M_Diffusion.
From Verif Require Import S_LocalSolver S_Diffusion S_TppGeo M_Global S_Global S_GlobalParab M_DiffusionEigs S_DiffusionEigs S_GlobalEigs.
From Verif Require Import M_Bilaplacian S_Bilaplacian S_BiReact M_BilapEigs S_BilapEigs S_GlobalBilapEigs.
From Verif Require Import L_DiffusionUniform2 L_Lapack L_ParabEx L_EigsEx L_Bilaplacian6 L_BiFlux L_BilapEigs2 L_GlobalBilapEigs L_BilapSquare L_BilapEigsEx.
Set Implicit Arguments. Unset Strict Implicit. Unset Printing Implicit Defensive.
Import Order.TTheory GRing.Theory Num.Theory.
Local Open Scope ring_scope.

Section Local.
Variables (F : realFieldType) (gesv : nat -> nat -> seq F -> seq F -> sv_result F).
Variables (dim p : nat) (dirs laps : seq nat) (tau : F) (P : be_data F).
Let D := bl_df (be_bl P).
Hypotheses (dim0 : (0 < dim)%N) (hP : bi_eigs_data dim p P) (hg : gesv_correct gesv).
Let nF := (2 * dim)%N.
Let nf := ((p + 1) ^ dim)%N.
Let nb := ((p + 1) ^ (dim - 1))%N.
Let is_tr := is_trace (F := F) nF (2 * nb).
(** Traces of u and of w. *)
Let lo (x : seq (seq F)) : 'I_nF -> 'cV[F]_nb := tr nb (lower nb x).
Let hi (x : seq (seq F)) : 'I_nF -> 'cV[F]_nb := tr nb (upper nb x).
Let pair := pairing (F := F) nF (2 * nb).
Let flux := be_trace_to_flux gesv dim p dirs laps tau P.
Let jacobian := be_jacobian gesv dim p dirs laps tau P.
Let regular := be_regular dim p tau P.
Let loc := bi_eig_loc dim p tau P.
Let fluxes := be_flux dim p dirs laps tau P.
Let nflux (eig : F) := num_flux (bl_hdg dim p (be_at P eig)) tau.
(** Zero in the halves that belong to boundary conditions. *)
Let off (x : seq (seq F)) : Prop := bi_vanishes dim p dirs laps (be_bl P) x.
Let mask (f : nat) : bool := nth 0%N (df_types D) f \in dirs.
Let mask2 (f : nat) : bool := nth 0%N (df_types D) f \in laps.
Let W (eig : F) := bl_coef dim p (be_at P eig).

(** * C115 trace_to_flux at a given eigenvalue *)
(** At regular eig, the fluxes of the solution of the local problem with source eig u for w. *)
Theorem C115_flux eig x out : regular eig -> is_tr x -> is_tr out -> exists2 y, flux x out eig = Ok y &
  exists q u r w, loc eig q u r w (lo x) (hi x) 0 /\ fluxes eig q u r w (lo x) (hi x) y.
Proof. exact: be_flux_. Qed.
Theorem C115_unique eig x y rw q u r w q' u' r' w' : regular eig -> loc eig q u r w x y rw -> loc eig q' u' r' w' x y rw ->
  [/\ forall d, q d = q' d, u = u', forall d, r d = r' d & w = w'].
Proof. exact: be_unique. Qed.
Theorem C115_linear eig c x x' out out' out'' : regular eig ->
  is_tr x -> is_tr x' -> is_tr out -> is_tr out' -> is_tr out'' ->
  exists y y', [/\ flux x out eig = Ok y, flux x' out' eig = Ok y' &
    flux (comb_trace c nF (2 * nb) x x') out'' eig = Ok (comb_trace c nF (2 * nb) y y')].
Proof. move=> hr; exact: (flux_linear hr (fun x out => @be_flux_ F gesv dim p dirs laps tau P dim0 hg eig x out hr)). Qed.
Theorem C115_dirichlet eig x out : regular eig -> is_tr x -> is_tr out ->
  exists2 y, flux x out eig = Ok y & is_tr y /\ off y.
Proof. move=> hr; exact: (flux_dirichlet (fun x out => @be_flux_ F gesv dim p dirs laps tau P dim0 hg eig x out hr)). Qed.
Theorem C115_symmetric eig x x' out out' : regular eig -> is_tr x -> is_tr x' -> is_tr out -> is_tr out' ->
  off x -> off x' ->
  exists y y', [/\ flux x out eig = Ok y, flux x' out' eig = Ok y' & pair x' y = pair x y'].
Proof. move=> hr; exact: (flux_symmetric dim0 (be_data_at hP eig) (fun x out => @be_flux_ F gesv dim p dirs laps tau P dim0 hg eig x out hr)). Qed.
(** The difference of the pairings with the traces of u and of w. *)
Theorem C115_energy eig x out : regular eig -> is_tr x -> is_tr out -> off x ->
  exists y q u r w, [/\ flux x out eig = Ok y, loc eig q u r w (lo x) (hi x) 0 &
    pairing nF nb (lower nb x) (lower nb y) - pairing nF nb (upper nb x) (upper nb y) =
    eig * (be_area P * dotv u u) - dotv w (W eig *m w)].
Proof. move=> hr; exact: be_energy. Qed.
(** Values that are not positive are regular; of the others at most (p+1)^dim are not. *)
Theorem C115_nonpositive eig : 0 < tau -> eig <= 0 -> regular eig.
Proof. exact: be_neg. Qed.
Theorem C115_few s : be_time_free P -> 0 < tau -> uniq s -> (forall eig, eig \in s -> ~ regular eig) -> (size s <= nf)%N.
Proof. exact: (be_few dim0 hP hg). Qed.
(** At these values the solver stops. *)
Theorem C115_irregular eig x out : gesv_detects gesv -> ~ regular eig -> is_tr x -> is_tr out -> flux x out eig = Abort.
Proof. exact: be_irregular_. Qed.
(** At zero the fluxes are those of Bilaplacian. *)
Theorem C115_zero x out : 0 < tau -> is_tr x -> is_tr out ->
  exists2 y, flux x out 0 = Ok y & bl_trace_to_flux gesv dim p dirs laps tau (be_at P 0) x out = Ok y.
Proof. exact: be_zero. Qed.
(** Traces of the wrong size and failures of LAPACK stop the program. *)
Theorem C115_checked eig mu v x out : ~ is_tr x \/ ~ is_tr out -> flux x out eig = Abort /\ jacobian x out eig v mu = Abort.
Proof. exact: be_checked. Qed.
(** make_initial exchanges face and face function, and numbers the functions of the second half from nb on. *)
Theorem C115_initial x : is_tr x -> be_make_initial dirs P x =
  mkseq (fun f => mkseq (fun j => if mask f then 0
                           else if (j < nb)%N then df_initial D j f else bl_initlap (be_bl P) j f) (2 * nb)) nF.
Proof. exact: be_initial_. Qed.
(** The plotted function is the local solution. *)
Theorem C115_bulk eig x absc : regular eig -> is_tr x -> exists q u r w, loc eig q u r w (lo x) (hi x) 0 /\
  be_bulk_values gesv dim p tau P absc x eig =
  Ok (rcons [seq mkseq (df_eval D absc (coeffs_of (q d))) (size absc ^ dim) | d <- enum 'I_dim]
            (mkseq (df_eval D absc (coeffs_of u)) (size absc ^ dim))).
Proof. exact: be_bulk_. Qed.

(** * C116 jacobian_of_trace_to_flux *)
Theorem C116_form mu e x out vals : regular mu -> is_tr x -> is_tr out -> is_tr vals ->
  exists y q0 u0 r0 w0 q1 u1 r1 w1 q2 u2 r2 w2,
  [/\ jacobian x out e vals mu = Ok y, loc mu q0 u0 r0 w0 (lo vals) (hi vals) 0, loc mu q1 u1 r1 w1 (lo x) (hi x) 0,
      loc mu q2 u2 r2 w2 (fun=> 0) (fun=> 0) ((e * be_area P) *: u0) &
  [/\ is_tr y, forall f : 'I_nF, lo y f = (if mask f then 0 else nflux mu r1 w1 (hi x) f + nflux mu r2 w2 (fun=> 0) f)
   & forall f : 'I_nF, hi y f = (if mask2 f then 0 else nflux mu q1 u1 (lo x) f + nflux mu q2 u2 (fun=> 0) f)]].
Proof. exact: be_jac. Qed.
(** It is the derivative if the coefficient does not depend on time. *)
Theorem C116_derivative mu e x eta out out' : be_time_free P -> regular mu -> is_tr x -> is_tr eta ->
  is_tr out -> is_tr out' -> exists K delta y0 j,
  [/\ 0 < delta, flux x out mu = Ok y0, jacobian eta out' e x mu = Ok j & forall t, `|t| <= delta ->
   regular (mu + t * e) /\ exists yt, flux (comb_trace t nF (2 * nb) eta x) out (mu + t * e) = Ok yt /\
    forall (f : 'I_nF) (k : 'I_(2 * nb)),
      `|tr (2 * nb) yt f k 0 - tr (2 * nb) y0 f k 0 - t * tr (2 * nb) j f k 0| <= K * t ^+ 2].
Proof. exact: be_derivative. Qed.
End Local.
Print Assumptions C115_flux.
Print Assumptions C115_unique.
Print Assumptions C115_linear.
Print Assumptions C115_dirichlet.
Print Assumptions C115_symmetric.
Print Assumptions C115_energy.
Print Assumptions C115_nonpositive.
Print Assumptions C115_few.
Print Assumptions C115_irregular.
Print Assumptions C115_zero.
Print Assumptions C115_checked.
Print Assumptions C115_initial.
Print Assumptions C115_bulk.
Print Assumptions C116_form.
Print Assumptions C116_derivative.
Theorem C115_node_types (F : realFieldType) dim dirs (P : be_data F) : be_node_types dim dirs P =
  mkseq (fun f => if nth 0%N (df_types (bl_df (be_bl P))) f \in dirs then 1%N else 0%N) (2 * dim).
Proof. exact: bilap_node_types. Qed.
Print Assumptions C115_node_types.
Theorem C115_lapack (F : realFieldType) (gesv : nat -> nat -> seq F -> seq F -> sv_result F) dim p dirs laps tau (P : be_data F)
  eig mu v x out : (forall n nc A b, ~~ sv_info (gesv n nc A b)) ->
  be_trace_to_flux gesv dim p dirs laps tau P x out eig = Abort /\
  be_jacobian gesv dim p dirs laps tau P x out eig v mu = Abort.
Proof. exact: be_lapack. Qed.
Print Assumptions C115_lapack.
(** Not the derivative if the coefficient depends on time, for which the solver inserts the eigenvalue. *)
Theorem C116_time_refuted (F : rcfType) (tau : F) (gesv : nat -> nat -> seq F -> seq F -> sv_result F) :
  0 < tau -> gesv_correct gesv -> exists (P : be_data F) (x : seq (seq F)) y0 j (zero := nseq 2 (nseq 2 0)),
  [/\ bi_eigs_data 1 0 P, is_trace 2 2 x, be_trace_to_flux gesv 1 0 [::] [::] tau P x zero 0 = Ok y0,
      be_jacobian gesv 1 0 [::] [::] tau P zero zero 1 x 0 = Ok j &
  forall K delta, 0 < delta -> exists t yt,
   [/\ `|t| <= delta, be_regular 1 0 tau P t, be_trace_to_flux gesv 1 0 [::] [::] tau P x zero t = Ok yt &
    K * t ^+ 2 < `|nth 0 (nth [::] yt 0) 1 - nth 0 (nth [::] y0 0) 1 - t * nth 0 (nth [::] j 0) 1|]].
Proof. exact: bi_time_missed. Qed.
Print Assumptions C116_time_refuted.
Example C115_example (F : rcfType) (dim : nat) (types : seq nat) :
  [/\ gesv_correct (@inv_gesv F), gesv_detects (@inv_gesv F) &
    exists P : be_data F, [/\ bi_eigs_data dim 1 P, be_time_free P & df_types (bl_df (be_bl P)) = types]].
Proof. exact: bi_eigs_example. Qed.
Print Assumptions C115_example.

Section Global.
Variables (F : realFieldType) (gesv : nat -> nat -> seq F -> seq F -> sv_result F).
Variables (dim p : nat) (dirs laps : seq nat) (tau : F).
Variables (nodes : seq (seq nat)) (n_nodes : nat) (nt : nat -> nat) (junk : seq (seq F)) (P : nat -> be_data F).
Hypotheses (dim0 : (0 < dim)%N) (hP : be_data_all dim p nodes P).
Hypothesis (hv : valid_graph dim n_nodes (indexed nodes)).
Let N := (n_nodes * (2 * (p + 1) ^ (dim - 1)))%N.
Let residual := be_res gesv dim p dirs laps tau nodes junk P.
Let jacobian := be_jac_global gesv dim p dirs laps tau nodes junk P.
Let regular := be_regular_all dim p tau nodes P.
Let off (x : seq F) : Prop := be_off dim p dirs laps n_nodes nt x.
Let eigenpair := bi_eigenpair dim p dirs laps tau nodes n_nodes nt P.
Let inner := bi_inner dim p nodes P.
Let weighted := bi_weighted dim p nodes P.
(** u and w are given at the same hypernodes. *)
Let same := forall v, (v < n_nodes)%N -> (nt v \in dirs) = (nt v \in laps).

(** The derivative of the global function on a hypergraph. *)
Theorem C116_global x y mu e : gesv_correct gesv -> size junk = (2 * dim)%N ->
  be_time_free_all nodes P -> regular mu -> size x = N -> size y = N ->
  exists K delta r j, [/\ 0 < delta, residual x mu = Ok r, jacobian y e x mu = Ok j & forall t, `|t| <= delta ->
   regular (mu + t * e) /\ exists rt, residual (axpy t y x) (mu + t * e) = Ok rt /\
    forall d, `|nth 0 rt d - nth 0 r d - t * nth 0 j d| <= K * t ^+ 2].
Proof. move=> hg hj; exact: be_global_derivative. Qed.

(** * C117 the discrete eigenvalue problem *)
(** The zeros of the residual are the eigenpairs. *)
Theorem C117_zeros eig x : gesv_correct gesv -> size junk = (2 * dim)%N -> be_types dim nodes nt P ->
  regular eig -> size x = N -> off x ->
  residual x eig = Ok (nseq N 0) <-> exists q u r w, eigenpair x eig q u r w.
Proof. move=> hg hj hty hr; exact: bi_eigen_char. Qed.
(** The eigenvalue is the quotient of the weighted square of w and the square of u. *)
Theorem C117_rayleigh x eig q u r w : eigenpair x eig q u r w -> eig * inner u u = weighted eig w.
Proof. exact: bi_rayleigh. Qed.
Theorem C117_orthogonal x eig q u r w x' eig' q' u' r' w' : be_time_free_all nodes P -> eigenpair x eig q u r w ->
  eigenpair x' eig' q' u' r' w' -> eig != eig' ->
  inner u u' = 0 /\ \sum_(i < size nodes) dotv (w i) (bl_coef dim p (be_at (P i) eig) *m w' i) = 0.
Proof. exact: bi_orthogonal. Qed.
Theorem C117_norm x eig q u r w d : 0 < tau -> same -> covered dirs nodes n_nodes nt -> eigenpair x eig q u r w ->
  nth 0 x d != 0 -> 0 < inner u u /\ 0 <= eig.
Proof. move=> t0 hs; exact: bi_norm_eig. Qed.
(** With a chain of hyperedges from every hypernode to one with given values, eigenvalues are positive. *)
Theorem C117_positive x eig q u r w d : 0 < tau -> same ->
  (forall v, (v < n_nodes)%N -> anchored (indexed nodes) (fun v => nt v \in dirs) v) ->
  eigenpair x eig q u r w -> nth 0 x d != 0 -> 0 < eig.
Proof. move=> t0 hs; exact: bi_positive. Qed.
(** At most as many eigenvalues as bulk functions. *)
Theorem C117_count s : 0 < tau -> same -> be_time_free_all nodes P -> covered dirs nodes n_nodes nt -> uniq s ->
  (forall eig, eig \in s -> exists x q u r w d, eigenpair x eig q u r w /\ nth 0 x d != 0) ->
  (size s <= size nodes * (p + 1) ^ dim)%N.
Proof. move=> t0 hs; exact: bi_count. Qed.
End Global.
Print Assumptions C116_global.
Print Assumptions C117_zeros.
Print Assumptions C117_rayleigh.
Print Assumptions C117_orthogonal.
Print Assumptions C117_norm.
Print Assumptions C117_positive.
Print Assumptions C117_count.

(** With coefficient one and the same boundary conditions for u and w the eigenvalues are the squares of those of
    DiffusionEigs. *)
Section Square.
Variables (F : realFieldType) (dim p : nat) (dirs : seq nat) (tau : F).
Variables (nodes : seq (seq nat)) (n_nodes : nat) (nt : nat -> nat) (P : nat -> be_data F).
Hypotheses (dim0 : (0 < dim)%N) (hP : be_data_all dim p nodes P) (hu : unit_all dim p nodes P).
Hypothesis hv : valid_graph dim n_nodes (indexed nodes).
Let bi_pair := bi_eigenpair dim p dirs dirs tau nodes n_nodes nt P.
Let diffusion_pair := eigenpair dim p dirs tau nodes n_nodes nt (unit_diffusion P).
Theorem C117_square x kappa q u : diffusion_pair x kappa q u ->
  bi_pair (both dim p n_nodes kappa x) (kappa ^+ 2) q u (fun i d => kappa *: q i d) (fun i => kappa *: u i).
Proof. exact: square. Qed.
Theorem C117_spectrum kappa : 0 < tau -> covered dirs nodes n_nodes nt -> 0 < kappa ->
  (exists z q u r w d, bi_pair z (kappa ^+ 2) q u r w /\ nth 0 z d != 0) <->
  (exists x q u d, diffusion_pair x kappa q u /\ nth 0 x d != 0).
Proof. move=> t0 hc; exact: spectrum. Qed.
End Square.
Print Assumptions C117_square.
Print Assumptions C117_spectrum.
Example C117_example (F : rcfType) (P := fun _ : nat => bi_of (oneP (fun=> 1 : F) [:: 1; 0]%N)) :
  [/\ valid_graph 1 2 (indexed pair_nodes),
    forall v, (v < 2)%N -> anchored (indexed pair_nodes) (fun v => row_type v \in [:: 1%N]) v,
    be_data_all 1 0 pair_nodes P, be_types 1 pair_nodes row_type P & be_time_free_all pair_nodes P /\ unit_all 1 0 pair_nodes P] /\
  bi_eigenpair 1 0 [:: 1%N] [:: 1%N] 1 pair_nodes 2 row_type P [:: 0; 0; 1; 3%:R / 2%:R] ((3%:R / 2%:R) ^+ 2)
    (fun _ _ => const_mx (-1)) (fun _ => const_mx 2%:R)
    (fun _ _ => (3%:R / 2%:R) *: const_mx (-1)) (fun _ => (3%:R / 2%:R) *: const_mx 2%:R).
Proof. exact: bi_pair_exists. Qed.
Print Assumptions C117_example.
