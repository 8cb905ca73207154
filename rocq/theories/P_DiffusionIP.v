(** Properties C106-C111: the local solver DiffusionIP and its global system.  The integrals of TPP and the LAPACK
    solver enter with the contracts of S_DiffusionIP and S_Lapack.  Statements only; proofs are in L_DiffusionIP to
    L_DiffusionIP4, L_IpWeak, L_IpEx and L_GlobalIP. *)
From mathcomp Require Import all_ssreflect all_algebra.
From Verif Require Import M_Base M_Lapack S_Lapack S_Hdg M_DiffusionUniform S_Tpp S_LocalSolver S_Diffusion S_TppGeo S_Gradient.
From Verif Require Import S_DiffusionEigs M_Global S_Global S_GlobalParab M_DiffusionIP S_DiffusionIP.
From Verif Require Import L_Lapack L_DiffusionUniform2 L_ParabEx L_DiffusionIP L_DiffusionIP2 L_DiffusionIP3 L_DiffusionIP4 L_IpWeak L_IpEx L_GlobalIP.
Set Implicit Arguments. Unset Strict Implicit. Unset Printing Implicit Defensive.
Import Order.TTheory GRing.Theory Num.Theory.
Local Open Scope ring_scope.

(** * C106 the local problem *)
Section Checks.
Variable F : realFieldType.
Variable gesv : nat -> nat -> seq F -> seq F -> sv_result F.
Variables (dim p : nat) (dirs : seq nat) (tau : F) (P : ip_data F).
Let nb := ((p + 1) ^ (dim - 1))%N.
(** Traces of the wrong size, failures of LAPACK, unknown solution types and singular local problems end in an
    assertion (st is 0 for the matrix-vector product, 1 for the residual). *)
Theorem C106_checked st x out t : ~ is_trace (2 * dim) nb x \/ ~ is_trace (2 * dim) nb out ->
  ip_flux gesv dim p dirs tau P st x out t = Abort.
Proof. exact: ip_checked. Qed.
Theorem C106_checked_errors x absc t : ~ is_trace (2 * dim) nb x ->
  ip_errors gesv dim p dirs tau P x t = Abort /\ ip_bulk_values gesv dim p dirs tau P absc x t = Abort.
Proof. exact: ip_checked_errors. Qed.
Theorem C106_lapack st x out t : (forall n nc A b, ~~ sv_info (gesv n nc A b)) ->
  ip_flux gesv dim p dirs tau P st x out t = Abort.
Proof. exact: ip_lapack. Qed.
Theorem C106_other st x out t : (1 < st)%N -> ip_flux gesv dim p dirs tau P st x out t = Abort.
Proof. exact: ip_other. Qed.
Theorem C106_singular st x out t : (0 < dim)%N -> gesv_detects gesv -> ~ ip_regular dim p tau P t ->
  ip_flux gesv dim p dirs tau P st x out t = Abort.
Proof. by move=> dim0; exact: ip_singular. Qed.
(** The reported types: 1 on the faces with Dirichlet nodes. *)
Theorem C106_types : ip_node_types dim dirs P = mkseq (fun f => nth 0%N (ip_types P) f \in dirs : nat) (2 * dim).
Proof. exact: ip_typesP. Qed.
End Checks.

Section Local.
Variable F : realFieldType.
Variable gesv : nat -> nat -> seq F -> seq F -> sv_result F.
Variables (dim p : nat) (dirs : seq nat) (tau : F) (P : ip_data F) (t : F).
Hypotheses (dim0 : (0 < dim)%N) (hg : gesv_correct gesv) (hreg : ip_regular dim p tau P t).
Let nf := ((p + 1) ^ dim)%N.
Let nb := ((p + 1) ^ (dim - 1))%N.
Let flux x out := ip_trace_to_flux gesv dim p dirs tau P x out t.
Let residual x out := ip_residual_flux gesv dim p dirs tau P x out t.
Let is_tr : seq (seq F) -> Prop := is_trace (2 * dim) nb.
Let free := forall f, (f < 2 * dim)%N -> ~~ ip_mask dirs P f.

(** The fluxes are the numerical fluxes of the discrete equations; Dirichlet faces report nothing. *)
Theorem C106_flux x out : is_tr x -> is_tr out -> exists y u,
  [/\ flux x out = Ok y, ip_loc dim p tau P t u (tr nb x) 0 & ip_flux_of dim p dirs tau P x u y].
Proof. exact: ip_fluxP. Qed.
(** With the source and the boundary values. *)
Theorem C106_residual x out : is_tr x -> is_tr out -> exists y u,
  [/\ residual x out = Ok y, ip_loc dim p tau P t u (tr nb x) (ip_rhs dim p dirs tau P t) & ip_flux_of dim p dirs tau P x u y].
Proof. exact: ip_residualP. Qed.
Theorem C106_unique u u' (x : 'I_(2 * dim) -> 'cV[F]_nb) r : ip_loc dim p tau P t u x r -> ip_loc dim p tau P t u' x r -> u = u'.
Proof. exact: ip_unique. Qed.
Theorem C106_linear c x x' out out' out'' : is_tr x -> is_tr x' -> is_tr out -> is_tr out' -> is_tr out'' ->
  exists y y', [/\ flux x out = Ok y, flux x' out' = Ok y' &
    flux (comb_trace c (2 * dim) nb x x') out'' = Ok (comb_trace c (2 * dim) nb y y')].
Proof. exact: ip_linear. Qed.
Theorem C106_affine x out out' out'' : is_tr x -> is_tr out -> is_tr out' -> is_tr out'' ->
  exists y y0, [/\ flux x out = Ok y, residual (zero_trace F (2 * dim) nb) out' = Ok y0 &
    residual x out'' = Ok (comb_trace 1 (2 * dim) nb y y0)].
Proof. exact: ip_affine_res. Qed.
(** Errors and bulk values are those of the solution. *)
Theorem C106_errors x : is_tr x -> exists u, ip_loc dim p tau P t u (tr nb x) (ip_rhs dim p dirs tau P t) /\
  ip_errors gesv dim p dirs tau P x t = Ok [:: ip_diffsq P t (coeffs_of u)].
Proof. exact: ip_errorsP. Qed.
Theorem C106_bulk x absc : is_tr x -> exists u, ip_loc dim p tau P t u (tr nb x) (ip_rhs dim p dirs tau P t) /\
  ip_bulk_values gesv dim p dirs tau P absc x t = Ok [:: mkseq (ip_eval P absc (coeffs_of u)) (size absc ^ dim)].
Proof. exact: ip_bulkP. Qed.

(** * C108 conservation *)
Hypothesis hok : ip_ok dim p P t.
(** Without source and Dirichlet faces the fluxes add up to nothing (their first coefficients, which are their
    integrals); otherwise to the integral of the source, less what passes the Dirichlet faces. *)
Theorem C108_conservation x out : is_tr x -> is_tr out -> free ->
  exists2 y, flux x out = Ok y & \sum_(f < 2 * dim) nth 0 (nth [::] y f) 0 = 0.
Proof. exact: ip_conserveP. Qed.
Theorem C108_balance x out : is_tr x -> is_tr out -> free ->
  exists2 y, residual x out = Ok y & \sum_(f < 2 * dim) nth 0 (nth [::] y f) 0 = ip_src P t 0.
Proof. exact: ip_balanceP. Qed.
Theorem C108_dirichlet x out (j0 : 'I_nb) : is_tr x -> is_tr out -> j0 = 0%N :> nat -> exists y u,
  [/\ residual x out = Ok y, ip_loc dim p tau P t u (tr nb x) (ip_rhs dim p dirs tau P t) &
    \sum_(f < 2 * dim | ~~ ip_mask dirs P f) nth 0 (nth [::] y f) 0 +
    \sum_(f < 2 * dim | ip_mask dirs P f) (ip_num_flux dim p tau P u (tr nb x) f j0 0 - tau * ip_dirval P t 0 f) = ip_src P t 0].
Proof.
move=> hx ho e0; have [y [u [h1 h2 h3]]] := ip_balance_dir dirs dim0 hg hreg hok hx ho; exists y, u; split=> //.
rewrite -[RHS]h3; congr (_ + _); apply: eq_bigr => f _; congr (_ - _); congr (ip_num_flux _ _ _ _ _ _ _ _ _); exact: val_inj.
Qed.
(** Constant traces have no flux. *)
Theorem C108_constant c out : is_tr out -> flux (const_trace c (2 * dim) nb) out = Ok (zero_trace F (2 * dim) nb).
Proof. exact: ip_constantP. Qed.
End Local.
Print Assumptions C106_checked.
Print Assumptions C106_checked_errors.
Print Assumptions C106_lapack.
Print Assumptions C106_other.
Print Assumptions C106_singular.
Print Assumptions C106_types.
Print Assumptions C106_flux.
Print Assumptions C106_residual.
Print Assumptions C106_unique.
Print Assumptions C106_linear.
Print Assumptions C106_affine.
Print Assumptions C106_errors.
Print Assumptions C106_bulk.
Print Assumptions C108_conservation.
Print Assumptions C108_balance.
Print Assumptions C108_dirichlet.
Print Assumptions C108_constant.

Section Weak.
Variable F : realFieldType.
Variables (dim p Q : nat) (b : nat -> {poly F}) (xs ws cv : nat -> F) (cb : nat -> nat -> F) (g : edge_geo F dim).
Variables (P : ip_data F) (t tau : F).
Hypotheses (dim0 : (0 < dim)%N) (hb : orthonormal_basis (p + 1) b) (hq : quad_ok (p + 1) b Q xs ws).
Hypothesis hP : ip_contract p b Q xs ws cv cb g P t.
(** The discrete equations are the weak form, and the numerical flux is minus the normal derivative plus tau times the
    jump, tested with the functions of the face. *)
Theorem C106_weak u (x : 'I_(2 * dim) -> 'cV[F]_((p + 1) ^ (dim - 1))) r :
  ip_loc dim p tau P t u x r <-> ip_weak b Q xs ws g tau cv cb u x r.
Proof. exact: ip_weakE. Qed.
Theorem C106_weak_flux u (x : 'I_(2 * dim) -> 'cV[F]_((p + 1) ^ (dim - 1))) y (f : 'I_(2 * dim)) :
  dotv y (ip_num_flux dim p tau P u x f) = ip_weak_flux b Q xs ws g tau cb u x y f.
Proof. exact: (ip_weak_fluxE tau dim0 hb hq hP). Qed.
End Weak.
Print Assumptions C106_weak.
Print Assumptions C106_weak_flux.

(** * C107 the penalty has to exceed a bound *)
Section Stable.
Variable F : realFieldType.
Variable gesv : nat -> nat -> seq F -> seq F -> sv_result F.
Variables (dim p : nat) (dirs : seq nat) (tau : F) (P : ip_data F) (t : F).
Hypotheses (dim0 : (0 < dim)%N) (hg : gesv_correct gesv).
Let nb := ((p + 1) ^ (dim - 1))%N.
Let flux x out := ip_trace_to_flux gesv dim p dirs tau P x out t.
Let is_tr : seq (seq F) -> Prop := is_trace (2 * dim) nb.
Let off : seq (seq F) -> Prop := vanishes (ip_mask dirs P) (2 * dim) nb.
Let pair : seq (seq F) -> seq (seq F) -> F := pairing (2 * dim) nb.
(** Every large penalty does. *)
Theorem C107_large : ip_ok dim p P t -> exists2 C, 0 <= C & forall tau', C < tau' -> ip_stable dim p tau' P t.
Proof. exact: ip_stable_large. Qed.
(** Then the local problem can be solved, the operator is dissipative, and only constants dissipate nothing. *)
Theorem C107_regular : ip_stable dim p tau P t -> ip_regular dim p tau P t.
Proof. exact: ip_stable_regular. Qed.
Theorem C107_dissipative x out : ip_stable dim p tau P t -> is_tr x -> is_tr out -> off x ->
  exists2 y, flux x out = Ok y & pair x y <= 0 /\ (pair x y = 0 -> exists c, x = const_trace c (2 * dim) nb).
Proof. exact: ip_stableP. Qed.
(** The energy identity, for every penalty with a solvable local problem. *)
Theorem C107_energy x out : ip_ok dim p P t -> ip_regular dim p tau P t -> is_tr x -> is_tr out -> off x ->
  exists y u, [/\ flux x out = Ok y, ip_loc dim p tau P t u (tr nb x) 0 &
    let jump f := ip_trace dim p P u f - tr nb x f in
    pair x y = - dotv u (ip_S dim p P t *m u) +
      \sum_(f < 2 * dim) (dotv (jump f) (ip_G dim p P f *m u) - tau * ip_area P f * dotv (jump f) (jump f))].
Proof. exact: ip_energyP. Qed.
End Stable.
Print Assumptions C107_large.
Print Assumptions C107_regular.
Print Assumptions C107_dissipative.
Print Assumptions C107_energy.
(** A positive penalty alone is not enough, even for a coefficient that does not depend on time: the local matrix can be
    singular, and then every product with the operator ends in an assertion. *)
Theorem C107_positive_refuted (F : rcfType) gesv dirs st x out src dirval types : gesv_detects gesv -> exists P : ip_data F,
  [/\ forall t, ip_ok 1 1 P t, forall t i j, ip_stiff P t i j = ip_stiff P 0 i j,
      forall t i j f, ip_nbb P t i j f = ip_nbb P 0 i j f /\ ip_nbp P t i j f = ip_nbp P 0 i j f,
      forall t, ip_flux gesv 1 1 dirs 4%:R P st x out t = Abort
    & [/\ ip_src P = src, ip_dirval P = dirval & ip_types P = types]].
Proof.
move=> hg; have [P [h1 h2 h3 h4 h5]] := ip_sing_exists src dirval types; exists P; split=> // t.
exact: (ip_singular dirs (isT : 0 < 1)%N st x out hg (h4 t)).
Qed.
Print Assumptions C107_positive_refuted.
(** The contract holds in every dimension for a coefficient that is not constant. *)
Example C107_example (F : rcfType) dim src dirval types : exists P : ip_data F,
  [/\ forall t, ip_ok dim 1 P t, ip_src P = src, ip_dirval P = dirval & ip_types P = types].
Proof. exact: (ip_ok_exists dim (fun _ _ _ => 1) src dirval types (fun _ s => ltr0Sn F s)). Qed.

(** * C109 affine functions *)
Section Affine.
Variable F : realFieldType.
Variable gesv : nat -> nat -> seq F -> seq F -> sv_result F.
Variables (dim p : nat) (dirs : seq nat) (tau : F) (P : ip_data F) (t : F).
Hypotheses (dim0 : (0 < dim)%N) (hg : gesv_correct gesv).
Let nb := ((p + 1) ^ (dim - 1))%N.
Let is_tr : seq (seq F) -> Prop := is_trace (2 * dim) nb.
(** A coefficient that is the same now and at time 0: an affine function is reproduced from its traces, with the exact
    fluxes. *)
Theorem C109_exact_partial c u gamma out x o : ip_affine dim p c c u gamma out P t -> ip_regular dim p tau P t ->
  is_tr x -> is_tr o -> (forall f : 'I_(2 * dim), tr nb x f = ip_trace dim p P u f) ->
  ip_trace_to_flux gesv dim p dirs tau P x o t =
    Ok (mkseq (fun f => mkseq (fun j => if (j == 0)%N && ~~ ip_mask dirs P f then - (c * out f * ip_area P f) else 0) nb) (2 * dim)) /\
  forall u', ip_loc dim p tau P t u' (tr nb x) 0 -> u' = u.
Proof. exact: ip_affineP. Qed.
(** The coefficient of the normal derivatives is the one of time 0, whatever the time. *)
Theorem C109_frozen nbb nbp st x out : nbb 0 = ip_nbb P 0 -> nbp 0 = ip_nbp P 0 ->
  ip_flux gesv dim p dirs tau (set_normal P nbb nbp) st x out t = ip_flux gesv dim p dirs tau P st x out t.
Proof. exact: ip_frozen. Qed.
End Affine.
Print Assumptions C109_exact_partial.
Print Assumptions C109_frozen.
(** So with a coefficient that depends on time no affine function but a constant is reproduced. *)
Theorem C109_refuted (F : rcfType) dim (c : F -> F) src dirval types : (0 < dim)%N -> (forall t, 0 < c t) ->
  exists (P : ip_data F) (u : 'cV[F]_((1 + 1) ^ dim)) (gamma out : nat -> F),
  [/\ forall t, ip_affine dim 1 (c t) (c 0) u gamma out P t,
      forall t i j f, c 0 * ip_nbb P t i j f = c t * ip_nbb P 0 i j f /\ c 0 * ip_nbp P t i j f = c t * ip_nbp P 0 i j f,
      forall tau t x u', c t != c 0 ->
        (forall f : 'I_(2 * dim), tr ((1 + 1) ^ (dim - 1)) x f = ip_trace dim 1 P u f) ->
        ip_loc dim 1 tau P t u' (tr ((1 + 1) ^ (dim - 1)) x) 0 -> u' <> u
    & [/\ ip_src P = src, ip_dirval P = dirval & ip_types P = types]].
Proof.
move=> dim0 hc; have [P [u [gamma [out [h1 h2 h3 h4]]]]] := ip_affine_exists src dirval types dim0 hc.
exists P, u, gamma, out; split=> // tau t x u' hct hx; exact: (ip_affine_fails dim0 (h1 t) hx hct dim0 h2).
Qed.
Print Assumptions C109_refuted.
Example C109_example (F : rcfType) dim (src : F -> nat -> F) (dirval : F -> nat -> nat -> F) (types : seq nat) : (0 < dim)%N ->
  exists (P : ip_data F) (u : 'cV[F]_((1 + 1) ^ dim)) (gamma out : nat -> F), gamma 0%N != 0 /\ forall t, ip_affine dim 1 1 1 u gamma out P t.
Proof.
move=> dim0; have [P [u [gamma [out [h1 h2 _ _]]]]] := ip_affine_exists (c := fun=> 1) src dirval types dim0 (fun=> ltr01).
by exists P, u, gamma, out.
Qed.

(** * C110 symmetry *)
Section Symmetric.
Variable F : realFieldType.
Variable gesv : nat -> nat -> seq F -> seq F -> sv_result F.
Variables (p : nat) (dirs : seq nat) (tau : F) (P : ip_data F) (t : F).
Hypotheses (hg : gesv_correct gesv) (hreg : ip_regular 1 p tau P t) (hok : ip_ok 1 p P t).
Let nb := ((p + 1) ^ (1 - 1))%N.
Let is_tr : seq (seq F) -> Prop := is_trace 2 nb.
Let off : seq (seq F) -> Prop := vanishes (ip_mask dirs P) 2 nb.
Let flux x out := ip_trace_to_flux gesv 1 p dirs tau P x out t.
(** One dimension. *)
Theorem C110_one_dimension_partial x x' out out' : is_tr x -> is_tr x' -> is_tr out -> is_tr out' -> off x -> off x' ->
  exists y y', [/\ flux x out = Ok y, flux x' out' = Ok y' & pairing 2 nb x' y = pairing 2 nb x y'].
Proof. exact: ip_symmetric1. Qed.
End Symmetric.
Print Assumptions C110_one_dimension_partial.
(** Two dimensions, unit square, coefficient 1: not symmetric, for any penalty with a solvable local problem. *)
Theorem C110_refuted (F : rcfType) src dirval types : exists (P : ip_data F) (x w : seq (seq F)),
  [/\ forall t, ip_ok 2 1 P t, is_trace (2 * 2) ((1 + 1) ^ (2 - 1)) x /\ is_trace (2 * 2) ((1 + 1) ^ (2 - 1)) w,
      [/\ ip_src P = src, ip_dirval P = dirval & ip_types P = types]
    & forall gesv dirs tau t o o', gesv_correct gesv -> ip_regular 2 1 tau P t -> (forall f, (f < 4)%N -> ~~ ip_mask dirs P f) ->
      is_trace (2 * 2) ((1 + 1) ^ (2 - 1)) o -> is_trace (2 * 2) ((1 + 1) ^ (2 - 1)) o' ->
      exists y z, [/\ ip_trace_to_flux gesv 2 1 dirs tau P w o t = Ok y, ip_trace_to_flux gesv 2 1 dirs tau P x o' t = Ok z,
        pairing (2 * 2) ((1 + 1) ^ (2 - 1)) x y = 0 & pairing (2 * 2) ((1 + 1) ^ (2 - 1)) w z != 0]].
Proof. exact: ip_asym_exists. Qed.
Print Assumptions C110_refuted.

(** * C111 the global system *)
Section Global.
Variables (F : realFieldType) (E : Type) (dim p : nat) (dat : E -> ip_data F) (t : F).
Variables (gesv : nat -> nat -> seq F -> seq F -> sv_result F) (tau : F) (dirs : seq nat).
Hypotheses (dim0 : (0 < dim)%N) (hg : gesv_correct gesv).
(** The penalty exceeds the bound of each hyperedge; types of hypernodes agree; every hypernode is connected to a
    Dirichlet node. *)
Hypothesis hD : forall e, ip_stable dim p tau (dat e) t.
Variables (n_nodes : nat) (edges : seq (seq nat * E)) (junk : seq (seq F)) (nt : nat -> nat).
Hypotheses (hv : valid_graph dim n_nodes edges) (hj : size junk = (2 * dim)%N).
Hypothesis ht : forall e k, List.In e edges -> (k < size e.1)%N -> nth 0%N (ip_types (dat e.2)) k = nt (nth 0%N e.1 k).
Hypothesis conn : forall v, (v < n_nodes)%N -> anchored edges (fun v => nt v \in dirs) v.
Let nb := ((p + 1) ^ (dim - 1))%N.
Let N := (n_nodes * nb)%N.
Let off x := forall d, (d < N)%N -> nt (d %/ nb)%N \in dirs -> nth 0 x d = 0 :> F.
Let op x := elliptic_flux nb N [::] junk edges (fun e y out => ip_trace_to_flux gesv dim p dirs tau (dat e) y out t) x.
Let res x := elliptic_flux nb N [::] junk edges (fun e y out => ip_residual_flux gesv dim p dirs tau (dat e) y out t) x.
Theorem C111_definite x : size x = N -> off x ->
  exists u, [/\ op x = Ok u, vdot N x u <= 0 & vdot N x u = 0 -> x = nseq N 0].
Proof. exact: (global_ip_definite dim0 hD hg hv hj ht conn). Qed.
Theorem C111_solvable r : size r = N -> off r ->
  exists x, [/\ size x = N, off x, op x = Ok r & forall x', size x' = N -> off x' -> op x' = Ok r -> x' = x].
Proof. exact: (global_ip_solvable dim0 hD hg hv hj ht conn). Qed.
Theorem C111_solution : exists x, [/\ size x = N, off x, res x = Ok (nseq N 0) &
    forall x', size x' = N -> off x' -> res x' = Ok (nseq N 0) -> x' = x].
Proof. exact: (global_ip_solution dim0 hD hg hv hj ht conn). Qed.
End Global.
Print Assumptions C111_definite.
Print Assumptions C111_solvable.
Print Assumptions C111_solution.
Example C111_example (F : rcfType) (t : F) : exists2 P : nat -> ip_data F,
  (exists2 C, 0 <= C & forall tau i, C < tau -> ip_stable 1 1 tau (P i) t) &
  [/\ valid_graph 1 3 (indexed row_nodes),
      forall e k, List.In e (indexed row_nodes) -> (k < size e.1)%N -> nth 0%N (ip_types (P e.2)) k = rim_type (nth 0%N e.1 k) &
      forall v, (v < 3)%N -> anchored (indexed row_nodes) (fun v => rim_type v \in [:: 1%N]) v].
Proof. exact: ip_row_ok. Qed.
