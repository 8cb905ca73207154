(** Properties C47, C64, C65, C66, C67: the local solver Diffusion, its global operator and the geometry it
    relies on.  The integrals of TPP and the LAPACK solver enter with the contracts of S_TppGeo and
    S_LocalSolver.  Statements only; proofs are in L_Diffusion2, L_Diffusion3, L_GlobalDiffusion, L_GeoOk. *)
From mathcomp Require Import all_ssreflect all_algebra.
From Verif Require Import M_Base M_DenseLA S_DenseLA M_Lapack S_Lapack S_Hdg S_Tpp M_DiffusionUniform M_Diffusion.
From Verif Require Import S_LocalSolver S_Diffusion S_TppGeo M_Global S_Global M_Topology S_Topology M_Geometry S_Geometry.
From Verif Require Import L_Topology L_Diffusion2 L_Diffusion3 L_GlobalDiffusion L_GeoOk L_DiffusionEx L_DiffusionUniform2 L_Lapack.
Set Implicit Arguments. Unset Strict Implicit. Unset Printing Implicit Defensive.
Import GRing.Theory.
Local Open Scope ring_scope.

Section Local.
Variable F : realFieldType.
Variables (gesv : nat -> nat -> seq F -> seq F -> sv_result F).
Variables (dim p : nat) (dirs : seq nat) (tau : F) (D : df_data F).
Hypotheses (dim0 : (0 < dim)%N) (hD : diffusion_data dim p D) (hg : gesv_correct gesv) (tau0 : 0 < tau).
Let nF := (2 * dim)%N.
Let nb := ((p + 1) ^ (dim - 1))%N.
Let flux := df_trace_to_flux gesv dim p dirs tau D.
Let residual := df_residual_flux gesv dim p dirs tau D.
Let mass_flux := df_trace_to_mass_flux gesv dim p dirs tau D.
(** The faces with Dirichlet nodes. *)
Let mask (f : nat) : bool := nth 0%N (df_types D) f \in dirs.

(** * C47 linear, zero on Dirichlet faces, symmetric, negative semidefinite, affine residual *)
(** The results are the numerical fluxes of solutions of the local HDG problem. *)
Theorem C47_flux x out : is_trace nF nb x -> is_trace nF nb out ->
  exists2 y, flux x out = Ok y & flux_src (df_hdg dim p D) tau mask x (fun _ => 0) 0 y.
Proof. exact: diffusion_flux. Qed.
Theorem C47_residual x out : is_trace nF nb x -> is_trace nF nb out ->
  exists2 y, residual x out = Ok y
    & flux_src (df_hdg dim p D) tau mask x (df_rq p D mask) (df_ru dim p D tau mask) y.
Proof. exact: diffusion_residual. Qed.
Theorem C47_linear c x x' out out' out'' : is_trace nF nb x -> is_trace nF nb x' ->
  is_trace nF nb out -> is_trace nF nb out' -> is_trace nF nb out'' ->
  exists y y', [/\ flux x out = Ok y, flux x' out' = Ok y' &
    flux (comb_trace c nF nb x x') out'' = Ok (comb_trace c nF nb y y')].
Proof. exact: diffusion_linear. Qed.
Theorem C47_dirichlet x out : is_trace nF nb x -> is_trace nF nb out ->
  exists2 y, flux x out = Ok y & is_trace nF nb y /\
    forall f j, (f < nF)%N -> (j < nb)%N -> mask f -> nth 0 (nth [::] y f) j = 0.
Proof. exact: diffusion_dirichlet. Qed.
Theorem C47_symmetric x x' out out' :
  is_trace nF nb x -> is_trace nF nb x' -> is_trace nF nb out -> is_trace nF nb out' ->
  vanishes mask nF nb x -> vanishes mask nF nb x' ->
  exists y y', [/\ flux x out = Ok y, flux x' out' = Ok y' & pairing nF nb x' y = pairing nF nb x y'].
Proof. exact: diffusion_symmetric. Qed.
Theorem C47_negative x out : is_trace nF nb x -> is_trace nF nb out -> vanishes mask nF nb x ->
  exists2 y, flux x out = Ok y &
    pairing nF nb x y <= 0 /\ (pairing nF nb x y = 0 -> exists c, x = const_trace c nF nb).
Proof. exact: diffusion_negative. Qed.
Theorem C47_constant c out : is_trace nF nb out ->
  flux (const_trace c nF nb) out = Ok (nseq nF (nseq nb 0)).
Proof. exact: diffusion_constant. Qed.
Theorem C47_affine x out out' out'' :
  is_trace nF nb x -> is_trace nF nb out -> is_trace nF nb out' -> is_trace nF nb out'' ->
  exists y y0, [/\ flux x out = Ok y, residual (zero_trace F nF nb) out' = Ok y0 &
    residual x out'' = Ok (comb_trace 1 nF nb y y0)].
Proof. exact: diffusion_affine. Qed.
(** The residual tested with a trace: flux of that trace plus source and boundary values tested with its
    local solution. *)
Theorem C47_weak x x' out out' :
  is_trace nF nb x -> is_trace nF nb x' -> is_trace nF nb out -> is_trace nF nb out' ->
  vanishes mask nF nb x -> vanishes mask nF nb x' ->
  exists y y' q u, [/\ residual x out = Ok y, flux x' out' = Ok y',
    loc_src (df_hdg dim p D) tau q u (tr nb x') (fun _ => 0) 0 &
    pairing nF nb x' y = pairing nF nb x y' + dotv u (df_ru dim p D tau mask)
                         - \sum_d dotv (df_rq p D mask d) (q d)].
Proof. exact: diffusion_weak. Qed.

(** * C64 the mass fluxes *)
Theorem C64_flux x out : is_trace nF nb x -> is_trace nF nb out ->
  exists2 y, mass_flux x out = Ok y & exists q u,
    loc_src (df_hdg dim p D) tau q u (tr nb x) (fun _ => 0) 0 /\
    flux_src (df_hdg dim p D) tau mask (zero_trace F nF nb) (fun _ => 0) (df_mass_mx dim p D *m u) y.
Proof. exact: diffusion_mass. Qed.
Theorem C64_total x out : is_trace nF nb x -> is_trace nF nb out ->
  exists2 y, df_total_numerical_flux_mass gesv dim p dirs tau D x out = Ok y & exists q u,
    full_solution dirs tau D x q u /\
    flux_src (df_hdg dim p D) tau mask (zero_trace F nF nb) (fun _ => 0) (df_mass_mx dim p D *m u) y.
Proof. exact: diffusion_mass_total. Qed.
(** The mass flux tested with a trace is the L2 product of the two local solutions. *)
Theorem C64_form x x' out : is_trace nF nb x -> is_trace nF nb x' -> is_trace nF nb out ->
  vanishes mask nF nb x' ->
  exists y q u q' u', [/\ mass_flux x out = Ok y,
    loc_src (df_hdg dim p D) tau q u (tr nb x) (fun _ => 0) 0,
    loc_src (df_hdg dim p D) tau q' u' (tr nb x') (fun _ => 0) 0 &
    pairing nF nb x' y = dotv u' (df_mass_mx dim p D *m u)].
Proof. exact: diffusion_mass_form. Qed.
Theorem C64_symmetric x x' out out' :
  is_trace nF nb x -> is_trace nF nb x' -> is_trace nF nb out -> is_trace nF nb out' ->
  vanishes mask nF nb x -> vanishes mask nF nb x' ->
  exists y y', [/\ mass_flux x out = Ok y, mass_flux x' out' = Ok y',
    pairing nF nb x' y = pairing nF nb x y' & 0 <= pairing nF nb x y].
Proof. exact: diffusion_mass_sym. Qed.
Theorem C64_linear c x x' out out' out'' : is_trace nF nb x -> is_trace nF nb x' ->
  is_trace nF nb out -> is_trace nF nb out' -> is_trace nF nb out'' ->
  exists y y', [/\ mass_flux x out = Ok y, mass_flux x' out' = Ok y' &
    mass_flux (comb_trace c nF nb x x') out'' = Ok (comb_trace c nF nb y y')].
Proof. exact: diffusion_mass_linear. Qed.

(** * C66 conservation with a source, and what is evaluated for errors and plots *)
Theorem C66_conserved x out : is_trace nF nb x -> is_trace nF nb out ->
  (forall f, (f < nF)%N -> ~~ mask f) ->
  exists2 y, residual x out = Ok y & \sum_(f < nF) nth 0 (nth [::] y f) 0 = df_src D 0.
Proof. exact: diffusion_conserved. Qed.
(** The local problem with source and boundary values has exactly one solution ... *)
Theorem C66_unique x : is_trace nF nb x ->
  exists (q : 'I_dim -> 'cV[F]_((p + 1) ^ dim)) (u : 'cV[F]_((p + 1) ^ dim)),
    full_solution dirs tau D x q u /\
    forall (q' : 'I_dim -> 'cV[F]_((p + 1) ^ dim)) u', full_solution dirs tau D x q' u' ->
      (forall d, q' d = q d) /\ u' = u.
Proof.
move=> hx; have [X [_ _ _ h]] := full_solve dirs dim0 hg tau0 hD hx.
by eexists; eexists; split; first exact: h; move=> q' u' h'; exact: (full_unique dim0 tau0 hD h' h).
Qed.
(** ... which errors and bulk_values evaluate. *)
Theorem C66_errors x : is_trace nF nb x ->
  exists (q : 'I_dim -> 'cV[F]_((p + 1) ^ dim)) (u : 'cV[F]_((p + 1) ^ dim)),
    full_solution dirs tau D x q u /\
    df_errors gesv dim p dirs tau D x = Ok [:: df_diffsq D (coeffs_of u)].
Proof. exact: diffusion_errors. Qed.
Theorem C66_bulk x (absc : seq F) : is_trace nF nb x ->
  exists (q : 'I_dim -> 'cV[F]_((p + 1) ^ dim)) (u : 'cV[F]_((p + 1) ^ dim)),
    full_solution dirs tau D x q u /\
    df_bulk_values gesv dim p dirs tau D absc x =
    Ok (rcons [seq mkseq (df_eval D absc (coeffs_of (q d))) (size absc ^ dim)%N | d <- enum 'I_dim]
              (mkseq (df_eval D absc (coeffs_of u)) (size absc ^ dim)%N)).
Proof. exact: diffusion_bulk. Qed.
(** errors_temp compares the local solution of the problem with the discrete time derivative as source. *)
Theorem C66_errors_temp Do dt x xo : diffusion_data dim p Do ->
  is_trace nF nb x -> is_trace nF nb xo ->
  exists (q : 'I_dim -> 'cV[F]_((p + 1) ^ dim)) (u : 'cV[F]_((p + 1) ^ dim))
         (qo : 'I_dim -> 'cV[F]_((p + 1) ^ dim)) (uo : 'cV[F]_((p + 1) ^ dim))
         (q' : 'I_dim -> 'cV[F]_((p + 1) ^ dim)) (u' : 'cV[F]_((p + 1) ^ dim)),
    [/\ full_solution dirs tau D x q u, full_solution dirs tau Do xo qo uo,
        loc_src (df_hdg dim p D) tau q' u' (tr nb x) (df_rq p D mask)
          (df_ru dim p D tau mask + df_mass_mx dim p D *m (dt^-1 *: (uo - u)))
      & df_errors_temp gesv dim p dirs tau D Do dt x xo = Ok (df_diffsq D (coeffs_of u'))].
Proof. by move=> hDo hx hxo; exact: diffusion_errors_temp. Qed.
End Local.
Print Assumptions C47_flux.
Print Assumptions C47_residual.
Print Assumptions C47_linear.
Print Assumptions C47_dirichlet.
Print Assumptions C47_symmetric.
Print Assumptions C47_negative.
Print Assumptions C47_constant.
Print Assumptions C47_affine.
Print Assumptions C47_weak.
Print Assumptions C64_flux.
Print Assumptions C64_total.
Print Assumptions C64_form.
Print Assumptions C64_symmetric.
Print Assumptions C64_linear.
Print Assumptions C66_conserved.
Print Assumptions C66_unique.
Print Assumptions C66_errors.
Print Assumptions C66_bulk.
Print Assumptions C66_errors_temp.

Section Checks.
Variable F : realFieldType.
Variables (gesv : nat -> nat -> seq F -> seq F -> sv_result F).
Variables (dim p : nat) (dirs : seq nat) (tau : F) (D : df_data F).

(** Traces of the wrong size and LAPACK failures end in an assertion. *)
Theorem C47_checked (st : nat) (x out : seq (seq F)) :
  ~ is_trace (2 * dim) ((p + 1) ^ (dim - 1)) x \/ ~ is_trace (2 * dim) ((p + 1) ^ (dim - 1)) out ->
  df_flux gesv dim p dirs tau D st x out = Abort /\ df_mass_flux gesv dim p dirs tau D st x out = Abort.
Proof. exact: diffusion_checked. Qed.
Theorem C47_lapack (st : nat) (x out : seq (seq F)) :
  (forall n nc A b, ~~ sv_info (gesv n nc A b)) ->
  df_flux gesv dim p dirs tau D st x out = Abort /\ df_mass_flux gesv dim p dirs tau D st x out = Abort.
Proof. exact: diffusion_lapack. Qed.
Theorem C47_node_types : df_node_types dim dirs D =
  mkseq (fun f => if nth 0%N (df_types D) f \in dirs then 1%N else 0%N) (2 * dim).
Proof. exact: diffusion_node_types. Qed.
Theorem C66_initial (out : seq (seq F)) : is_trace (2 * dim) ((p + 1) ^ (dim - 1)) out ->
  df_make_initial dim p dirs D out =
  Ok (mkseq (fun f => mkseq (fun j => if nth 0%N (df_types D) f \in dirs then 0 else df_initial D j f)
                        ((p + 1) ^ (dim - 1))) (2 * dim)).
Proof. exact: diffusion_initial. Qed.
End Checks.
Print Assumptions C47_checked.
Print Assumptions C47_lapack.
Print Assumptions C47_node_types.
Print Assumptions C66_initial.

(** The contracts are satisfiable, for every source, boundary values and node types. *)
Example C47_example (F : rcfType) (dim : nat) (src : nat -> F) dirval init diffsq eval types :
  gesv_correct (@inv_gesv F) /\ exists D : df_data F,
  [/\ diffusion_data dim 1 D, df_src D = src, df_dirval D = dirval & df_types D = types] /\
  [/\ df_initial D = init, df_diffsq D = diffsq & df_eval D = eval].
Proof. by split; [exact: inv_gesv_correct | exact: diffusion_data_exists]. Qed.
Example C47_example_mask : vanishes (fun f => f == 0%N) 2 1 [:: [:: (0 : rat)]; [:: 1]].
Proof. by move=> [|[|f]] [|j]. Qed.

(** * C65 the global system *)
Section Global.
Variables (F : realFieldType) (E : Type) (dim p : nat) (dat : E -> df_data F).
Variables (gesv : nat -> nat -> seq F -> seq F -> sv_result F) (tau : F).
Hypotheses (dim0 : (0 < dim)%N) (hD : forall e, diffusion_data dim p (dat e)).
Hypotheses (hg : gesv_correct gesv) (tau0 : 0 < tau).
Variables (dirs : seq nat) (n_nodes : nat) (edges : seq (seq nat * E)) (junk : seq (seq F)) (nt : nat -> nat).
Let nb := ((p + 1) ^ (dim - 1))%N.
Let N := (n_nodes * nb)%N.
Hypotheses (hv : valid_graph dim n_nodes edges) (hj : size junk = (2 * dim)%N) (ht : types_agree dat nt edges).
Let op := elliptic_flux nb N [::] junk edges (fun e => df_trace_to_flux gesv dim p dirs tau (dat e)).
Let rop := elliptic_flux nb N [::] junk edges (fun e => df_residual_flux gesv dim p dirs tau (dat e)).
(** Zero at the degrees of freedom of Dirichlet hypernodes. *)
Let off (x : seq F) := forall d, (d < N)%N -> nt (d %/ nb)%N \in dirs -> nth 0 x d = 0.

Theorem C65_symmetric x y : size x = N -> size y = N -> off x -> off y ->
  exists u v, [/\ op x = Ok u, op y = Ok v & vdot N y u = vdot N x v].
Proof. exact: global_diffusion_symmetric. Qed.

Hypothesis ha : forall v, (v < n_nodes)%N -> anchored edges (fun v => nt v \in dirs) v.
Theorem C65_definite x : size x = N -> off x ->
  exists u, [/\ op x = Ok u, vdot N x u <= 0 & vdot N x u = 0 -> x = nseq N 0].
Proof. exact: global_diffusion_definite. Qed.
Theorem C65_solvable r : size r = N -> off r ->
  exists x, [/\ size x = N, off x, op x = Ok r &
    forall x', size x' = N -> off x' -> op x' = Ok r -> x' = x].
Proof. exact: global_diffusion_solvable. Qed.
(** There is exactly one trace for which the residuals of all hyperedges cancel. *)
Theorem C65_solution : exists x, [/\ size x = N, off x, rop x = Ok (nseq N 0) &
  forall x', size x' = N -> off x' -> rop x' = Ok (nseq N 0) -> x' = x].
Proof. exact: global_diffusion_solution. Qed.
End Global.
Print Assumptions C65_symmetric.
Print Assumptions C65_definite.
Print Assumptions C65_solvable.
Print Assumptions C65_solution.

(** * C67 the geometries provide what the local solver assumes *)
(** Face area times outer unit normal is area times a column of R^-T. *)
Theorem C67_file (F : realFieldType) (geqr2 : nat -> nat -> seq F -> qr_result F) (n d : nat)
    (trans mat : seq F) (T : linear F) (a : nat -> F) (v : nat -> seq F) :
  (forall nr nc A, qr_info (geqr2 nr nc A) ->
     geqr2_ok nr nc A (qr_fac (geqr2 nr nc A)) (qr_tau (geqr2 nr nc A))) ->
  linear_new geqr2 n d trans mat = Ok T -> (0 < d <= n)%N -> r_fits n d -> linear_det_edge T != 0 ->
  (forall f, (f < 2 * d)%N -> gf_face_area geqr2 T f = Ok (a f) /\ gf_local_normal geqr2 T f = Ok (v f)) ->
  geo_ok (EdgeGeo (mx_of d d (l_r T)) (gf_area T) a (fun f k => (v f)`_k)).
Proof. by move=> hok; exact: file_geo_ok. Qed.
Print Assumptions C67_file.

Theorem C67_cube (F : realFieldType) (enum : tpcc -> seq cell) (slice : nat -> seq nat -> nat) (d L : nat)
    (dims : seq nat) (idx : nat) (g : hgeo F) (a : nat -> F) (v : nat -> seq F) :
  tpcc_spec enum -> slice_spec slice -> (0 < d)%N -> (0 < L)%N -> all (fun n => (0 < n)%N) dims ->
  (idx < cu_n_edges (cubic_refine enum L (cubic_new enum d dims)))%N ->
  ucube_at F enum (ucube_refine L (ucube_new d dims)) idx = Ok g ->
  (forall f, (f < 2 * d)%N -> uc_face_area g f = Ok (a f) /\ uc_local_normal g f = Ok (v f)) ->
  geo_ok (EdgeGeo (mx_of d d (uc_mat_r g)) (uc_area g) a (fun f k => (v f)`_k)).
Proof.
by move=> henum hslice hd hL hp hi hg; exact: (cube_geo_ok henum hslice hd hL hp hi hg).
Qed.
Print Assumptions C67_cube.

Definition ex_qr : nat -> nat -> seq rat -> qr_result [realFieldType of rat] :=
  fun nr nc A => QrResult [&& nr == 2, nc == 1 & A == [:: 3%:Q; 4%:Q]]%N [:: -5%:Q; 1%:Q/2%:Q] [:: 8%:Q/5%:Q].
Definition okb67 T (P : T -> bool) (o : outcome T) : bool := if o is Ok x then P x else false.
(** The edge (3,4): R = -5, area 5, faces 1, local normals 1 and -1. *)
Example C67_example :
  [&& geqr2_check 2 1 [:: 3%:Q; 4%:Q] [:: -5%:Q; 1%:Q/2%:Q] [:: 8%:Q/5%:Q], r_fits 2 1
    & okb67 (fun T => [&& linear_det_edge T != 0, gf_area T == 5%:Q, mget 1 (l_r T) 0 0 == -5%:Q,
          okb67 (fun a => a == 1) (gf_face_area ex_qr T 0), okb67 (fun a => a == 1) (gf_face_area ex_qr T 1),
          okb67 (fun v => v == [:: 1]) (gf_local_normal ex_qr T 0)
        & okb67 (fun v => v == [:: -1]) (gf_local_normal ex_qr T 1)])
        (linear_new ex_qr 2 1 [:: 0; 0] [:: 3%:Q; 4%:Q])].
Proof. by vm_compute. Qed.
(** Two edges in a row, the first node of Dirichlet type. *)
Example C65_example (F : realFieldType) (D0 D1 : df_data F) :
  df_types D0 = [:: 1; 0]%N -> df_types D1 = [:: 0; 0]%N ->
  let edges := [:: ([:: 0; 1], false); ([:: 1; 2], true)]%N in
  let nt v := if v == 0%N then 1%N else 0%N in
  [/\ valid_graph 1 3 edges, types_agree (fun e => if e then D1 else D0) nt edges
    & forall v, (v < 3)%N -> anchored edges (fun v => nt v \in [:: 1%N]) v].
Proof.
move=> h0 h1 edges nt; split=> //.
  by move=> e k /= [<-|[<-|[]]]; case: k => [|[|k]] //=; rewrite ?h0 ?h1.
have a0 : anchored edges (fun v => nt v \in [:: 1%N]) 0 by apply: anchored_fixed.
have a1 : anchored edges (fun v => nt v \in [:: 1%N]) 1.
  by apply: (anchored_step (e := ([:: 0; 1]%N, false)) _ _ _ a0); first by left.
have a2 : anchored edges (fun v => nt v \in [:: 1%N]) 2.
  by apply: (anchored_step (e := ([:: 1; 2]%N, true)) _ _ _ a1); first by right; left.
by case=> [|[|[|]]].
Qed.
