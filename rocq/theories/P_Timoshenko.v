(** Properties C93-C97: the local solver TimoshenkoBeam, the mechanics of its fluxes and its global system.  The
    integrals of TPP and the LAPACK solver enter with the contracts of S_Timoshenko and S_Lapack.  Statements only;
    proofs are in L_TimoshenkoFlux, L_TimoshenkoMech2, L_TimoshenkoFrame, L_TimoshenkoEx and L_GlobalBeam. *)
From mathcomp Require Import all_ssreflect all_algebra.
From Verif Require Import M_Base M_DenseLA S_DenseLA M_Lapack S_Lapack M_Geometry S_Tpp S_LocalSolver S_Diffusion.
From Verif Require Import M_Global S_Global S_Beam M_Timoshenko S_Timoshenko S_GlobalBeam.
From Verif Require Import L_Poly L_Lapack L_DiffusionUniform2 L_TimoshenkoFlux L_TimoshenkoMech L_TimoshenkoMech2 L_TimoshenkoFrame.
From Verif Require Import L_GlobalMasked L_GlobalBeam L_TimoshenkoEx.
Set Implicit Arguments. Unset Strict Implicit. Unset Printing Implicit Defensive.
Import Order.TTheory GRing.Theory Num.Theory.
Local Open Scope ring_scope.

(** * C93 the local problem of a beam *)
Section Checks.
Variable F : realFieldType.
Variable gesv : nat -> nat -> seq F -> seq F -> sv_result F.
Variables (p : nat) (dirs : seq nat) (tau : F) (D : tb_data F).
(** Traces of the wrong size end in an assertion, as does a failure of LAPACK. *)
Theorem C93_checked x y : ~ (is_trace 2 6 x /\ is_trace 2 6 y) ->
  tb_trace_to_flux gesv p dirs tau D x y = Abort /\ tb_residual_flux gesv p dirs tau D x y = Abort.
Proof. by move=> h; split; exact: tb_flux_abort. Qed.
Theorem C93_errors_checked x : ~ is_trace 2 6 x -> tb_errors gesv p dirs tau D x = Abort.
Proof. exact: tb_errors_abort. Qed.
Theorem C93_lapack x y pts : (forall n nc (A b : seq F), sv_info (gesv n nc A b) = false) ->
  tb_extra_fits D -> is_trace 2 6 x -> is_trace 2 6 y ->
  [/\ tb_trace_to_flux gesv p dirs tau D x y = Abort, tb_residual_flux gesv p dirs tau D x y = Abort,
      tb_errors gesv p dirs tau D x = Abort & tb_bulk_values gesv p dirs tau D pts x = Abort].
Proof.
by move=> h1 h2 h3 h4; have [a b c] := tb_lapack p dirs tau false pts h1 h2 h3 h4; have [] := tb_lapack p dirs tau true pts h1 h2 h3 h4.
Qed.
(** Extra data fit if there are at least twelve numbers; fewer are read beyond their end. *)
Theorem C93_extra : tb_extra_fits D = (if tb_extra D is Some e then (12 <= size e)%N else true).
Proof. exact: tb_enough. Qed.
Theorem C93_short e x y pts : tb_extra D = Some e -> (size e < 12)%N -> is_trace 2 6 x -> is_trace 2 6 y ->
  [/\ tb_trace_to_flux gesv p dirs tau D x y = UB, tb_residual_flux gesv p dirs tau D x y = UB,
      tb_errors gesv p dirs tau D x = UB & tb_bulk_values gesv p dirs tau D pts x = UB].
Proof.
by move=> he hs h2 h3; have [a b c] := tb_short gesv p dirs tau false pts (tb_few he hs) h2 h3; have [] := tb_short gesv p dirs tau true pts (tb_few he hs) h2 h3.
Qed.
End Checks.

Section Local.
Variable F : realFieldType.
Variable gesv : nat -> nat -> seq F -> seq F -> sv_result F.
Variables (p : nat) (dirs : seq nat) (tau : F) (D : tb_data F) (b : nat -> {poly F}) (r : F).
Hypotheses (hd : segment_data b p r D) (k0 : forall c, 0 < tb_k D c) (tau0 : 0 < tau).
Hypotheses (hg : gesv_correct gesv) (fits : tb_extra_fits D).
Let B := tb_beam p D.
Let k := tb_k D.
Let flux := tb_trace_to_flux gesv p dirs tau D.
Let residual := tb_residual_flux gesv p dirs tau D.
Let given f := nth 0%N (tb_types D) f \in dirs.
Let zt := zero_trace F 2 6.

(** The fluxes are those of the discrete beam equations, in the frame of the beam; they are added to what the output
    holds, and nothing is reported where values are given. *)
Theorem C93_flux x y : is_trace 2 6 x -> is_trace 2 6 y -> exists q u z,
  [/\ flux x y = Ok z, is_trace 2 6 z, beam_eq B k tau q u (ends x *m frame2 D) 0 0 &
      ends z = masked dirs D (ends y + beam_flux B tau q u (ends x *m frame2 D) *m (frame2 D)^T)].
Proof.
move=> hx hy; have [q [u [z [h1 h2 h3 h4]]]] := tb_flux_ok dirs hd k0 tau0 hg fits false hx hy.
by exists q, u, z; split=> //; move: h3; rewrite !scale0r.
Qed.
Theorem C93_residual x y : is_trace 2 6 x -> is_trace 2 6 y -> exists q u z,
  [/\ residual x y = Ok z, is_trace 2 6 z,
      beam_eq B k tau q u (ends x *m frame2 D) (load_q dirs p D) (load_u dirs p tau D) &
      ends z = masked dirs D (ends y + beam_flux B tau q u (ends x *m frame2 D) *m (frame2 D)^T)].
Proof.
move=> hx hy; have [q [u [z [h1 h2 h3 h4]]]] := tb_flux_ok dirs hd k0 tau0 hg fits true hx hy.
by exists q, u, z; split=> //; move: h3; rewrite !scale1r.
Qed.
Theorem C93_unique q u q' u' X Rq Ru : beam_eq B k tau q u X Rq Ru -> beam_eq B k tau q' u' X Rq Ru -> q = q' /\ u = u'.
Proof. exact: (tb_uniq hd k0 tau0). Qed.
Theorem C93_linear c x x' y y' : is_trace 2 6 x -> is_trace 2 6 x' -> is_trace 2 6 y -> is_trace 2 6 y' ->
  exists z z', [/\ flux x y = Ok z, flux x' y' = Ok z' &
    flux (comb_trace c 2 6 x x') (comb_trace c 2 6 y y') = Ok (comb_trace c 2 6 z z')].
Proof. exact: (tb_affine dirs hd k0 tau0 hg fits false). Qed.
Theorem C93_affine c x x' y y' : is_trace 2 6 x -> is_trace 2 6 x' -> is_trace 2 6 y -> is_trace 2 6 y' ->
  exists z z', [/\ flux x y = Ok z, residual x' y' = Ok z' &
    residual (comb_trace c 2 6 x x') (comb_trace c 2 6 y y') = Ok (comb_trace c 2 6 z z')].
Proof. exact: (tb_affine dirs hd k0 tau0 hg fits true). Qed.
(** errors adds up the squared differences of the three displacements; bulk_values turns them to space. *)
Theorem C93_errors x : is_trace 2 6 x -> exists q u,
  beam_eq B k tau q u (ends x *m frame2 D) (load_q dirs p D) (load_u dirs p tau D) /\
  tb_errors gesv p dirs tau D x = Ok [:: \sum_(c < 3) tb_diffsq D c (component u c)].
Proof. exact: (tb_errors_ok dirs hd k0 tau0 hg fits). Qed.
Theorem C93_bulk pts x : exists q u z, [/\
  beam_eq B k tau q u (ends x *m frame2 D) (load_q dirs p D) (load_u dirs p tau D),
  tb_bulk_values gesv p dirs tau D pts x = Ok z, is_trace 3 (size pts) z &
  forall (d : 'I_3) i, (i < size pts)%N ->
    nth 0 (nth [::] z d) i = \sum_(c < 3) frame D d c * tb_eval D pts (component u c) i].
Proof. exact: (tb_bulk_ok dirs hd k0 tau0 hg fits). Qed.

(** * C94 symmetry and energy *)
Theorem C94_symmetric x x' : is_trace 2 6 x -> is_trace 2 6 x' -> vanishes given 2 6 x -> vanishes given 2 6 x' ->
  exists z z', [/\ flux x zt = Ok z, flux x' zt = Ok z' & pairing 2 6 x' z = pairing 2 6 x z'].
Proof. exact: (tb_symmetric hd k0 tau0 hg fits). Qed.
(** The work of the fluxes is minus the energy of the solution, so it is not positive ... *)
Theorem C94_energy x : is_trace 2 6 x -> vanishes given 2 6 x -> exists z q u,
  [/\ flux x zt = Ok z, beam_eq B k tau q u (ends x *m frame2 D) 0 0 &
      pairing 2 6 x z = - beam_form B k tau q u (ends x *m frame2 D) q u (ends x *m frame2 D)].
Proof. exact: (tb_energy hd k0 tau0 hg fits). Qed.
Theorem C94_nonpos x : is_trace 2 6 x -> vanishes given 2 6 x -> exists2 z, flux x zt = Ok z & pairing 2 6 x z <= 0.
Proof. exact: (tb_nonpos hd k0 tau0 hg fits). Qed.

(** * C95 rigid motions and equilibrium *)
Section Space.
Variable P : 'I_2 -> 'cV[F]_3.
Hypotheses (hQ : orthonormal (frame D)) (hP : beam_ends D r P).
(** ... and it vanishes for rigid motions only; the sense of rotation depends on the hand of the frame. *)
Theorem C94_kernel x z : is_trace 2 6 x -> vanishes given 2 6 x -> flux x zt = Ok z -> pairing 2 6 x z = 0 ->
  exists a w, rigid (- \det (frame D)) a w P x.
Proof. exact: (tb_kernel hd k0 tau0 hg fits hQ hP). Qed.
Theorem C95_rigid x a w : (0 < p)%N -> is_trace 2 6 x -> rigid (- \det (frame D)) a w P x -> flux x zt = Ok zt.
Proof. exact: (tb_rigid dirs hd k0 tau0 hg fits hQ hP). Qed.
Theorem C95_translation x a : is_trace 2 6 x -> (forall f, upper3 x f = a /\ lower3 x f = 0) -> flux x zt = Ok zt.
Proof. exact: (tb_translate dirs hd k0 tau0 hg fits). Qed.
(** The forces at the two ends balance the load (integrated with the constant shape function). *)
Theorem C95_forces x : (forall f, (f < 2)%N -> ~~ given f) -> is_trace 2 6 x ->
  exists z z', [/\ flux x zt = Ok z, residual x zt = Ok z', \sum_f upper3 z f = 0
    & \sum_f upper3 z' f = frame D *m \col_(c < 3) tb_load D c 0].
Proof.
move=> hf hx; have [z hz e] := tb_forces hd k0 tau0 hg fits false hf hx.
have [z' hz' e'] := tb_forces hd k0 tau0 hg fits true hf hx.
by exists z, z'; split=> //; [rewrite e scale0r|rewrite e' scale1r].
Qed.
Theorem C95_moments x : (0 < p)%N -> (forall f, (f < 2)%N -> ~~ given f) -> is_trace 2 6 x -> exists2 z, flux x zt = Ok z &
  \sum_f cross (P f) (upper3 z f) = \det (frame D) *: \sum_f lower3 z f.
Proof. exact: (tb_moments hd k0 tau0 hg fits hQ hP). Qed.
(** Rotations in another sense (except about the beam) produce fluxes. *)
Theorem C95_handed x s a w : (forall f, (f < 2)%N -> ~~ given f) -> is_trace 2 6 x -> rigid s a w P x ->
  flux x zt = Ok zt -> s = - \det (frame D) \/ cross w (P 1 - P 0) = 0.
Proof. exact: (tb_handed hd k0 tau0 hg fits hQ hP). Qed.
End Space.
End Local.
Print Assumptions C93_checked.
Print Assumptions C93_errors_checked.
Print Assumptions C93_lapack.
Print Assumptions C93_extra.
Print Assumptions C93_short.
Print Assumptions C93_flux.
Print Assumptions C93_residual.
Print Assumptions C93_unique.
Print Assumptions C93_linear.
Print Assumptions C93_affine.
Print Assumptions C93_errors.
Print Assumptions C93_bulk.
Print Assumptions C94_symmetric.
Print Assumptions C94_energy.
Print Assumptions C94_nonpos.
Print Assumptions C94_kernel.
Print Assumptions C95_rigid.
Print Assumptions C95_translation.
Print Assumptions C95_forces.
Print Assumptions C95_moments.
Print Assumptions C95_handed.

(** The hypotheses hold for a beam of length 1 with polynomials of any degree, over any real closed field. *)
Example C93_example (F : rcfType) (p : nat) (types : seq nat) (load : nat -> nat -> F) :
  exists b, let D := ex_beam b 1 0 None types load in
  [/\ segment_data b p 1 D, forall c, 0 < tb_k D c, tb_extra_fits D, orthonormal (frame D) & beam_ends D 1 (@ex_ends F)]
  /\ gesv_correct (@inv_gesv F).
Proof.
have [b hb] := orthonormal_exists F p; exists b; split; last exact: inv_gesv_correct.
by apply: ex_good; rewrite addn1.
Qed.
(** Rotation about the third axis: fluxes vanish for rotation numbers -w and not for w. *)
Example C95_example (F : rcfType) (p : nat) : (0 < p)%N ->
  let w : 'cV[F]_3 := delta_mx (inord 2) 0 in
  exists b, let D := ex_beam b 1 0 None [:: 0; 0]%N (fun _ _ => 0) in
  let x s := trace_six (fun f => 0 + cross w (@ex_ends F f)) (fun _ => s *: w) in
  tb_trace_to_flux (@inv_gesv F) p [::] 1 D (x (-1)) (zero_trace F 2 6) = Ok (zero_trace F 2 6) /\
  tb_trace_to_flux (@inv_gesv F) p [::] 1 D (x 1) (zero_trace F 2 6) <> Ok (zero_trace F 2 6).
Proof. exact: ex_turn. Qed.

(** The beams of a geometry read from file: the frame is orthonormal, the signed length is the entry of R, the frame
    is right-handed exactly if LAPACK has reflected, and it does so unless the beam lies on the first axis. *)
Section File.
Variable F : realFieldType.
Variable geqr2 : nat -> nat -> seq F -> qr_result F.
Variables (trans mat : seq F) (T : linear F) (D : tb_data F).
Let g := geqr2 3 1 mat.
Hypothesis hok : qr_info g -> geqr2_ok 3 1 mat (qr_fac g) (qr_tau g).
Hypotheses (hT : linear_new geqr2 3 1 trans mat = Ok T) (hD : on_file geqr2 T D).
Theorem C95_file : let r := mget 1 (l_r T) 0 0 in
  [/\ orthonormal (frame D), beam_ends D r (file_end T), r != 0 -> tb_normal D 0 = - Num.sg r /\ tb_normal D 1 = Num.sg r,
      \det (frame D) = (if (qr_tau g)`_0 == 0 then -1 else 1) & (qr_tau g)`_0 = 0 -> mat`_1 = 0 /\ mat`_2 = 0].
Proof.
split; [exact: (file_orthonormal hok hT hD)|exact: (file_ends hok hT hD)|exact: (file_normals hT hD)|
  exact: (file_det hok hT hD)|exact: (file_reflection hok hT)].
Qed.
End File.
Print Assumptions C95_file.

(** So there is no rule for rigid rotations common to a beam on the first axis, for which dgeqr2 does not reflect,
    and another beam. *)
Theorem C95_refuted (F : realFieldType) (geqr2 : nat -> nat -> seq F -> qr_result F)
    (gesv : nat -> nat -> seq F -> seq F -> sv_result F) (p : nat) (dirs : seq nat) (tau : F) (b : nat -> {poly F})
    (t1 t2 m1 m2 : seq F) (T1 T2 : linear F) (D1 D2 : tb_data F) (s : F) :
  (forall nr nc A, qr_info (geqr2 nr nc A) -> geqr2_ok nr nc A (qr_fac (geqr2 nr nc A)) (qr_tau (geqr2 nr nc A))) ->
  gesv_correct gesv -> 0 < tau ->
  linear_new geqr2 3 1 t1 m1 = Ok T1 -> linear_new geqr2 3 1 t2 m2 = Ok T2 ->
  on_file geqr2 T1 D1 /\ on_file geqr2 T2 D2 ->
  segment_data b p (mget 1 (l_r T1) 0 0) D1 /\ segment_data b p (mget 1 (l_r T2) 0 0) D2 ->
  (forall c, 0 < tb_k D1 c /\ 0 < tb_k D2 c) -> tb_extra_fits D1 && tb_extra_fits D2 ->
  (forall f, (f < 2)%N -> nth 0%N (tb_types D1) f \notin dirs /\ nth 0%N (tb_types D2) f \notin dirs) ->
  (qr_tau (geqr2 3%N 1%N m1))`_0 = 0 -> (qr_tau (geqr2 3%N 1%N m2))`_0 != 0 ->
  let zt := zero_trace F 2 6 in
  ~ ((forall w x, is_trace 2 6 x -> rigid s 0 w (file_end T1) x -> tb_trace_to_flux gesv p dirs tau D1 x zt = Ok zt) /\
     (forall w x, is_trace 2 6 x -> rigid s 0 w (file_end T2) x -> tb_trace_to_flux gesv p dirs tau D2 x zt = Ok zt)).
Proof. exact: file_hands_differ. Qed.
Print Assumptions C95_refuted.
Example C95_refuted_example : (forall nr nc A, qr_info (ex_beam_qr nr nc A) ->
    geqr2_ok nr nc A (qr_fac (ex_beam_qr nr nc A)) (qr_tau (ex_beam_qr nr nc A))) /\
  exists (T1 T2 : linear [realFieldType of rat]) (D1 D2 : tb_data [realFieldType of rat]),
  [/\ linear_new ex_beam_qr 3 1 [:: 0; 0; 0] [:: 1; 0; 0] = Ok T1,
      linear_new ex_beam_qr 3 1 [:: 0; 0; 0] [:: 0; 1; 0] = Ok T2,
      on_file ex_beam_qr T1 D1 /\ on_file ex_beam_qr T2 D2,
      segment_data (fun=> 1) 0 (mget 1 (l_r T1) 0 0) D1 /\ segment_data (fun=> 1) 0 (mget 1 (l_r T2) 0 0) D2
    & [/\ forall c, 0 < tb_k D1 c /\ 0 < tb_k D2 c, tb_extra_fits D1 && tb_extra_fits D2,
          tb_types D1 = [:: 0; 0]%N /\ tb_types D2 = [:: 0; 0]%N,
          (qr_tau (ex_beam_qr 3 1 [:: 1; 0; 0]))`_0 = 0 & (qr_tau (ex_beam_qr 3 1 [:: 0; 1; 0]))`_0 != 0]].
Proof. by split; [exact: ex_beam_qr_ok|exact: ex_two_frames]. Qed.

(** * C96 structural constants *)
(** Right if the outer normals of the frame are the axes of the section, up to sign, in this or the other order. *)
Theorem C96_aligned_partial (F : realFieldType) (sw : bool) (D : tb_data F) (e : seq F) :
  section_axes D e -> aligned sw D e -> tb_extra D = Some e ->
  tb_coeffs D = let s := 10%:R ^+ 4 : F in let t := 10%:R ^+ 12 : F in
    [:: `|nth 0 e 0| * s; `|nth 0 e (if sw then 2 else 1)%N| * s; `|nth 0 e (if sw then 1 else 2)%N| * s;
        `|nth 0 e 3| * t; `|nth 0 e (if sw then 5 else 4)%N| * t; `|nth 0 e (if sw then 4 else 5)%N| * t].
Proof. exact: aligned_coeffs. Qed.
(** Two frames about the same tangent disagree on a section with equal constants ... *)
Theorem C96_refuted_isotropic (F : realFieldType) (k : F) : 0 < k -> exists (D D' : tb_data F) (e : seq F),
  [/\ tb_extra D = Some e /\ tb_extra D' = Some e, section_axes D e /\ section_axes D' e,
      orthonormal (frame D) /\ orthonormal (frame D'), col 0 (frame D) = col 0 (frame D')
    & [/\ size e = 12%N, nth 0 e 1 = k, nth 0 e 2 = k, tb_k D (inord 1) = k * 10%:R ^+ 4
      & tb_k D' (inord 1) = 7%:R / 5%:R * k * 10%:R ^+ 4]].
Proof. exact: isotropic_differ. Qed.
(** ... and positive constants may give the constant zero, by which the code divides. *)
Theorem C96_refuted_zero (F : realFieldType) : exists (D : tb_data F) (e : seq F),
  [/\ tb_extra D = Some e, section_axes D e, orthonormal (frame D), forall i, (i < 6)%N -> 0 < nth 0 e i
    & tb_k D (inord 1) = 0].
Proof. exact: constant_vanishes. Qed.
Print Assumptions C96_aligned_partial.
Print Assumptions C96_refuted_isotropic.
Print Assumptions C96_refuted_zero.
Example C96_example (F : realFieldType) (a m : nat -> F) :
  let D := ex_beam (fun=> 1) 1 0 (Some (ex_section a m)) [::] (fun _ _ => 0) in
  section_axes D (ex_section a m) /\ aligned false D (ex_section a m).
Proof. exact: ex_aligned. Qed.

(** * C97 networks *)
Section Network.
Variables (F : realFieldType) (E : Type) (p : nat) (dat : E -> tb_data F) (b : nat -> {poly F}) (len : E -> F).
Variables (gesv : nat -> nat -> seq F -> seq F -> sv_result F) (tau : F) (dirs : seq nat).
Hypotheses (hD : forall e, segment_data b p (len e) (dat e)) (k0 : forall e c, 0 < tb_k (dat e) c).
Hypotheses (fits : forall e, tb_extra_fits (dat e)) (tau0 : 0 < tau) (hg : gesv_correct gesv).
Variables (n_nodes : nat) (edges : seq (seq nat * E)) (junk : seq (seq F)) (nt : nat -> nat).
Hypotheses (hv : valid_graph 1 n_nodes edges) (hj : size junk = 2%N) (ht : beam_types dat nt edges).
Let N := (n_nodes * 6)%N.
Let op := elliptic_flux 6 N [::] junk edges (fun e => tb_trace_to_flux gesv p dirs tau (dat e)).
Let res := elliptic_flux 6 N [::] junk edges (fun e => tb_residual_flux gesv p dirs tau (dat e)).
Let free := @free_only F n_nodes (fun v => nt v \in dirs).
Theorem C97_symmetric x y : size x = N -> size y = N -> free x -> free y ->
  exists u v, [/\ op x = Ok u, op y = Ok v & vdot N y u = vdot N x v].
Proof. exact: (network_symmetric hD k0 fits tau0 hg hv hj ht). Qed.
Theorem C97_residual x : size x = N -> exists r0, [/\ res (nseq N 0) = Ok r0, size r0 = N, free r0 &
  res x = Ok (nseq N 0) <-> op x = Ok [seq - a | a <- r0]].
Proof. move=> sx; exact: (@network_residual F E p dat b len gesv tau hD k0 fits tau0 hg dirs n_nodes edges junk nt hv hj ht x sx). Qed.
Section Clamped.
Hypothesis hQ : forall e, orthonormal (frame (dat e)).
(** Every hypernode is joined to a given one. *)
Hypothesis conn : forall v, (v < n_nodes)%N -> anchored edges (fun v => nt v \in dirs) v.
Theorem C97_definite x : size x = N -> free x ->
  exists u, [/\ op x = Ok u, vdot N x u <= 0 & vdot N x u = 0 -> x = nseq N 0].
Proof. exact: (network_definite hD k0 fits tau0 hg hv hj ht hQ conn). Qed.
Theorem C97_solvable r : size r = N -> free r -> exists x, [/\ size x = N, free x, op x = Ok r &
    forall x', size x' = N -> free x' -> op x' = Ok r -> x' = x].
Proof. exact: (network_solvable hD k0 fits tau0 hg hv hj ht hQ conn). Qed.
Theorem C97_solution : exists x, [/\ size x = N, free x, res x = Ok (nseq N 0) &
    forall x', size x' = N -> free x' -> res x' = Ok (nseq N 0) -> x' = x].
Proof. exact: (network_solution hD k0 fits tau0 hg hv hj ht hQ conn). Qed.
End Clamped.
(** Networks in space whose frames have one hand. *)
Section Rigid.
Variables (pos : nat -> 'cV[F]_3) (d : F).
Hypotheses (hQ : forall e, orthonormal (frame (dat e))) (hpos : placed dat len pos edges) (hand : one_hand dat d edges).
Theorem C97_rigid x a w : (0 < p)%N -> size x = N -> rigid_network (- d) a w pos n_nodes x -> op x = Ok (nseq N 0).
Proof. exact: (network_rigid hD k0 fits tau0 hg dirs hv hj hQ hpos hand). Qed.
(** Without given hypernodes: the forces add up to the loads, the fluxes do no work in rigid motions, and in a
    connected network only rigid motions have no fluxes. *)
Hypothesis nofix : forall v, (v < n_nodes)%N -> nt v \notin dirs.
Theorem C97_forces x r : size x = N -> res x = Ok r ->
  \sum_(v < n_nodes) node_disp r v = \sum_(e <- edges) frame (dat e.2) *m \col_(c < 3) tb_load (dat e.2) c 0.
Proof. exact: (network_forces hD k0 fits tau0 hg hv hj ht nofix). Qed.
Theorem C97_balance x y a w u : (0 < p)%N -> size x = N -> size y = N -> rigid_network (- d) a w pos n_nodes y ->
  op x = Ok u -> vdot N y u = 0.
Proof. exact: (network_balance hD k0 fits tau0 hg hv hj ht hQ hpos hand nofix). Qed.
Theorem C97_kernel x v0 : d * d = 1 -> size x = N -> (v0 < n_nodes)%N ->
  (forall v, (v < n_nodes)%N -> anchored edges (fun v => v = v0) v) ->
  op x = Ok (nseq N 0) -> exists a w, rigid_network (- d) a w pos n_nodes x.
Proof. exact: (network_kernel hD k0 fits tau0 hg hv hj ht hQ hpos hand nofix). Qed.
End Rigid.
End Network.
Print Assumptions C97_symmetric.
Print Assumptions C97_residual.
Print Assumptions C97_definite.
Print Assumptions C97_solvable.
Print Assumptions C97_solution.
Print Assumptions C97_rigid.
Print Assumptions C97_forces.
Print Assumptions C97_balance.
Print Assumptions C97_kernel.

(** A chain of two beams, clamped at the first hypernode (type 1). *)
Example C97_example (F : rcfType) (p : nat) : exists (b : nat -> {poly F}) (dat : bool -> tb_data F),
  let edges := [:: ([:: 0; 1]%N, true); ([:: 1; 2]%N, false)] in
  let nt v := if v == 0%N then 1%N else 0%N in
  let pos (v : nat) : 'cV[F]_3 := \col_i (if i == 0%N :> nat then v%:R else 0) in
  [/\ forall e, [/\ segment_data b p 1 (dat e), forall c, 0 < tb_k (dat e) c, tb_extra_fits (dat e) & orthonormal (frame (dat e))],
      valid_graph 1 3 edges, beam_types dat nt edges,
      forall v, (v < 3)%N -> anchored edges (fun v => nt v \in [:: 1%N]) v
    & placed dat (fun _ => 1) pos edges /\ one_hand dat 1 edges].
Proof. exact: ex_chain. Qed.
