(** Bilaplacian and BilaplacianParab with piecewise constants on an interval, u = 0 and u = 1 given at the ends and w at
    none: the system of the drivers has no solution. *)
From mathcomp Require Import all_ssreflect all_algebra zify ring.
From Verif Require Import M_Base L_Base M_Lapack S_Lapack M_Global S_Global L_Global L_Global2 L_Global3 L_Global4.
From Verif Require Import S_Hdg S_Tpp M_DiffusionUniform M_Diffusion S_LocalSolver S_Diffusion S_TppGeo.
From Verif Require Import L_Hdg L_HdgSrc L_LocalBase L_LocalLink L_DiffusionUniform2 L_Diffusion2 L_GlobalUniform L_GlobalDiffusion.
From Verif Require Import M_Bilaplacian S_Bilaplacian L_Bilaplacian L_Bilaplacian3 L_Bilaplacian4 L_Bilaplacian5 L_GlobalBilaplacian.
From Verif Require Import S_BiReact L_BiReg L_BiFlux L_GlobalBiReact L_GlobalClamped2 M_BilapParab S_BilapParab L_BilapParab2 L_BilapClamped.
Set Implicit Arguments. Unset Strict Implicit. Unset Printing Implicit Defensive.
Import Order.TTheory GRing.Theory Num.Theory.
Local Open Scope ring_scope.

Lemma ok_inj (A : Type) (a b : A) : Ok a = Ok b -> a = b. Proof. by case. Qed.
Section Unsolvable.
Variables (F : rcfType) (tau : F).
Hypothesis tau0 : 0 < tau.
Definition unequalP : bl_data F := let D := bl_df (clampedP F) in
  BlData (DfData (df_vol D) (df_mass D) (df_grad D) (df_bb D) (df_bp D) (df_src D) (fun _ f => (f == 1%N)%:R) (df_initial D)
    (df_normal D) (df_area D) (df_diffsq D) (df_eval D) (df_types D)) (bl_dirlap (clampedP F)) (bl_initlap (clampedP F)).
Notation G := unequalP.
Notation lo x := (tr (nF := 2) 1 (lower 1 x)).
Notation hi x := (tr (nF := 2) 1 (upper 1 x)).
Lemma unequal_data : diffusion_data 1 0 (bl_df G).
Proof. exact: (clampedP_data F). Qed.
Lemma unequal_types : types_agree (fun _ : unit => bl_df G) (fun=> 1%N) clamped_edge.
Proof. by move=> e k [<-|[]] //=; case: k => [|[|]]. Qed.
Lemma unequal_rq (mask : nat -> bool) (d : 'I_1) : mask 0%N -> mask 1%N -> df_rq 0 (u_problem G) mask d = const_mx (-1).
Proof.
move=> h0 h1; rewrite /df_rq big_mkcond !big_ord_recl big_ord0 /= h0 h1 addr0.
apply/colP => i; rewrite !ord1 !mxE /=.
by rewrite mulr0 add0r mulr1.
Qed.
Variables (c : F) (f g : local_fun F unit) (junk : seq (seq F)).
Hypotheses (c0 : c <= 0) (hj : size junk = 2%N).
Hypothesis hf : forall e x out, is_trace 2 2 x -> is_trace 2 2 out -> exists2 y, f e x out = Ok y & exists q u r w,
  bi_react 1 0 tau G c q u r w (lo x) (hi x) (fun=> 0) 0 (fun=> 0) 0 /\
  bi_flux 1 0 [:: 1%N] [::] tau G q u r w (lo x) (hi x) y.
Hypothesis hg : forall e x out, is_trace 2 2 x -> is_trace 2 2 out -> exists2 y, g e x out = Ok y & exists q u r w rq ru rr rw,
  [/\ bi_react 1 0 tau G c q u r w (lo x) (hi x) rq ru rr rw, forall d, rq d = const_mx (-1) &
  bi_flux 1 0 [:: 1%N] [::] tau G q u r w (hi x) (lo x) y].
Lemma unequal_unsolvable x r0 : elliptic_flux 2 4 [::] junk clamped_edge g (nseq 4 0) = Ok r0 ->
  size x = 4%N -> nth 0 x 0 = 0 -> nth 0 x 2 = 0 ->
  elliptic_flux 2 4 [::] junk clamped_edge f x <> Ok (map -%R r0).
Proof.
move=> hr sx x0 x2 hx; pose z := [:: 0; 1; 0; - 1 : F].
have hz : elliptic_flux 2 4 [::] junk clamped_edge f z = Ok (nseq 4 0).
  apply: (@clamped_op F 1 junk f hj); apply: (@clamped_flux F tau 1 c (f tt)); last exact: (hf tt).
  by apply: regular_neg => //; exact: clampedP_data.
have vz : valid_graph 1 2 clamped_edge by [].
have off4 (y : seq F) : nth 0 y 0 = 0 -> nth 0 y 2 = 0 -> @bl_off F 1 0 [:: 1%N] [::] 2 (fun=> 1%N) y.
  by move=> a b [|[|v]] [|j] //= _ _; split.
have oz : @bl_off F 1 0 [:: 1%N] [::] 2 (fun=> 1%N) z by exact: off4.
have := react_symmetric (E := unit) (dat := fun=> G) (k := fun=> c) (n_nodes := 2) (isT : 0 < 1)%N (fun=> unequal_data) hf vz hj unequal_types sx (erefl : size z = 4%N) (off4 x x0 x2) oz.
rewrite hx hz => -[u1 [v1 [eu ev hs]]]; move: hs; rewrite -(ok_inj eu) -(ok_inj ev).
rewrite [vdot _ x _](_ : _ = 0); last by rewrite /vdot big1 // => d _; rewrite nth_nseq if_same mulr0.
have tz : is_trace 2 2 (nseq 2 (nseq 2 (0 : F))) by [].
have hgo e y : is_trace 2 2 y -> exists2 y', g e y (nseq 2 (nseq 2 0)) = Ok y' & is_trace 2 2 y'.
  by move=> hy; have [y' h [q [u [r [w [rq [ru [rr [rw [_ _ [t _ _]]]]]]]]]]] := hg e hy tz; exists y'.
have [r0' [hr' sr' er]] := elliptic_fluxE (phi_computes (dim := 1) (nb := 2) (f := g) hgo) vz hj (size_nseq 4 (0 : F)) (isT : all _ [::]).
have e0 : r0 = r0' by apply: ok_inj; rewrite -hr -hr'.
subst r0'.
have -> : vdot (2 * (2 * (0 + 1) ^ (1 - 1))) z (map -%R r0) = - vdot 4 z r0.
  rewrite /vdot -sumrN; apply: eq_bigr => d _; rewrite (nth_map 0) ?mulrN // sr' size_nseq; exact: ltn_ord.
have -> : vdot 4 z r0 = 2%:R.
  rewrite (bf_dot (p := 0) vz z er) /clamped_edge big_cons big_nil addr0.
  set e := ([:: 0; 1]%N, tt).
  have [y hy [q [u [r [w [rq [ru [rr [rw [[_ l2] erq fl]]]]]]]]]] := hg tt tz tz.
  have -> : phi_of g e.2 (local_part 1 2 e.1 (nseq 4 0)) = dmx 1 2 y.
    have <- : @phi_of F unit 1 2 g e.2 (dmx 1 2 (nseq 2 (nseq 2 0))) = dmx 1 2 y by rewrite /phi_of (@rows_of_dmx F 1 2) ?hy.
    congr phi_of.
    by apply/matrixP => i j; rewrite !mxE nth_nseq if_same nth_nseq; case: ifP => _; rewrite ?nth_nil // nth_nseq if_same.
  have [o1 o2] := local_off vz unequal_types (or_introl erefl : List.In e clamped_edge) oz.
  have [_ f1 f2] := fl.
  rewrite -[local_part 1 2 e.1 z]rows_ofK -pairing_fdot.
  have -> := pairing_halves (2 * 1) ((0 + 1) ^ (1 - 1)) (rows_of (local_part 1 2 e.1 z)) y.
  rewrite (pairing_mask o1 f1) (pairing_mask o2 f2).
  have [l3 _] := clamped_loc tau (1 : F) c; rewrite !mulmx0 scaler0 addr0 in l3; move/loc_src0: l3 => l3.
  have {}l3 : loc_eq (bl_hdg 1 0 G) tau (fun=> const_mx (2%:R * 1)) 0 (tr ((0 + 1) ^ (1 - 1)) (upper ((0 + 1) ^ (1 - 1)) (rows_of (local_part 1 2 e.1 z)))).
    apply: loc_eq_ext l3 => // i; apply/colP => j; have [_ ->] := part_at (p := 0) e z i j.
    by rewrite ord1 !mxE; case: i => -[|[|]].
  have l4 : loc_src (bl_hdg 1 0 G) tau q u (fun=> 0) rq (bl_coef 1 0 G *m w + ru).
    by apply: src_ext l2 => // i; rewrite (@zero_lo F 1 0).
  have hok := bl_ok (isT : (0 < 1)%N) unequal_data.
  have h4 := dual_src hok l4 l3.
  rewrite big1 => [|i _]; last first.
    rewrite [tr _ _ i](_ : _ = 0) ?dotv0l //; apply/colP => j; have [-> _] := part_at (p := 0) e z i j; rewrite ord1 mxE.
    by case: i => -[|[|]].
  rewrite add0r; transitivity (\sum_f0 dotv (tr ((0 + 1) ^ (1 - 1)) (upper ((0 + 1) ^ (1 - 1)) (rows_of (local_part 1 2 e.1 z))) f0)
     (num_flux (bl_hdg 1 0 G) tau q u (fun=> 0) f0)).
    by apply: eq_bigr => i _; congr dotv; apply: flux_ext => //; rewrite (@zero_hi F 1 0).
  rewrite h4 big1 => [|i _]; last by rewrite dotv0l.
  by rewrite dotv0l !add0r big_ord1 erq /dotv big_ord1 !mxE mulr1 mulN1r opprK.
by move/eqP; rewrite oppr_eq0 pnatr_eq0.
Qed.
End Unsolvable.
Lemma unsolvable_refuted (F : rcfType) (tau : F) (gesv : nat -> nat -> seq F -> seq F -> sv_result F) (junk : seq (seq F)) :
  0 < tau -> gesv_correct gesv -> size junk = 2%N ->
  exists (P : bl_data F) (edges : seq (seq nat * unit)) (nt : nat -> nat),
  [/\ diffusion_data 1 0 (bl_df P), valid_graph 1 2 edges, types_agree (fun=> bl_df P) nt edges,
      forall v, (v < 2)%N -> nt v \in [:: 1%N] &
   (exists2 r0, elliptic_flux 2 4 [::] junk edges (fun=> bl_residual_flux gesv 1 0 [:: 1%N] [::] tau P) (nseq 4 0) = Ok r0 &
     forall x : seq F, size x = 4%N -> nth 0 x 0 = 0 -> nth 0 x 2 = 0 ->
     elliptic_flux 2 4 [::] junk edges (fun=> bl_trace_to_flux gesv 1 0 [:: 1%N] [::] tau P) x <> Ok (map -%R r0)) /\
   forall theta dt src init old, 0 < theta * dt ->
   exists2 r0, elliptic_flux 2 4 [::] junk edges
       (fun=> bp_residual_flux gesv 1 0 [:: 1%N] [::] tau theta dt (BpData P src init) old) (nseq 4 0) = Ok r0 &
     forall x : seq F, size x = 4%N -> nth 0 x 0 = 0 -> nth 0 x 2 = 0 ->
     elliptic_flux 2 4 [::] junk edges
       (fun=> bp_trace_to_flux gesv 1 0 [:: 1%N] [::] tau theta dt (BpData P src init) old) x <> Ok (map -%R r0)].
Proof.
move=> t0 hg hj; have hD := unequal_data F; exists (unequalP F), clamped_edge, (fun=> 1%N); split=> //.
  exact: unequal_types.
split=> [|theta dt src init old k0].
  have [r0 [hr sr or]] := global_bilap_residual (E := unit) (dim := 1) (p := 0) (n_nodes := 2) isT (fun=> hD) hg t0 [:: 1%N] [::]
    (isT : valid_graph 1 2 clamped_edge) hj (unequal_types F) (size_nseq 4 (0 : F)).
  exists r0 => // x sx x0 x2; apply: (unequal_unsolvable t0 (c := 0) _ hj _ _ hr) => //.
    move=> e0 y out hy ho; have [y' h1 [q [u [r [w [h2 h3]]]]]] := @bilap_flux F gesv 1 0 [:: 1%N] [::] tau (unequalP F) isT hD hg t0 y out hy ho.
    by exists y' => //; exists q, u, r, w; split=> //; rewrite /bi_react scale0r addr0.
  move=> e0 y out hy ho; have [y' h1 [q [u [r [w [h2 h3]]]]]] := @bilap_residual F gesv 1 0 [:: 1%N] [::] tau (unequalP F) isT hD hg t0 y out hy ho.
  exists y' => //; eexists q, u, r, w, _, _, _, _; split; [rewrite /bi_react scale0r addr0; exact: h2|move=> d; exact: unequal_rq|exact: h3].
have hD' : forall e : unit, diffusion_data 1 0 (bl_df (bp_bl ((fun _ : unit => BpData (unequalP F) src init) e))) by [].
have [r0 [hr sr or]] := L_GlobalBilapParab.par_residual (E := unit) (dim := 1) (p := 0) (n_nodes := 2) [:: 1%N] [::] (fun=> old) isT hD' hg t0 k0
    (isT : valid_graph 1 2 clamped_edge) hj (unequal_types F) (size_nseq 4 (0 : F)).
exists r0 => // x sx x0 x2; apply: (unequal_unsolvable t0 (c := - (theta * dt)^-1) _ hj _ _ hr) => //.
- by rewrite oppr_le0 invr_ge0 ltW.
- by move=> e0 y out hy ho; exact: (@parab_flux_ F gesv 1 0 [:: 1%N] [::] tau theta dt (BpData (unequalP F) src init) isT hD hg t0 k0 old y out hy ho).
move=> e0 y out hy ho; have [y' h1 [q [u [r [w [h2 h3]]]]]] := @parab_residual_react F gesv 1 0 [:: 1%N] [::] tau theta dt (BpData (unequalP F) src init) isT hD hg t0 k0 old y out hy ho.
exists y' => //; eexists q, u, r, w, _, _, _, _; split; [exact: h2|move=> d; exact: unequal_rq|exact: h3].
Qed.
