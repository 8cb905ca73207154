(** The coupled problems with u = 0 given wherever w is given: the system is solvable. *)
From mathcomp Require Import all_ssreflect all_algebra zify.
From Verif Require Import M_Base L_Base M_Lapack S_Lapack M_Global S_Global L_Global L_Global2 L_Global3 L_Global4.
From Verif Require Import S_Hdg S_Tpp M_DiffusionUniform M_Diffusion S_LocalSolver S_Diffusion S_TppGeo.
From Verif Require Import L_Hdg L_HdgSrc L_LocalBase L_LocalLink L_DiffusionUniform2 L_Diffusion2 L_GlobalUniform L_GlobalDiffusion.
From Verif Require Import M_Bilaplacian S_Bilaplacian L_Bilaplacian L_Bilaplacian3 L_Bilaplacian4 L_Bilaplacian5 L_GlobalBilaplacian.
From Verif Require Import S_BiReact L_BiReg L_BiFlux L_GlobalBiReact L_GlobalClamped L_Fredholm.
Set Implicit Arguments. Unset Strict Implicit. Unset Printing Implicit Defensive.
Import Order.TTheory GRing.Theory Num.Theory.
Local Open Scope ring_scope.

Section Clamped.
Variables (F : realFieldType) (E : Type) (dim p : nat) (dat : E -> bl_data F) (tau : F) (k : E -> F).
Hypotheses (dim0 : (0 < dim)%N) (hD : forall e, diffusion_data dim p (bl_df (dat e))) (tau0 : 0 < tau).
Hypothesis hneg : forall e, k e <= 0.
Variables (dirs laps : seq nat) (f : local_fun F E).
Notation nf := ((p + 1) ^ dim)%N.
Notation nb := ((p + 1) ^ (dim - 1))%N.
Notation n2 := (2 * nb)%N.
Local Notation m := (2 * dim)%N.
Notation lo x := (tr nb (lower nb x)).
Notation hi x := (tr nb (upper nb x)).
Notation react e q u r w x y := (bi_react dim p tau (dat e) (k e) q u r w x y
  (fun _ : 'I_dim => 0 : 'cV[F]_nf) 0 (fun _ : 'I_dim => 0 : 'cV[F]_nf) 0).
Notation H e := (bl_hdg dim p (dat e)).
Notation bflux e := (bi_flux dim p dirs laps tau (dat e)).
Hypothesis hf : forall e x out, is_trace m n2 x -> is_trace m n2 out ->
  exists2 y, f e x out = Ok y & exists q u r w, react e q u r w (lo x) (hi x) /\ bflux e q u r w (lo x) (hi x) y.
Notation phi := (@phi_of F E dim n2 f).
Variables (n_nodes : nat) (edges : seq (seq nat * E)) (junk : seq (seq F)) (nt : nat -> nat).
Hypotheses (hv : valid_graph dim n_nodes edges) (hj : size junk = m).
Hypothesis ht : types_agree (fun e => bl_df (dat e)) nt edges.
Notation N := (n_nodes * n2)%N.
Notation N1 := (n_nodes * nb)%N.
Notation op x := (elliptic_flux n2 N [::] junk edges f x).
Notation off := (@bl_off F dim p dirs laps n_nodes nt).
Notation glo := (glo nb n_nodes). Notation gup := (gup nb n_nodes). Notation gmerge := (gmerge nb n_nodes).
Notation lp e x := (local_part dim n2 e.1 x).
Notation elo e x := (fun i : 'I_m => \col_(j < nb) nth 0 x (nth 0%N e.1 i * n2 + j)).
Notation ehi e x := (fun i : 'I_m => \col_(j < nb) nth 0 x (nth 0%N e.1 i * n2 + (nb + j))).
Let hreg e : bi_regular dim p tau (dat e) (k e). Proof. by apply: regular_neg => //; exact: hneg. Qed.
Hypothesis hsub : forall v, (v < n_nodes)%N -> nt v \in laps -> nt v \in dirs.
Hypothesis hc : forall v, (v < n_nodes)%N -> anchored edges (fun v => nt v \in dirs) v.
Let dofs : seq nat := [seq d <- iota 0 N | if (d %% n2 < nb)%N then nt (d %/ n2)%N \in dirs else nt (d %/ n2)%N \in laps].
Let dofs_lt : all (fun i => i < N)%N dofs.
Proof. by apply/allP => d; rewrite mem_filter mem_iota add0n => /andP[]. Qed.
Let offE x : off x <-> off_dir dofs x. Proof. exact: (@L_GlobalBiReact.offE F E dim p tau dim0 tau0 dirs laps n_nodes edges junk nt hv hj x). Qed.
(** Right-hand sides orthogonal to the kernel. *)
Lemma react_fredholm r : size r = N -> off r ->
  (forall z, size z = N -> off z -> op z = Ok (nseq N 0) -> vdot N z r = 0) ->
  exists x, [/\ size x = N, off x & op x = Ok r].
Proof.
move=> sr or ho.
have opE x : size x = N -> elliptic_flux n2 N dofs junk edges f x = op x.
  move=> sx; have [z [hz sz ez]] := bopP hf hv hj sx; have [z' [hz' sz' oz]] := react_range hf hv hj ht sx.
  move: hz'; rewrite hz => -[e]; subst z'.
  have [y [-> sy ey]] := elliptic_fluxE (phi_computes (bf_ok hf)) hv hj sx dofs_lt.
  congr Ok; apply: (@eq_from_nth _ 0); rewrite ?sz ?sy // => d hd.
  by rewrite ey ez; case: ifP => // hin; rewrite -ez (iffLR (offE z) oz).
have sym x y u v : size x = N -> size y = N -> off_dir dofs x -> off_dir dofs y ->
    elliptic_flux n2 N dofs junk edges f x = Ok u -> elliptic_flux n2 N dofs junk edges f y = Ok v -> vdot N y u = vdot N x v.
  move=> sx sy /offE ox /offE oy; rewrite !opE // => hu hv'.
  by have [u' [v' []]] := react_symmetric dim0 hD hf hv hj ht sx sy ox oy; rewrite hu hv' => -[->] [->].
have [z sz /offE oz|x [sx /offE ox hx]] := flux_fredholm (phi_computes (bf_ok hf)) (bf_linear hreg hf) hv hj dofs_lt sym sr (iffLR (offE r) or).
  by rewrite opE // => hz; exact: ho.
by exists x; split=> //; rewrite -opE.
Qed.

Variable g : local_fun F E.
Notation psi := (@phi_of F E dim n2 g).
Notation zt := (nseq m (nseq n2 (0 : F))).
Hypothesis hg : forall e x, is_trace m n2 x -> exists2 y, g e x zt = Ok y & is_trace m n2 y.
(** The given values of u are zero. *)
Hypothesis hres : forall e, exists2 y, g e zt zt = Ok y & exists q u r w rr rw,
  bi_react dim p tau (dat e) (k e) q u r w (fun=> 0) (fun=> 0) (fun=> 0) 0 rr rw /\
  bflux e q u r w (fun=> 0) (fun=> 0) y.
Lemma data_orth z r0 : size z = N -> off z -> op z = Ok (nseq N 0) ->
  elliptic_flux n2 N [::] junk edges g (nseq N 0) = Ok r0 -> vdot N z r0 = 0.
Proof.
move=> sz oz hz hr.
have [r0' [hr' sr' er]] := elliptic_fluxE (phi_computes hg) hv hj (size_nseq N (0 : F)) (isT : all _ [::]).
move: hr'; rewrite hr => -[e]; subst r0'; rewrite (bf_dot hv z er).
have key e : List.In e edges -> fdot (lp e z) (psi e.2 (lp e (nseq N 0))) = 0.
  move=> he; have [y hy [q [u [r [w [rr [rw [[_ l2] [sy f1 f2]]]]]]]]] := hres e.2.
  have -> : psi e.2 (lp e (nseq N 0)) = dmx dim n2 y.
    have <- : psi e.2 (dmx dim n2 zt) = dmx dim n2 y by rewrite /phi_of (rows_of_dmx (zero_trace F dim n2)) hy.
    congr phi_of.
    by apply/matrixP => i j; rewrite !mxE nth_nseq if_same nth_nseq; case: ifP => _; rewrite ?nth_nil // nth_nseq if_same.
  have [o1 o2] := local_off hv ht he oz.
  rewrite -[lp e z]rows_ofK -pairing_fdot pairing_halves (pairing_mask o1 f1) (pairing_mask o2 f2).
  have [q' [u' [r' [l1 _ _]]]] := kernel_form dim0 hD tau0 hneg hf hv hj ht hsub sz oz hz he.
  have [_ u0] := kernel_all dim0 hD tau0 hneg hf hv hj ht hsub hc sz oz hz he l1.
  have [l3 _] := l1; rewrite u0 mulmx0 scaler0 addr0 in l3; move/loc_src0: l3 => l3.
  have hok := bl_ok dim0 (hD e.2).
  rewrite (dual_src hok l2 l3) big1 => [|i _]; last first.
    rewrite [lo _ i](_ : _ = 0) ?dotv0l //; apply/colP => j; have [-> _] := part_at e z i j; rewrite mxE.
    by rewrite (kernel_lo dim0 hD tau0 hneg hf hv hj ht hsub hc sz oz hz (node_lt hv i he)).
  rewrite big1 => [|i _]; last by rewrite dotv0l.
  by rewrite dotv0l big1 ?subr0 ?addr0 // => d _; rewrite dotv0l.
elim: (edges) key => [|e l IH] hl; first by rewrite big_nil.
by rewrite big_cons hl ?add0r ?IH //; [move=> e' he'; apply: hl; right | left].
Qed.
Lemma clamped_solvable r0 : elliptic_flux n2 N [::] junk edges g (nseq N 0) = Ok r0 -> size r0 = N -> off r0 ->
  exists x, [/\ size x = N, off x & op x = Ok (map -%R r0)].
Proof.
move=> hr sr or; apply: react_fredholm; first by rewrite size_map.
  move=> v j h1 h2; have [o1 o2] := or v j h1 h2.
  have l1 : (v * n2 + j < N)%N by apply: at_lt => //; lia.
  have l2 : (v * n2 + (nb + j) < N)%N by apply: at_lt => //; lia.
  by split=> hf'; rewrite (nth_map 0) ?sr // ?o1 ?o2 // oppr0.
move=> z sz oz hz; have h0 := data_orth sz oz hz hr.
apply/eqP; rewrite -oppr_eq0 -h0 /vdot -sumrN; apply/eqP/eq_bigr => d _.
by rewrite (nth_map 0) ?sr // mulrN opprK.
Qed.
End Clamped.
