(** Global steps of BilaplacianParab. *)
From mathcomp Require Import all_ssreflect all_algebra ring zify.
From Verif Require Import M_Base L_Base M_Lapack S_Lapack M_Global S_Global L_Global L_Global2 L_Global3 L_Global4.
From Verif Require Import S_Hdg S_Tpp M_DiffusionUniform M_Diffusion S_LocalSolver S_Diffusion S_TppGeo.
From Verif Require Import L_Hdg L_HdgSrc L_LocalBase L_LocalLink L_DiffusionUniform2 L_Diffusion2 L_GlobalUniform L_GlobalDiffusion.
From Verif Require Import M_Bilaplacian S_Bilaplacian L_Bilaplacian L_Bilaplacian3 L_Bilaplacian4 L_Bilaplacian5 L_GlobalBilaplacian.
From Verif Require Import S_BiReact L_BiReg L_BiFlux L_GlobalBiReact.
From Verif Require Import M_BilapParab S_BilapParab L_BilapParab2 L_BilapParab3.
Set Implicit Arguments. Unset Strict Implicit. Unset Printing Implicit Defensive.
Import Order.TTheory GRing.Theory Num.Theory.
Local Open Scope ring_scope.

Section Parab.
Variables (F : realFieldType) (E : Type) (gesv : nat -> nat -> seq F -> seq F -> sv_result F).
Variables (dim p : nat) (dirs laps : seq nat) (tau theta dt : F) (dat : E -> bp_data F) (old : E -> seq F).
Hypotheses (dim0 : (0 < dim)%N) (hD : forall e, diffusion_data dim p (bl_df (bp_bl (dat e)))).
Hypotheses (hg : gesv_correct gesv) (tau0 : 0 < tau) (k0 : 0 < theta * dt).
Notation nf := ((p + 1) ^ dim)%N.
Notation nb := ((p + 1) ^ (dim - 1))%N.
Notation n2 := (2 * nb)%N.
Local Notation m := (2 * dim)%N.
Notation lo x := (tr nb (lower nb x)).
Notation hi x := (tr nb (upper nb x)).
Notation kap := (theta * dt).
Let f : local_fun F E := fun e => bp_trace_to_flux gesv dim p dirs laps tau theta dt (dat e) (old e).
Let g : local_fun F E := fun e => bp_residual_flux gesv dim p dirs laps tau theta dt (dat e) (old e).
Let bdat e := bp_bl (dat e).
Let kk (e : E) : F := - kap^-1.
Lemma par_reg e : bi_regular dim p tau (bdat e) (kk e). Proof. exact: step_regular. Qed.
Lemma par_neg e : kk e < 0. Proof. by rewrite oppr_lt0 invr_gt0. Qed.
Let hf e x out : is_trace m n2 x -> is_trace m n2 out -> _ := parab_flux_ dirs laps dim0 (hD e) hg tau0 k0 (old e) (x := x) (out := out).
Variables (n_nodes : nat) (edges : seq (seq nat * E)) (junk : seq (seq F)) (nt : nat -> nat).
Hypotheses (hv : valid_graph dim n_nodes edges) (hj : size junk = m).
Hypothesis ht : types_agree (fun e => bl_df (bdat e)) nt edges.
Notation N := (n_nodes * n2)%N.
Notation op x := (elliptic_flux n2 N [::] junk edges f x).
Notation res x := (elliptic_flux n2 N [::] junk edges g x).
Notation off := (@bl_off F dim p dirs laps n_nodes nt).
Notation phi := (@phi_of F E dim n2 f).
Notation psi := (@phi_of F E dim n2 g).
Lemma par_range x : size x = N -> exists z, [/\ op x = Ok z, size z = N & off z].
Proof. exact: (react_range hf hv hj ht). Qed.
Lemma par_symmetric x y : size x = N -> size y = N -> off x -> off y ->
  exists u v, [/\ op x = Ok u, op y = Ok v & vdot N y u = vdot N x v].
Proof. exact: (react_symmetric dim0 hD hf hv hj ht). Qed.
Lemma g_ok e x : is_trace m n2 x -> exists2 y, g e x (nseq m (nseq n2 0)) = Ok y & is_trace m n2 y.
Proof.
move=> hx; have [y hy [q [u [r [w [_ [sy _ _]]]]]]] := parab_residual_ dirs laps dim0 (hD e) hg tau0 k0 (old e) hx (zero_trace F dim n2).
by exists y.
Qed.
Lemma g_psi e x y : is_trace m n2 x -> g e x (nseq m (nseq n2 0)) = Ok y -> psi e (dmx dim n2 x) = dmx dim n2 y.
Proof. by move=> hx hy; rewrite /phi_of (rows_of_dmx hx) hy. Qed.
Lemma g_mask e A (i : 'I_m) (j : 'I_nb) :
  (face_dirichlet dirs (bl_df (bdat e)) i -> lo_mx (psi e A) i j = 0) /\
  (face_dirichlet laps (bl_df (bdat e)) i -> hi_mx (psi e A) i j = 0).
Proof.
have [y hy [q [u [r [w [_ [_ f1 f2]]]]]]] := parab_residual_ dirs laps dim0 (hD e) hg tau0 k0 (old e) (rows_trace A) (zero_trace F dim n2).
have := g_psi (rows_trace A) hy; rewrite rows_ofK => ->; rewrite -dmx_lower -dmx_upper; split=> h.
  by have /colP/(_ j) := f1 i; rewrite h !mxE.
by have /colP/(_ j) := f2 i; rewrite h !mxE.
Qed.
Lemma resP x : size x = N -> exists z, [/\ res x = Ok z, size z = N & forall d, nth 0 z d = global_op edges psi x d].
Proof.
move=> sx; have [z [hz sz ez]] := elliptic_fluxE (phi_computes g_ok) hv hj sx (isT : all _ [::]).
by exists z; split => //; rewrite sz.
Qed.
Lemma par_residual x : size x = N -> exists z, [/\ res x = Ok z, size z = N & off z].
Proof. by move=> sx; have [z [hz sz ez]] := resP sx; exists z; split=> //; exact: (range_off hv ht g_mask ez). Qed.

Lemma par_ranges x : size x = N -> exists z z', [/\ op x = Ok z, res x = Ok z', size z = N /\ size z' = N, off z & off z'].
Proof.
move=> sx; have [z [h1 s1 o1]] := par_range sx; have [z' [h2 s2 o2]] := par_residual sx.
by exists z, z'.
Qed.
Lemma values_rows (x : seq F) nodes : node_values dim n2 x nodes = rows_of (local_part dim n2 nodes x).
Proof.
rewrite -[LHS](rows_of_dmx (dim := dim) (nb := n2)).
  by congr rows_of; apply/matrixP => i j; rewrite !mxE (nth_mkseq [::]) // nth_mkseq.
by split; [exact: size_mkseq | apply/allP => l /mapP[i _ ->]; rewrite size_mkseq].
Qed.

(** ** The driver's system *)
Section Solve.
Hypothesis hsame : forall v, (v < n_nodes)%N -> (nt v \in dirs) = (nt v \in laps).
Hypothesis cover : forall v, (v < n_nodes)%N -> (nt v \in dirs) || has (fun e => v \in e.1) edges.
Lemma par_solvable r : size r = N -> off r ->
  exists x, [/\ size x = N, off x, op x = Ok r & forall x', size x' = N -> off x' -> op x' = Ok r -> x' = x].
Proof. exact: (react_solvable dim0 hD tau0 par_reg hf hv hj ht par_neg hsame cover). Qed.
Lemma par_solution : exists r0 x, [/\ res (nseq N 0) = Ok r0, size x = N, off x,
    op x = Ok (map -%R r0) & forall x', size x' = N -> off x' -> op x' = Ok (map -%R r0) -> x' = x].
Proof.
have [r0 [h0 s0 o0]] := par_residual (size_nseq N (0 : F)).
have sr : size (map -%R r0) = N by rewrite size_map.
have or : off (map -%R r0).
  move=> v j h1 h2; have [o1 o2] := o0 v j h1 h2.
  have l1 : (v * n2 + j < N)%N by apply: at_lt => //; lia.
  have l2 : (v * n2 + (nb + j) < N)%N by apply: at_lt => //; lia.
  by split=> hf'; rewrite (nth_map 0) ?s0 // ?o1 ?o2 // oppr0.
by have [x [sx ox hx ux]] := par_solvable sr or; exists r0, x.
Qed.
End Solve.

(** ** Energy *)
Notation M e := (df_mass_mx dim p (bl_df (bp_bl (dat e)))).
Notation W e := (bl_coef dim p (bp_bl (dat e))).
Notation set e := (bp_set_data gesv dim p dirs laps tau theta dt (dat e)).
Notation uo e := (bp_block dim p (old e) dim).
Notation uof X := (bp_block dim p X dim).
Notation wof X := (bp_block dim p X (dim + 1 + dim)).
Let lp (e : seq nat * E) (x : seq F) := local_part dim n2 e.1 x.
Let stepped x (e : seq nat * E) : seq F := if set e.2 (node_values dim n2 x e.1) (old e.2) is Ok X then X else [::].
Lemma stepped_set x e : set e.2 (node_values dim n2 x e.1) (old e.2) = Ok (stepped x e) /\
  bp_step dim p dirs laps tau theta dt (dat e.2) (old e.2) (node_values dim n2 x e.1) (stepped x e).
Proof.
have ht' : is_trace m n2 (node_values dim n2 x e.1) by rewrite values_rows; exact: rows_trace.
by have [X h [_ h']] := parab_set_data_ dirs laps dim0 (hD e.2) hg tau0 k0 (old e.2) ht'; rewrite /stepped h.
Qed.
Lemma fdot_sum (A B C : 'M[F]_(m, n2)) : fdot A B + fdot A C = fdot A (1 *: B + C).
Proof.
rewrite /fdot -big_split; apply: eq_bigr => i _; rewrite -big_split; apply: eq_bigr => j _ /=.
by rewrite !mxE mul1r mulrDr.
Qed.
Hypothesis hnd : forall e, bp_no_data dim p (dat e).
Lemma edge_energy e x : List.In e edges -> off x ->
  let z1 := gmerge nb n_nodes (glo nb n_nodes x) (map -%R (gup nb n_nodes x)) in
  fdot (lp e z1) (phi e.2 (lp e x)) + fdot (lp e z1) (psi e.2 (lp e (nseq N 0))) =
  kap^-1 * dotv (uof (stepped x e)) (M e.2 *m uo e.2) - kap^-1 * dotv (uof (stepped x e)) (M e.2 *m uof (stepped x e)) -
  dotv (wof (stepped x e)) (W e.2 *m wof (stepped x e)).
Proof.
move=> he ox z1; have oz : off z1 by exact: off_z1.
have [_ hs] := stepped_set x e; rewrite values_rows in hs.
have [y [y0 [q [u [r [w [h1 h2 h3 [_ f1 f2]]]]]]]] := parab_superpose dirs laps dim0 (hD e.2) hg tau0 k0 (old e.2)
  (rows_trace (lp e x)) (zero_trace F dim n2) (zero_trace F dim n2).
have [_ <- _ <-] := parab_unique dim0 (hD e.2) tau0 k0 h3 hs.
have [o1 o2] := local_off hv ht he oz.
have -> : phi e.2 (lp e x) = dmx dim n2 y by rewrite -(bf_phi (rows_trace _) h1) rows_ofK.
have -> : psi e.2 (lp e (nseq N 0)) = dmx dim n2 y0.
  rewrite -(g_psi (zero_trace F dim n2) h2); congr phi_of.
  by apply/matrixP => i j; rewrite !mxE nth_nseq if_same nth_nseq; case: ifP => _; rewrite ?nth_nil // nth_nseq if_same.
rewrite fdot_sum -dmx_comb -[lp e z1]rows_ofK -pairing_fdot pairing_halves (pairing_mask o1 f1) (pairing_mask o2 f2).
have := react_energy dim0 (hD e.2) (step_no_data (hnd e.2) h3).
rewrite dotvZr mulNr => <-; congr (_ + _).
  by apply: eq_bigr => i _; have [-> _] := flip_part p hv x i he.
by rewrite -sumrN; apply: eq_bigr => i _; have [_ ->] := flip_part p hv x i he; rewrite -sub0r dotvBl dotv0l sub0r.
Qed.
Lemma par_energy r0 x : res (nseq N 0) = Ok r0 -> size x = N -> off x -> op x = Ok (map -%R r0) ->
  \sum_(e <- edges) (sqnorm (M e.2) (uof (stepped x e)) + sqnorm (M e.2) (uof (stepped x e) - uo e.2) +
    2%:R * kap * sqnorm (W e.2) (wof (stepped x e))) = \sum_(e <- edges) sqnorm (M e.2) (uo e.2).
Proof.
move=> hr sx ox hx; pose z1 := gmerge nb n_nodes (glo nb n_nodes x) (map -%R (gup nb n_nodes x)).
have [z [hz sz ez]] := bopP hf hv hj sx; have [z0 [hz0 sz0 ez0]] := resP (size_nseq N (0 : F)).
move: hz hz0; rewrite hx hr => -[e1] [e2]; subst z0; subst z.
have h0 : vdot N z1 (map -%R r0) + vdot N z1 r0 = 0.
  rewrite /vdot -big_split big1 // => d _ /=; rewrite -mulrDr (nth_map 0) ?sz0 ?ltn_ord // addNr mulr0 //.
rewrite (bf_dot hv z1 ez) (bf_dot hv z1 ez0) -big_split /= in h0.
have h1 : \sum_(e <- edges) (kap^-1 * dotv (uof (stepped x e)) (M e.2 *m uo e.2) -
    kap^-1 * dotv (uof (stepped x e)) (M e.2 *m uof (stepped x e)) -
    dotv (wof (stepped x e)) (W e.2 *m wof (stepped x e))) = 0.
  rewrite -[RHS]h0; have : forall e, List.In e edges -> List.In e edges by [].
  elim: {-2}(edges) => [|e l IH] hl; first by rewrite !big_nil.
  by rewrite !big_cons -edge_energy ?IH //; [move=> e' he'; apply: hl; right | apply: hl; left].
have kn : kap != 0 by exact: lt0r_neq0.
apply/eqP; rewrite -subr_eq0 -sumrB; apply/eqP.
rewrite -[RHS](mulr0 (- (2%:R * kap))) -[in RHS]h1 mulr_sumr; apply: eq_bigr => e _.
rewrite /sqnorm mulmxBr dotvBr !dotvBl [dotv (uo _) (M _ *m uof _)](dotv_mass (hD e.2)).
rewrite !mulrBr !mulNr [2%:R * kap * (kap^-1 * _)]mulrA [2%:R * kap * (kap^-1 * _)]mulrA mulfK //.
move: (dotv _ (_ *m uof _)) (dotv (uof _) (_ *m uo _)) (dotv (uo _) _) (dotv (wof _) _) => a b c d.
by generalize kap => k; ring.
Qed.
Lemma par_stable r0 x : res (nseq N 0) = Ok r0 -> size x = N -> off x -> op x = Ok (map -%R r0) ->
  \sum_(e <- edges) sqnorm (M e.2) (uof (stepped x e)) <= \sum_(e <- edges) sqnorm (M e.2) (uo e.2).
Proof.
move=> hr sx ox hx; rewrite -(par_energy hr sx ox hx); apply: ler_sum => e _.
rewrite -addrA ler_addl addr_ge0 ?(mass_pos (hD e.2)) // mulr_ge0 ?(bl_coef_ge0 (hD e.2)) //.
by rewrite mulr_ge0 ?ler0n // ltW.
Qed.
Lemma par_energy_ r0 x : res (nseq N 0) = Ok r0 -> size x = N -> off x -> op x = Ok (map -%R r0) ->
  exists X : seq nat * E -> seq F, (forall e, set e.2 (node_values dim n2 x e.1) (old e.2) = Ok (X e)) /\
  \sum_(e <- edges) (sqnorm (M e.2) (uof (X e)) + sqnorm (M e.2) (uof (X e) - uo e.2) +
    2%:R * kap * sqnorm (W e.2) (wof (X e))) = \sum_(e <- edges) sqnorm (M e.2) (uo e.2).
Proof. by move=> h1 h2 h3 h4; exists (stepped x); split=> [e|]; [have [] := stepped_set x e | exact: (par_energy h1)]. Qed.
Lemma par_stable_ r0 x : res (nseq N 0) = Ok r0 -> size x = N -> off x -> op x = Ok (map -%R r0) ->
  exists X : seq nat * E -> seq F, (forall e, set e.2 (node_values dim n2 x e.1) (old e.2) = Ok (X e)) /\
  \sum_(e <- edges) sqnorm (M e.2) (uof (X e)) <= \sum_(e <- edges) sqnorm (M e.2) (uo e.2).
Proof. by move=> h1 h2 h3 h4; exists (stepped x); split=> [e|]; [have [] := stepped_set x e | exact: (par_stable h1)]. Qed.
End Parab.
