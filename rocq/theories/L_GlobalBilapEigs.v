(** BilaplacianEigs on a hypergraph: the discrete eigenvalue problem. *)
From mathcomp Require Import all_ssreflect all_algebra zify ring.
From Verif Require Import M_Base L_Base M_Lapack S_Lapack M_Global S_Global L_Global L_Global2 L_Global3 L_Global4.
From Verif Require Import S_Hdg L_Hdg S_Tpp M_DiffusionUniform M_Diffusion S_LocalSolver S_Diffusion S_TppGeo.
From Verif Require Import L_HdgSrc L_LocalBase L_LocalLink L_DiffusionUniform2 L_Diffusion2 L_GlobalUniform L_GlobalMasked.
From Verif Require Import M_Bilaplacian S_Bilaplacian L_Bilaplacian L_Bilaplacian3 L_Bilaplacian4 L_Bilaplacian5 L_GlobalBilaplacian.
From Verif Require Import S_GlobalParab L_GlobalParab M_DiffusionEigs S_DiffusionEigs S_GlobalEigs L_GlobalEigs L_GlobalEigs2.
From Verif Require Import S_BiReact L_BiReg L_BiFlux L_BiNear M_BilapEigs S_BilapEigs S_GlobalBilapEigs L_BilapEigs L_BilapEigs2.
Set Implicit Arguments. Unset Strict Implicit. Unset Printing Implicit Defensive.
Import Order.TTheory GRing.Theory Num.Theory.
Local Open Scope ring_scope.

Section Eigs.
Variables (F : realFieldType) (dim p : nat) (dirs laps : seq nat) (tau : F).
Variables (nodes : seq (seq nat)) (n_nodes : nat) (nt : nat -> nat) (P : nat -> be_data F).
Hypotheses (dim0 : (0 < dim)%N) (hP : be_data_all dim p nodes P).
Hypotheses (hv : valid_graph dim n_nodes (indexed nodes)).
Notation nb := ((p + 1) ^ (dim - 1))%N.
Notation n2 := (2 * nb)%N.
Notation nf := ((p + 1) ^ dim)%N.
Notation N := (n_nodes * n2)%N.
Notation m := (2 * dim)%N.
Notation n := (size nodes).
Notation at_ i eig := (be_at (P i) eig).
Notation H i eig := (bl_hdg dim p (at_ i eig)).
Notation W i eig := (bl_coef dim p (at_ i eig)).
Notation lo := (lo_tr dim p nodes).
Notation hi := (hi_tr dim p nodes).
Notation pairs := (bi_eigenpair dim p dirs laps tau nodes n_nodes nt P).
Notation off := (be_off dim p dirs laps n_nodes nt).
Notation inner := (bi_inner dim p nodes P).
Notation weighted := (bi_weighted dim p nodes P).
Notation glo := (@L_GlobalBilaplacian.glo F nb n_nodes). Notation gup := (@L_GlobalBilaplacian.gup F nb n_nodes).
Notation gmerge := (@L_GlobalBilaplacian.gmerge F nb n_nodes).
Let nb0 : (0 < nb)%N. Proof. by rewrite expn_gt0 addn1. Qed.

Lemma node_at i (f : 'I_m) : (i < n)%N -> (nth 0%N (nth [::] nodes i) f < n_nodes)%N.
Proof. by move=> hi'; have [si ha] := node_ok hv hi'; move/(all_nthP 0%N): ha; apply; rewrite si. Qed.
(** Test vectors *)
Notation z1 x := (gmerge (glo x) (nseq (n_nodes * nb) 0)).
Notation z2 x := (gmerge (nseq (n_nodes * nb) 0) (gup x)).
Notation z3 x := (gmerge (gup x) (glo x)).
Lemma size_merge (a b : seq F) : size (gmerge a b) = N. Proof. exact: size_mkseq. Qed.
Lemma z1_tr x i (f : 'I_m) : (i < n)%N -> lo (z1 x) i f = lo x i f /\ hi (z1 x) i f = 0.
Proof.
move=> hi'; have hn := node_at f hi'; split; apply/colP => j; rewrite !mxE.
  by rewrite merge_lo // nth_glo.
by rewrite merge_hi // nth_nseq if_same.
Qed.
Lemma z2_tr x i (f : 'I_m) : (i < n)%N -> lo (z2 x) i f = 0 /\ hi (z2 x) i f = hi x i f.
Proof.
move=> hi'; have hn := node_at f hi'; split; apply/colP => j; rewrite !mxE.
  by rewrite merge_lo // nth_nseq if_same.
by rewrite merge_hi // nth_gup.
Qed.
Lemma z3_tr x i (f : 'I_m) : (i < n)%N -> lo (z3 x) i f = hi x i f /\ hi (z3 x) i f = lo x i f.
Proof.
move=> hi'; have hn := node_at f hi'; split; apply/colP => j; rewrite !mxE.
  by rewrite merge_lo // nth_gup.
by rewrite merge_hi // nth_glo.
Qed.
Lemma z1_off x : off x -> off (z1 x).
Proof.
move=> ox v j h1 h2; have [o1 o2] := ox v j h1 h2.
by split=> h; [rewrite merge_lo // nth_glo // o1 | rewrite merge_hi // nth_nseq if_same].
Qed.
Lemma z2_off x : off x -> off (z2 x).
Proof.
move=> ox v j h1 h2; have [o1 o2] := ox v j h1 h2.
by split=> h; [rewrite merge_lo // nth_nseq if_same | rewrite merge_hi // nth_gup // o2].
Qed.

(** The two flux conditions separately. *)
Lemma pair_bal x eig q u r w : pairs x eig q u r w -> forall y, size y = N -> off y ->
  \sum_(i < n) \sum_(f < m) dotv (lo y i f) (num_flux (H i eig) tau (r i) (w i) (hi x i) f) = 0 /\
  \sum_(i < n) \sum_(f < m) dotv (hi y i f) (num_flux (H i eig) tau (q i) (u i) (lo x i) f) = 0.
Proof.
move=> [_ _ _ hb] y sy oy; split.
  rewrite -[RHS](hb (z1 y) (size_merge _ _) (z1_off oy)); apply: eq_bigr => i _.
  rewrite [X in _ = _ + X]big1 ?addr0 => [|f _]; last by have [_ ->] := z1_tr y f (ltn_ord i); rewrite dotv0l.
  by apply: eq_bigr => f _; have [-> _] := z1_tr y f (ltn_ord i).
rewrite -[RHS](hb (z2 y) (size_merge _ _) (z2_off oy)); apply: eq_bigr => i _.
rewrite [X in _ = X + _]big1 ?add0r => [|f _]; last by have [-> _] := z2_tr y f (ltn_ord i); rewrite dotv0l.
by apply: eq_bigr => f _; have [_ ->] := z2_tr y f (ltn_ord i).
Qed.
Lemma pair_sum x eig q u r w x' eig' q' u' r' w' : pairs x eig q u r w -> pairs x' eig' q' u' r' w' ->
  (forall i, (i < n)%N -> W i eig' = W i eig) ->
  eig * inner u' u = \sum_(i < n) dotv (w i) (W i eig *m w' i).
Proof.
move=> h h' hH; have [sx ox hl _] := h; have [sx' ox' hl' _] := h'.
have [b1 _] := pair_bal h sx' ox'; have [_ b2] := pair_bal h' sx ox.
have : \sum_(i < n) (\sum_(f < m) dotv (lo x' i f) (num_flux (H i eig) tau (r i) (w i) (hi x i) f) -
    eig * (be_area (P i) * dotv (u' i) (u i))) =
  \sum_(i < n) (\sum_(f < m) dotv (hi x i f) (num_flux (H i eig') tau (q' i) (u' i) (lo x' i) f) -
    dotv (w i) (W i eig *m w' i)).
  apply: eq_bigr => i _; have hD := be_data_at (hP (ltn_ord i)) eig.
  have l1 : bi_react dim p tau (at_ i eig) 0 (q i) (u i) (r i) (w i) (lo x i) (hi x i) (fun=> 0) 0 (fun=> 0)
      (eig *: (be_area (P i) *: u i)).
    have := hl i (ltn_ord i); rewrite /bi_eig_loc /bi_react add0r scale0r addr0.
    by rewrite (be_mass (hP (ltn_ord i))) mul_scalar_mx.
  have l2 : bi_react dim p tau (at_ i eig) 0 (q' i) (u' i) (r' i) (w' i) (lo x' i) (hi x' i) (fun=> 0) 0 (fun=> 0)
      (eig' *: (be_area (P i) *: u' i)).
    have := hl' i (ltn_ord i); rewrite /bi_eig_loc /bi_react add0r scale0r addr0 /bi_loc.
    by rewrite (be_mass (hP (ltn_ord i))) mul_scalar_mx (hH _ (ltn_ord i)).
  have := react_green dim0 hD l1 l2; rewrite scale0r addr0 !dotvZr => ->.
  by [].
rewrite !sumrB b1 b2 !sub0r => /oppr_inj <-.
by rewrite mulr_sumr.
Qed.
Lemma bi_rayleigh x eig q u r w : pairs x eig q u r w -> eig * inner u u = weighted eig w.
Proof. by move=> h; rewrite (pair_sum h h). Qed.
Lemma bi_orthogonal x eig q u r w x' eig' q' u' r' w' : be_time_free_all nodes P -> pairs x eig q u r w ->
  pairs x' eig' q' u' r' w' -> eig != eig' ->
  inner u u' = 0 /\ \sum_(i < n) dotv (w i) (W i eig *m w' i) = 0.
Proof.
move=> ht h h' hne.
have hW a b i : (i < n)%N -> W i a = W i b.
  by move=> hi'; rewrite (be_free dim p a (ht i hi')) (be_free dim p b (ht i hi')).
have e1 := pair_sum h h' (fun i hi' => hW _ _ i hi').
have e2 := pair_sum h' h (fun i hi' => hW _ _ i hi').
have inC : inner u' u = inner u u' by apply: eq_bigr => i _; rewrite dotvC.
have h0 : inner u u' = 0.
  have : (eig - eig') * inner u u' = 0.
    rewrite mulrBl -{1}inC e1 e2; apply/eqP; rewrite subr_eq0; apply/eqP; apply: eq_bigr => i _.
    have hD := be_data_at (hP (ltn_ord i)) eig.
    by rewrite (hW eig' eig) // dotvC dotv_mxl (bl_coef_sym hD).
  by move=> /eqP; rewrite mulf_eq0 subr_eq0 (negbTE hne) => /eqP.
by split=> //; rewrite -e1 inC h0 mulr0.
Qed.
Lemma bi_inner_ge0 u : 0 <= inner u u.
Proof. by apply: sumr_ge0 => i _; rewrite mulr_ge0 ?dotv_ge0 // ltW // (be_area_gt0 (hP (ltn_ord i))). Qed.
Lemma bi_inner_eq0 u : inner u u = 0 -> forall i, (i < n)%N -> u i = 0.
Proof.
move=> /eqP; rewrite psumr_eq0 => [/allP h i hi'|i _]; last first.
  by rewrite mulr_ge0 ?dotv_ge0 // ltW // (be_area_gt0 (hP (ltn_ord i))).
have := h (Ordinal hi') (mem_index_enum _); rewrite /= mulf_eq0 gt_eqF ?(be_area_gt0 (hP hi')) //=.
by rewrite dotv_eq0 => /eqP.
Qed.
Lemma bi_weighted_ge0 eig w : 0 <= weighted eig w.
Proof. by apply: sumr_ge0 => i _; exact: (bl_coef_ge0 (be_data_at (hP (ltn_ord i)) eig)). Qed.
Lemma bi_weighted_eq0 eig w : weighted eig w = 0 -> forall i, (i < n)%N -> w i = 0.
Proof.
move=> /eqP; rewrite psumr_eq0 => [/allP h i hi'|i _]; last exact: (bl_coef_ge0 (be_data_at (hP (ltn_ord i)) eig)).
by have /eqP := h (Ordinal hi') (mem_index_enum _); exact: (coef_zero (be_data_at (hP hi') eig)).
Qed.

Hypothesis tau0 : 0 < tau.
Hypothesis hsame : forall v, (v < n_nodes)%N -> (nt v \in dirs) = (nt v \in laps).
Lemma z3_off x : off x -> off (z3 x).
Proof.
move=> ox v j h1 h2; have [o1 o2] := ox v j h1 h2.
by split=> h; [rewrite merge_lo // nth_gup // o2 // -hsame | rewrite merge_hi // nth_glo // o1 // hsame].
Qed.
(** Without sources on the hyperedges the energies of both problems vanish. *)
Lemma pair_forms x eig q u r w : pairs x eig q u r w -> (forall i, (i < n)%N -> eig *: u i = 0) ->
  (forall i, (i < n)%N -> w i = 0) -> forall i, (i < n)%N ->
  [/\ loc_eq (H i eig) tau (q i) (u i) (lo x i), loc_eq (H i eig) tau (r i) (w i) (hi x i),
      form (H i eig) tau (q i) (q i) (u i) (u i) (lo x i) (lo x i) = 0 &
      form (H i eig) tau (r i) (r i) (w i) (w i) (hi x i) (hi x i) = 0].
Proof.
move=> h u0 w0; have [sx ox hl hb] := h.
have hle i : (i < n)%N -> loc_eq (H i eig) tau (q i) (u i) (lo x i) /\ loc_eq (H i eig) tau (r i) (w i) (hi x i).
  move=> hi'; have := hl i hi'; rewrite /bi_eig_loc /bi_react add0r (w0 i hi').
  have -> : eig *: (df_mass_mx dim p (bl_df (at_ i eig)) *m u i) = 0 by rewrite scalemxAr u0 // mulmx0.
  by rewrite /bi_loc mulmx0 addr0 => -[/loc_src0 a /loc_src0 b].
have := hb (z3 x) (size_merge _ _) (z3_off ox).
pose fr (i : 'I_n) := form (H i eig) tau (r i) (r i) (w i) (w i) (hi x i) (hi x i) +
  form (H i eig) tau (q i) (q i) (u i) (u i) (lo x i) (lo x i).
rewrite (eq_bigr (fun i => - fr i)) => [|i _]; last first.
  have [l1 l2] := hle i (ltn_ord i); have hok := bl_ok dim0 (be_data_at (hP (ltn_ord i)) eig).
  rewrite /fr opprD -(L_Hdg.energy hok l1 l1) -(L_Hdg.energy hok l2 l2).
  by congr (_ + _); apply: eq_bigr => f _; have [e1 e2] := z3_tr x f (ltn_ord i); rewrite ?e1 ?e2.
have ge (i : 'I_n) : 0 <= form (H i eig) tau (q i) (q i) (u i) (u i) (lo x i) (lo x i) /\
    0 <= form (H i eig) tau (r i) (r i) (w i) (w i) (hi x i) (hi x i).
  by have hok := bl_ok dim0 (be_data_at (hP (ltn_ord i)) eig); split; apply: form_ge0 => //; exact: ltW.
rewrite sumrN => /eqP; rewrite oppr_eq0 psumr_eq0 => [/allP hz i hi'|i _]; last first.
  by have [g1 g2] := ge i; rewrite addr_ge0.
have [l1 l2] := hle i hi'; have [g1 g2] := ge (Ordinal hi').
have := hz (Ordinal hi') (mem_index_enum _); rewrite /fr /= paddr_eq0 // => /andP[/eqP e1 /eqP e2].
by split.
Qed.
Lemma tr_val (x : seq F) i v j : (i < n)%N -> v \in nth [::] nodes i -> (j < nb)%N -> exists (f : 'I_m) (k : 'I_nb),
  [/\ k = j :> nat, lo x i f k 0 = nth 0 x (v * n2 + j), hi x i f k 0 = nth 0 x (v * n2 + (nb + j)) &
      nth 0%N (nth [::] nodes i) f = v].
Proof.
move=> hi' hv' hj; have [si _] := node_ok hv hi'.
have hx : (index v (nth [::] nodes i) < m)%N by rewrite -si index_mem.
by exists (Ordinal hx), (Ordinal hj); split; rewrite ?mxE //= nth_index.
Qed.
(** A vector is zero if its values are. *)
Lemma vec_zero (x : seq F) d : size x = N -> (forall v j, (v < n_nodes)%N -> (j < nb)%N ->
  nth 0 x (v * n2 + j) = 0 /\ nth 0 x (v * n2 + (nb + j)) = 0) -> nth 0 x d = 0.
Proof.
move=> sx h; case: (ltnP d N) => hd; last by rewrite nth_default ?sx.
have n20 : (0 < n2)%N by move: nb0; lia.
have [h1 h2] := dof_split n20 hd; rewrite (divn_eq d n2); case: (ltnP (d %% n2) nb) => hm.
  by have [-> _] := h _ _ h1 hm.
have -> : (d %% n2 = nb + (d %% n2 - nb))%N by rewrite subnKC.
have hk : (d %% n2 - nb < nb)%N by rewrite ltn_subLR // addnn -mul2n.
by have [_ ->] := h _ _ h1 hk.
Qed.
Lemma trace_zero i eig (x : 'I_m -> 'cV[F]_nb) f : (i < n)%N -> ha (H i eig) f *: x f = 0 -> x f = 0.
Proof.
move=> hi' /eqP; rewrite scaler_eq0 gt_eqF /=; first by move/eqP.
by have := bl_ok dim0 (be_data_at (hP hi') eig) => -[_ _ _ /(_ f)[]].
Qed.
Lemma bi_norm x eig q u r w d : covered dirs nodes n_nodes nt -> pairs x eig q u r w -> nth 0 x d != 0 -> 0 < inner u u.
Proof.
move=> hc hp hd; rewrite lt_neqAle bi_inner_ge0 andbT; apply/eqP => /esym h0.
have u0 := bi_inner_eq0 h0.
have w0 : forall i, (i < n)%N -> w i = 0 by apply: (@bi_weighted_eq0 eig); rewrite -(bi_rayleigh hp) h0 mulr0.
have hz := pair_forms hp (fun i hi' => etrans (congr1 _ (u0 i hi')) (scaler0 _ _)) w0.
have [sx ox _ _] := hp; case/negP: hd; apply/eqP; apply: vec_zero => // v j h1 h2.
have [o1 o2] := ox v j h1 h2.
have /orP[hfx|/(has_nthP [::]) [i hi' hvi]] := hc _ h1; first by rewrite o1 // o2 // -hsame.
have [_ _ f1 f2] := hz i hi'; have hok := bl_ok dim0 (be_data_at (hP hi') eig).
have [f [k [_ <- <- _]]] := tr_val x hi' hvi h2.
have [_ /(_ f) c1] := form_eq0 hok tau0 f1; have [_ /(_ f) c2] := form_eq0 hok tau0 f2.
rewrite (u0 i hi') mulmx0 in c1; rewrite (w0 i hi') mulmx0 in c2.
by rewrite (trace_zero hi' (esym c1)) (trace_zero hi' (esym c2)) mxE.
Qed.
Lemma bi_norm_eig x eig q u r w d : covered dirs nodes n_nodes nt -> pairs x eig q u r w -> nth 0 x d != 0 ->
  0 < inner u u /\ 0 <= eig.
Proof.
move=> hc hp hd; have i0 := bi_norm hc hp hd; split=> //.
by rewrite -(pmulr_lge0 _ i0) (bi_rayleigh hp) bi_weighted_ge0.
Qed.
Lemma bi_positive x eig q u r w d : (forall v, (v < n_nodes)%N -> anchored (indexed nodes) (fun v => nt v \in dirs) v) ->
  pairs x eig q u r w -> nth 0 x d != 0 -> 0 < eig.
Proof.
move=> hc hp hd; have hcov := anchored_covered hc.
have [_ hge] := bi_norm_eig hcov hp hd; rewrite lt_neqAle hge andbT; apply/eqP => /esym e0.
have w0 : forall i, (i < n)%N -> w i = 0 by apply: (@bi_weighted_eq0 eig); rewrite -(bi_rayleigh hp) e0 mul0r.
have hz i (hi' : (i < n)%N) := pair_forms hp (fun i _ => etrans (congr1 (fun a => a *: u i) e0) (scale0r _)) w0 hi'.
have [sx ox _ _] := hp; case/negP: hd; apply/eqP; apply: vec_zero => // v j h1 h2.
have hi0 : nth 0 x (v * n2 + (nb + j)) = 0.
  have [_ o2] := ox v j h1 h2.
  have /orP[hfx|/(has_nthP [::]) [i hi' hvi]] := hcov _ h1; first by rewrite o2 // -hsame.
  have [_ _ _ f2] := hz i hi'; have hok := bl_ok dim0 (be_data_at (hP hi') eig).
  have [f [k [_ _ <- _]]] := tr_val x hi' hvi h2.
  have [_ /(_ f) c2] := form_eq0 hok tau0 f2; rewrite (w0 i hi') mulmx0 in c2.
  by rewrite (trace_zero hi' (esym c2)) mxE.
split=> //.
have han := hc v h1; elim: han h1 j h2 {hi0} => [{}v hfx h1 j h2|e {}v v' he hve hwe _ IH h1 j h2].
  by have [-> //] := ox v j h1 h2.
have [i hi' ee] := indexed_in he; move: hve hwe; rewrite ee /= => hve hwe.
have [si hlt] := node_ok hv hi'.
have hD := be_data_at (hP hi') eig.
have hok := bl_ok dim0 hD.
have [l1 _ f1 _] := hz i hi'.
have [|c hcx] := flux_kernel hok (bl_const dim0 hD) (bl_grad dim0 hD) tau0 l1.
  by rewrite (L_Hdg.energy hok l1 l1) f1 oppr0.
have val a j' : a \in nth [::] nodes i -> (j' < nb)%N -> nth 0 x (a * n2 + j') = c * (j' == 0%N)%:R.
  by move=> ha hj'; have [f [k [ek <- _ _]]] := tr_val x hi' ha hj'; rewrite hcx !mxE ek.
have hv' : (v < n_nodes)%N by move/allP: hlt; apply.
have c0 : c = 0 by rewrite -(IH hv' 0%N nb0) val // mulr1.
by rewrite val // c0 mul0r.
Qed.
(** Different eigenvalues belong to independent functions. *)
Lemma bi_count (s : seq F) : be_time_free_all nodes P -> covered dirs nodes n_nodes nt -> uniq s ->
  (forall a, a \in s -> exists x q u r w d, pairs x a q u r w /\ nth 0 x d != 0) -> (size s <= n * nf)%N.
Proof.
move=> ht hc us hs.
have [|U hU] := @fin_choice (fun=> nat -> 'cV[F]_nf) (fun _ _ => 0)
   (fun k u => exists x q r w d, pairs x (nth 0 s k) q u r w /\ nth 0 x d != 0) (size s).
  by move=> k hk; have [x [q [u [r [w [d h]]]]]] := hs _ (mem_nth 0 hk); exists u, x, q, r, w, d.
pose M := \matrix_(k < size s) mxvec (\matrix_(i < n, j < nf) U k i j 0).
suff fr : row_free M by move: fr; rewrite /row_free => /eqP <-; exact: rank_leq_col.
rewrite -kermx_eq0; apply/eqP/row_matrixP => c.
have: row c (kermx M) *m M = 0 by rewrite -row_mul mulmx_ker row0.
move: (row c _) => z hz; apply/rowP => k; rewrite row0 [RHS]mxE.
have comb (i : 'I_n) (j : 'I_nf) : \sum_(l < size s) z 0 l * U l i j 0 = 0.
  have /rowP/(_ (mxvec_index i j)) := hz; rewrite [X in X = _ -> _]mxE [X in _ = X -> _]mxE => h; rewrite -[RHS]h.
  by apply: eq_bigr => l _; rewrite !mxE mxvecE mxE.
have h0 : z 0 k * inner (U k) (U k) = 0.
  transitivity (\sum_(l < size s) z 0 l * inner (U k) (U l)).
    rewrite (bigD1 k) //= big1 ?addr0 // => l hl.
    have [x [q [r [w [d [h1 _]]]]]] := hU k (ltn_ord k); have [x' [q' [r' [w' [d' [h2 _]]]]]] := hU l (ltn_ord l).
    have [|-> _] := bi_orthogonal ht h1 h2; last by rewrite mulr0.
    by rewrite nth_uniq // eq_sym.
  rewrite /bi_inner; under eq_bigr do rewrite mulr_sumr.
  rewrite exchange_big /= big1 // => i _.
  transitivity (be_area (P i) * dotv (U k i) (\sum_(l < size s) z 0 l *: U l i)).
    rewrite dotv_sumr mulr_sumr; apply: eq_bigr => l _; by rewrite dotvZr mulrCA.
  have -> : \sum_(l < size s) z 0 l *: U l i = 0.
    by apply/colP => j; rewrite summxE [RHS]mxE -[RHS](comb i j); apply: eq_bigr => l _; rewrite mxE.
  by rewrite dotv0r mulr0.
have [x [q [r [w [d [h1 h2]]]]]] := hU k (ltn_ord k).
move/eqP: h0; rewrite mulf_eq0 => /orP[/eqP //|/eqP h0].
by have := bi_norm hc h1 h2; rewrite h0 ltxx.
Qed.
End Eigs.

Section Char.
Variables (F : realFieldType) (gesv : nat -> nat -> seq F -> seq F -> sv_result F).
Variables (dim p : nat) (dirs laps : seq nat) (tau : F).
Variables (nodes : seq (seq nat)) (n_nodes : nat) (nt : nat -> nat) (junk : seq (seq F)) (P : nat -> be_data F).
Hypotheses (dim0 : (0 < dim)%N) (hP : be_data_all dim p nodes P) (hg : gesv_correct gesv).
Hypotheses (hv : valid_graph dim n_nodes (indexed nodes)) (hj : size junk = (2 * dim)%N).
Notation nb := ((p + 1) ^ (dim - 1))%N.
Notation n2 := (2 * nb)%N.
Notation nf := ((p + 1) ^ dim)%N.
Notation N := (n_nodes * n2)%N.
Notation m := (2 * dim)%N.
Notation zt := (nseq m (nseq n2 (0 : F))).
Notation n := (size nodes).
Notation res := (be_res gesv dim p dirs laps tau nodes junk P).
Notation jac := (be_jac_global gesv dim p dirs laps tau nodes junk P).
Notation phi eig := (@phi_of F nat dim n2 (be_fun gesv dim p dirs laps tau P eig)).
Notation dphi e mu := (@phi2_of F nat dim n2 (be_jac_fun gesv dim p dirs laps tau P e mu)).
Notation lo := (lo_tr dim p nodes).
Notation hi := (hi_tr dim p nodes).
Notation off := (be_off dim p dirs laps n_nodes nt).
Notation pairs := (bi_eigenpair dim p dirs laps tau nodes n_nodes nt P).
Notation ok := (fun i : nat => (i < n)%N).
Let hz : is_trace m n2 zt := zero_trace F dim n2.
Let lp i (w : seq F) := local_part dim n2 (nth [::] nodes i) w.
Lemma be_phi_ok eig : be_regular_all dim p tau nodes P eig -> forall i, ok i -> forall xt, is_trace m n2 xt ->
  exists2 y, be_fun gesv dim p dirs laps tau P eig i xt zt = Ok y & is_trace m n2 y.
Proof.
by move=> hr i hi' xt hx; have [y hy [q [u [r [w [_ [sy _ _]]]]]]] := be_flux_ dirs laps dim0 hg (hr i hi') hx hz; exists y.
Qed.
Lemma be_dphi_ok e mu : be_regular_all dim p tau nodes P mu -> forall i, ok i -> forall xt yt, is_trace m n2 xt ->
  is_trace m n2 yt -> exists2 z, be_jac_fun gesv dim p dirs laps tau P e mu i xt zt yt = Ok z & is_trace m n2 z.
Proof.
move=> hr i hi' xt yt hx hy.
by have [z [q0 [u0 [r0 [w0 [q1 [u1 [r1 [w1 [q2 [u2 [r2 [w2 [j1 _ _ _ [sz _ _]]]]]]]]]]]]]]] :=
  be_jac dirs laps dim0 hg e (hr i hi') hx hz hy; exists z.
Qed.
Lemma be_global_derivative x y mu e : be_time_free_all nodes P -> be_regular_all dim p tau nodes P mu ->
  size x = N -> size y = N -> exists K delta r j,
  [/\ 0 < delta, res x mu = Ok r, jac y e x mu = Ok j & forall t, `|t| <= delta ->
   be_regular_all dim p tau nodes P (mu + t * e) /\ exists rt, res (axpy t y x) (mu + t * e) = Ok rt /\
    forall d, `|nth 0 rt d - nth 0 r d - t * nth 0 j d| <= K * t ^+ 2].
Proof.
move=> ht hr sx sy.
have [|i hi'|K [delta [K0 d0 hK]]] := @common F (fun i K d => forall t, `|t| <= d -> be_regular dim p tau (P i) (mu + t * e) /\
  forall (k : 'I_m) (l : 'I_n2), `|phi (mu + t * e) i (t *: lp i y + lp i x) k l - phi mu i (lp i x) k l -
    t * dphi e mu i (lp i y) (lp i x) k l| <= K * t ^+ 2) n.
- move=> i K K' d d' h hK hd t htd; have [h1 h2] := h t (le_trans htd hd); split=> // k l.
  by apply: (le_trans (h2 k l)); rewrite ler_wpmul2r ?sqr_ge0.
- have [K [d [y0 [j [d0 h1 h2 h3]]]]] := be_derivative dirs laps dim0 (hP hi') hg e (ht i hi') (hr i hi')
     (rows_trace (lp i x)) (rows_trace (lp i y)) hz hz.
  exists K, d; split=> // t htd; have [hrt [yt [hyt hle]]] := h3 t htd; split=> // k l.
  have := hle k l; rewrite !mxE.
  have -> : phi (mu + t * e) i (t *: lp i y + lp i x) = dmx dim n2 yt.
    rewrite /phi_of /be_fun -[lp i y]rows_ofK -[lp i x]rows_ofK -dmx_comb rows_of_dmx ?hyt //.
    exact: comb_is_trace.
  by rewrite /phi_of /phi2_of /be_fun /be_jac_fun h1 h2 !mxE.
have [r [hr1 sr hr2]] := mat_vec_on hv hj (@In_ok nodes) (be_phi_ok hr) sx.
have [j [hj1 sj hj2]] := mat_vec2_on hv hj (@In_ok nodes) (be_dphi_ok e hr) sy sx.
exists (n%:R * ((m * n2)%:R * K)), delta, r, j; split=> // t htd.
have hrt : be_regular_all dim p tau nodes P (mu + t * e) by move=> i hi'; have [] := hK i hi' t htd.
split=> //.
have [|rt [ht1 st ht2]] := mat_vec_on (x := axpy t y x) hv hj (@In_ok nodes) (be_phi_ok hrt); first by rewrite size_axpy.
exists rt; split=> // d; rewrite ht2 hr2 hj2 /global_op mulr_sumr -!sumrB.
rewrite -!mulrA -(size_indexed nodes); apply: sum_le => -[ns i] /indexed_in [i' hi' [-> ->]] /=.
have [s1 s2] := node_ok hv hi'.
rewrite (local_part_axpy _ _ sy s1 s2).
have -> : forall A B C : 'M[F]_(m, n2), scattered (nth [::] nodes i') A d - scattered (nth [::] nodes i') B d -
    t * scattered (nth [::] nodes i') C d = scattered (nth [::] nodes i') (- t *: C + (-1 *: B + A)) d.
  by move=> A B C; rewrite !scattered_lin; ring.
apply: scattered_le; first by rewrite mulr_ge0 ?sqr_ge0.
move=> k l; have [_ /(_ k l)] := hK i' hi' t htd; rewrite !mxE.
by rewrite mulN1r addrC [- _ + _]addrC mulNr.
Qed.

Hypothesis (hty : be_types dim nodes nt P).
Variable eig : F.
Hypothesis hr : be_regular_all dim p tau nodes P eig.
Lemma be_agree : types_agree (fun i => bl_df (be_at (P i) eig)) nt (indexed nodes).
Proof. by move=> e f he hf; have [i hi' ee] := indexed_in he; move: hf; rewrite ee /= => hf; rewrite hty //; have [<- _] := node_ok hv hi'. Qed.
Lemma part_tr x i (f : 'I_m) : tr nb (lower nb (rows_of (lp i x))) f = lo x i f /\
  tr nb (upper nb (rows_of (lp i x))) f = hi x i f.
Proof.
split; apply/colP => j.
  have /matrixP/(_ f j) := dmx_lower dim nb (rows_of (lp i x)).
  by rewrite rows_ofK !mxE => ->.
have /matrixP/(_ f j) := dmx_upper dim nb (rows_of (lp i x)).
by rewrite rows_ofK !mxE => ->.
Qed.
Lemma edge_val x i q u r w : (i < n)%N -> bi_eig_loc dim p tau (P i) eig q u r w (lo x i) (hi x i) 0 ->
  (forall (f : 'I_m) (j : 'I_nb), (face_dirichlet dirs (bl_df (be_at (P i) eig)) f -> lo_mx (phi eig i (lp i x)) f j = 0) /\
    (face_dirichlet laps (bl_df (be_at (P i) eig)) f -> hi_mx (phi eig i (lp i x)) f j = 0)) /\
  forall z, off z -> fdot (lp i z) (phi eig i (lp i x)) =
    \sum_(f < m) dotv (lo z i f) (num_flux (bl_hdg dim p (be_at (P i) eig)) tau r w (hi x i) f) +
    \sum_(f < m) dotv (hi z i f) (num_flux (bl_hdg dim p (be_at (P i) eig)) tau q u (lo x i) f).
Proof.
move=> hi' hl.
have [y hy [q' [u' [r' [w' [l1 [sy f1 f2]]]]]]] := be_flux_ dirs laps dim0 hg (hr hi') (rows_trace (lp i x)) hz.
have l2 : bi_eig_loc dim p tau (P i) eig q' u' r' w' (lo x i) (hi x i) 0.
  by apply: (react_ext _ _ _ _ _ _ l1) => // f; have [e1 e2] := part_tr x i f.
have [eq eu er ew] := be_unique (hr hi') l2 hl.
have hphi : phi eig i (lp i x) = dmx dim n2 y by rewrite /phi_of /be_fun hy.
rewrite hphi; split=> [f j|z oz].
  rewrite -dmx_lower -dmx_upper; split=> h; first by have /colP/(_ j) := f1 f; rewrite h !mxE.
  by have /colP/(_ j) := f2 f; rewrite h !mxE.
have he : List.In (nth [::] nodes i, i) (indexed nodes).
  rewrite -(@indexed_nth nodes i ([::], 0%N)) //; have : (i < size (indexed nodes))%N by rewrite size_indexed.
  elim: (indexed nodes) i {hi' hl l1 l2 f1 f2 hphi hy sy} => [//|e l IH] [|k] hk /=; [by left | right; exact: IH].
have [o1 o2] := local_off hv be_agree he oz.
rewrite -[lp i z]rows_ofK -pairing_fdot pairing_halves (pairing_mask o1 f1) (pairing_mask o2 f2).
congr (_ + _); apply: eq_bigr => f _; have [e1 e2] := part_tr z i f; have [g1 g2] := part_tr x i f; rewrite ?e1 ?e2.
  by congr dotv; exact: flux_ext.
by congr dotv; exact: flux_ext.
Qed.
Lemma be_loc_exist x i : (i < n)%N -> exists q u r w, bi_eig_loc dim p tau (P i) eig q u r w (lo x i) (hi x i) 0.
Proof.
move=> hi'; have [y hy [q [u [r [w [l1 _]]]]]] := be_flux_ dirs laps dim0 hg (hr hi') (rows_trace (lp i x)) hz.
by exists q, u, r, w; apply: (react_ext _ _ _ _ _ _ l1) => // f; have [e1 e2] := part_tr x i f.
Qed.
Lemma be_res_val x : size x = N -> exists z, [/\ res x eig = Ok z, size z = N, off z &
  forall q u r w, (forall i, (i < n)%N -> bi_eig_loc dim p tau (P i) eig (q i) (u i) (r i) (w i) (lo x i) (hi x i) 0) ->
  forall y, size y = N -> off y -> vdot N y z =
    \sum_(i < n) (\sum_(f < m) dotv (lo y i f) (num_flux (bl_hdg dim p (be_at (P i) eig)) tau (r i) (w i) (hi x i) f) +
      \sum_(f < m) dotv (hi y i f) (num_flux (bl_hdg dim p (be_at (P i) eig)) tau (q i) (u i) (lo x i) f))].
Proof.
move=> sx; have [z [h1 h2 h3]] := mat_vec_on hv hj (@In_ok nodes) (be_phi_ok hr) sx.
exists z; split=> //.
- move=> v j hvn hjn; rewrite !h3 /global_op; split=> hin.
    rewrite (big_In (G' := fun=> 0)) ?big1_eq // => e he; have [i hi' ee] := indexed_in he; rewrite ee /=.
    rewrite -[(v * n2 + j)%N]/(v * n2 + lo_ord (Ordinal hjn))%N scattered_at big1 // => k _; case: eqP => // hk.
    have [q [u [r [w hl]]]] := be_loc_exist x hi'; have [hm _] := edge_val hi' hl; have [h _] := hm k (Ordinal hjn).
    rewrite mxE in h; apply: h; have := face_node hv be_agree dirs k he; rewrite ee /= => ->; by rewrite hk.
  rewrite (big_In (G' := fun=> 0)) ?big1_eq // => e he; have [i hi' ee] := indexed_in he; rewrite ee /=.
  rewrite -[(v * n2 + (nb + j))%N]/(v * n2 + hi_ord (Ordinal hjn))%N scattered_at big1 // => k _; case: eqP => // hk.
  have [q [u [r [w hl]]]] := be_loc_exist x hi'; have [hm _] := edge_val hi' hl; have [_ h] := hm k (Ordinal hjn).
  rewrite mxE in h; apply: h; have := face_node hv be_agree laps k he; rewrite ee /= => ->; by rewrite hk.
move=> q u r w hl y sy oy.
have -> : vdot N y z = \sum_(d < N) nth 0 y d * global_op (indexed nodes) (phi eig) x d.
  by apply: eq_bigr => d _; rewrite h3.
rewrite (global_dot _ _ _ hv) (big_nth ([::], 0%N)) big_mkord size_indexed; apply: eq_bigr => i _.
by rewrite indexed_nth //=; have [_ ->] := edge_val (ltn_ord i) (hl i (ltn_ord i)).
Qed.
Lemma bi_eigen_char x : size x = N -> off x -> res x eig = Ok (nseq N 0) <-> exists q u r w, pairs x eig q u r w.
Proof.
move=> sx ox; have [z [h1 h2 h3 h4]] := be_res_val sx; split=> [h0|[q [u [r [w [_ _ hl hf]]]]]].
  have [|qu hqu] := @fin_choice (fun=> (('I_dim -> 'cV[F]_nf) * 'cV[F]_nf * ('I_dim -> 'cV[F]_nf) * 'cV[F]_nf)%type)
     (fun=> (fun=> 0, 0, fun=> 0, 0))
     (fun i a => bi_eig_loc dim p tau (P i) eig a.1.1.1 a.1.1.2 a.1.2 a.2 (lo x i) (hi x i) 0) n.
    by move=> i hi'; have [q [u [r [w hl]]]] := be_loc_exist x hi'; exists (q, u, r, w).
  exists (fun i => (qu i).1.1.1), (fun i => (qu i).1.1.2), (fun i => (qu i).1.2), (fun i => (qu i).2); split=> // y sy oy.
  rewrite -(h4 _ _ _ _ hqu) //; move: h0; rewrite h1 => -[->].
  by rewrite /vdot big1 // => d _; rewrite nth_nseq if_same mulr0.
rewrite h1; congr Ok; have /eqP : vdot N z z = 0 by rewrite (h4 _ _ _ _ hl) // hf.
rewrite psumr_eq0 => [/allP hz0|d _]; last by rewrite -expr2 sqr_ge0.
apply: (@eq_from_nth _ 0); rewrite ?size_nseq // h2 => d hd; rewrite nth_nseq hd.
by have := hz0 (Ordinal hd) (mem_index_enum _); rewrite /= mulf_eq0 orbb => /eqP.
Qed.
End Char.
