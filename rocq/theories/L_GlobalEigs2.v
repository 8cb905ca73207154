(** DiffusionEigs on a hypergraph: the discrete eigenvalue problem. *)
From mathcomp Require Import all_ssreflect all_algebra zify ring.
From Verif Require Import M_Base L_Base M_Lapack S_Lapack M_Global S_Global L_Global L_Global2 L_Global3 L_Global4.
From Verif Require Import S_Hdg L_Hdg S_Tpp M_DiffusionUniform M_Diffusion S_LocalSolver S_Diffusion S_TppGeo.
From Verif Require Import L_HdgSrc L_LocalBase L_LocalLink L_DiffusionUniform2 L_Diffusion2 L_GlobalUniform L_GlobalMasked.
From Verif Require Import S_GlobalParab L_GlobalParab M_DiffusionEigs S_DiffusionEigs S_GlobalEigs L_EigHdg L_DiffusionEigs2 L_DiffusionEigs3 L_GlobalEigs.
Set Implicit Arguments. Unset Strict Implicit. Unset Printing Implicit Defensive.
Import Order.TTheory GRing.Theory Num.Theory.
Local Open Scope ring_scope.

Lemma fin_choice (T : nat -> Type) (t0 : forall i, T i) (R : forall i, T i -> Prop) n :
  (forall i, (i < n)%N -> exists a, R i a) -> exists f : forall i, T i, forall i, (i < n)%N -> R i (f i).
Proof.
elim: n => [|n IH] h; first by exists t0.
have [|f hf] := IH; first by move=> i hi; apply: h; exact: ltnW.
have [a ha] := h n (leqnn _).
exists (fun i => match @eqP _ n i with ReflectT e => ecast z (T z) e a | _ => f i end) => i hi.
case: eqP => [e|ne]; first by case: i / e hi.
by apply: hf; lia.
Qed.

Section Eigs.
Variables (F : realFieldType) (dim p : nat) (dirs : seq nat) (tau : F).
Variables (nodes : seq (seq nat)) (n_nodes : nat) (nt : nat -> nat) (P : nat -> de_data F).
Hypotheses (dim0 : (0 < dim)%N) (hP : eigs_data_all dim p nodes P).
Hypotheses (hv : valid_graph dim n_nodes (indexed nodes)).
Notation nb := ((p + 1) ^ (dim - 1))%N.
Notation nf := ((p + 1) ^ dim)%N.
Notation N := (n_nodes * nb)%N.
Notation m := (2 * dim)%N.
Notation n := (size nodes).
Notation H i eig := (de_hdg dim p (P i) eig).
Notation lt := (local_tr dim p nodes).
Notation pairs := (eigenpair dim p dirs tau nodes n_nodes nt P).
Notation free := (dir_free dim p dirs n_nodes nt).
Notation ener := (eig_energy dim p tau nodes P).
Notation inner := (inner dim p nodes P).
Lemma enerE eig x q u : ener eig x q u = \sum_(i < n) form (H i eig) tau (q i) (q i) (u i) (u i) (lt x i) (lt x i).
Proof. by []. Qed.
Lemma pair_sum x eig q u x' eig' q' u' : pairs x eig q u -> pairs x' eig' q' u' ->
  (forall i, (i < n)%N -> H i eig' = H i eig) ->
  \sum_(i < n) form (H i eig) tau (q' i) (q i) (u' i) (u i) (lt x' i) (lt x i) = eig * inner u' u.
Proof.
move=> [sx ox hl hf] [sx' ox' hl' _] hH.
have := hf x' sx' ox'.
rewrite (eq_bigr (fun i : 'I_n => - form (H i eig) tau (q' i) (q i) (u' i) (u i) (lt x' i) (lt x i) +
  eig * de_area (P i) * dotv (u' i) (u i))) => [|i _]; last first.
  have h2 : eloc (H i eig) tau (eig' * de_area (P i)) (q' i) (u' i) (lt x' i) 0.
    by rewrite -(hH i (ltn_ord i)); exact: (hl' i (ltn_ord i)).
  by rewrite (eloc_pair (edata_ok dim0 (hP (ltn_ord i)) eig) (hl i (ltn_ord i)) h2) dotv0r addr0.
rewrite big_split /= sumrN => /eqP; rewrite addrC subr_eq0 => /eqP <-.
by rewrite mulr_sumr; apply: eq_bigr => i _; rewrite mulrA.
Qed.
Lemma rayleigh x eig q u : pairs x eig q u -> eig * inner u u = ener eig x q u.
Proof. by move=> h; rewrite -(pair_sum h h). Qed.
Lemma orthogonal x eig q u x' eig' q' u' : time_free_all nodes P -> pairs x eig q u -> pairs x' eig' q' u' ->
  eig != eig' -> inner u u' = 0.
Proof.
move=> ht h h' hne.
have hH a b i : (i < n)%N -> H i a = H i b.
  by move=> hi; rewrite (time_freeH dim p a (ht i hi)) (time_freeH dim p b (ht i hi)).
have e1 := pair_sum h h' (fun i hi => hH _ _ i hi).
have e2 := pair_sum h' h (fun i hi => hH _ _ i hi).
have inC : inner u' u = inner u u' by apply: eq_bigr => i _; rewrite dotvC.
have : (eig - eig') * inner u u' = 0.
  rewrite mulrBl -{1}inC -e1 -e2; apply/eqP; rewrite subr_eq0; apply/eqP; apply: eq_bigr => i _.
  by rewrite (form_sym _ (edata_ok dim0 (hP (ltn_ord i)) eig)) (hH eig eig' i).
by move=> /eqP; rewrite mulf_eq0 subr_eq0 (negbTE hne) => /eqP.
Qed.
Lemma inner_ge0 u : 0 <= inner u u.
Proof. by apply: sumr_ge0 => i _; rewrite mulr_ge0 ?dotv_ge0 // ltW // (edata_area (hP (ltn_ord i))). Qed.
Lemma inner_eq0 u : inner u u = 0 -> forall i, (i < n)%N -> u i = 0.
Proof.
move=> /eqP; rewrite psumr_eq0 => [/allP h i hi|i _]; last first.
  by rewrite mulr_ge0 ?dotv_ge0 // ltW // (edata_area (hP (ltn_ord i))).
have := h (Ordinal hi) (mem_index_enum _); rewrite /= mulf_eq0 gt_eqF ?(edata_area (hP hi)) //=.
by rewrite dotv_eq0 => /eqP.
Qed.
Hypothesis tau0 : 0 < tau.
Lemma ener_ge0 eig x q u : 0 <= ener eig x q u.
Proof. by rewrite enerE; apply: sumr_ge0 => i _; exact: (form_ge0 (edata_ok dim0 (hP (ltn_ord i)) eig) _ _ _ (ltW tau0)). Qed.
Lemma ener_eq0 eig x q u : ener eig x q u = 0 -> forall i, (i < n)%N ->
  form (H i eig) tau (q i) (q i) (u i) (u i) (lt x i) (lt x i) = 0.
Proof.
rewrite enerE => /eqP; rewrite psumr_eq0 => [/allP h i hi|i _]; last first.
  exact: (form_ge0 (edata_ok dim0 (hP (ltn_ord i)) eig) _ _ _ (ltW tau0)).
by have /eqP := h (Ordinal hi) (mem_index_enum _).
Qed.
Let nb0 : (0 < nb)%N. Proof. by rewrite expn_gt0 addn1. Qed.
Lemma lt_val (x : seq F) i v k : (i < n)%N -> v \in nth [::] nodes i -> (k < nb)%N -> exists2 f : 'I_m, exists j : 'I_nb,
  j = k :> nat /\ lt x i f j 0 = nth 0 x (v * nb + k) & nth 0%N (nth [::] nodes i) f = v.
Proof.
move=> hi hv' hk; have [si _] := node_ok hv hi.
have hx : (index v (nth [::] nodes i) < m)%N by rewrite -si index_mem.
exists (Ordinal hx); last by rewrite /= nth_index.
exists (Ordinal hk); split=> //.
by rewrite mxE /local_dofs (nth_mkseq [::]) // nth_mkseq //= nth_index.
Qed.
(** A nonzero eigenvector has a nonzero bulk part. *)
Lemma pair_norm x eig q u d : covered dirs nodes n_nodes nt -> pairs x eig q u -> nth 0 x d != 0 -> 0 < inner u u.
Proof.
move=> hc hp hd; rewrite lt_neqAle inner_ge0 andbT; apply/eqP => /esym h0.
have e0 : ener eig x q u = 0 by rewrite -(rayleigh hp) h0 mulr0.
have [sx ox _ _] := hp.
have dN : (d < N)%N by rewrite ltnNge; apply: contraNN hd => hh; rewrite nth_default ?sx.
have hvn : (d %/ nb < n_nodes)%N by rewrite ltn_divLR.
have /orP[hfx|/(has_nthP [::]) [i hi hvi]] := hc _ hvn; first by move: hd; rewrite ox ?eqxx.
have [_ hu] := form_eq0 (edata_ok dim0 (hP hi) eig) tau0 (ener_eq0 e0 hi).
have [f [j [ej hj]] hf] := lt_val x hi hvi (ltn_pmod d nb0).
move: hd; rewrite {1}(divn_eq d nb) -hj.
have := hu f; rewrite (inner_eq0 h0 hi) mulmx0 => /esym/eqP.
by rewrite scaler_eq0 gt_eqF /=; [move/eqP->; rewrite mxE eqxx | case: (edata_ok dim0 (hP hi) eig) => _ _ _ /(_ f)[]].
Qed.
Lemma pair_eig_ge0 x eig q u d : covered dirs nodes n_nodes nt -> pairs x eig q u -> nth 0 x d != 0 -> 0 <= eig.
Proof.
move=> hc hp hd; have i0 := pair_norm hc hp hd.
by rewrite -(pmulr_lge0 _ i0) (rayleigh hp) ener_ge0.
Qed.
Lemma pair_norm_eig x eig q u d : covered dirs nodes n_nodes nt -> pairs x eig q u -> nth 0 x d != 0 ->
  0 < inner u u /\ 0 <= eig.
Proof. by move=> hc hp hd; split; [exact: pair_norm hp hd | exact: pair_eig_ge0 hp hd]. Qed.
Lemma anchored_covered : (forall v, (v < n_nodes)%N -> anchored (indexed nodes) (fun v => nt v \in dirs) v) ->
  covered dirs nodes n_nodes nt.
Proof.
move=> h v /h; case=> [w ->//|e w w' he _ hw' _]; apply/orP; right.
have [i hi ee] := indexed_in he; apply/(has_nthP [::]); exists i => //.
by move: hw'; rewrite ee.
Qed.
Lemma pair_eig_gt0 x eig q u d : (forall v, (v < n_nodes)%N -> anchored (indexed nodes) (fun v => nt v \in dirs) v) ->
  pairs x eig q u -> nth 0 x d != 0 -> 0 < eig.
Proof.
move=> hc hp hd; have hcov := anchored_covered hc.
rewrite lt_neqAle (pair_eig_ge0 hcov hp hd) andbT; apply/eqP => /esym e0.
have en : ener eig x q u = 0 by rewrite -(rayleigh hp) e0 mul0r.
have [sx ox hl _] := hp.
have dN : (d < N)%N by rewrite ltnNge; apply: contraNN hd => hh; rewrite nth_default ?sx.
have hvn : (d %/ nb < n_nodes)%N by rewrite ltn_divLR.
suff zero v : anchored (indexed nodes) (fun v => nt v \in dirs) v -> (v < n_nodes)%N ->
    forall k, (k < nb)%N -> nth 0 x (v * nb + k) = 0.
  by move: hd; rewrite (divn_eq d nb) (zero _ (hc _ hvn) hvn) ?ltn_mod ?eqxx.
elim=> [{}v hfx hvv k hk|e {}v w he hve hwe _ IH hw k hk].
  by apply: ox; [nia | rewrite divnMDl // divn_small // addn0].
have [i hi ee] := indexed_in he; move: hve hwe; rewrite ee /= => hve hwe.
have [si hlt] := node_ok hv hi.
have hvlt : (v < n_nodes)%N by move/allP: hlt; apply.
have hok := edata_ok dim0 (hP hi) eig.
have h1 : loc_eq (H i eig) tau (q i) (u i) (lt x i).
  by apply/loc_src0; have := hl i hi; rewrite /eig_loc {2}e0 mul0r scale0r addr0.
have [|c hcx] := flux_kernel hok (edata_const dim0 (hP hi) eig) (edata_grad (eig := eig) dim0 (hP hi)) tau0 h1.
  by rewrite (L_Hdg.energy hok h1 h1) (ener_eq0 en hi) oppr0.
have val a k' : a \in nth [::] nodes i -> (k' < nb)%N -> nth 0 x (a * nb + k') = c * (k' == 0%N)%:R.
  by move=> ha hk'; have [f [j [ej <-]] _] := lt_val x hi ha hk'; rewrite hcx !mxE ej.
have c0 : c = 0 by rewrite -(IH hvlt 0%N nb0) val // mulr1.
by rewrite val // c0 mul0r.
Qed.
(** Different eigenvalues belong to independent functions. *)
Lemma pair_count (s : seq F) : time_free_all nodes P -> covered dirs nodes n_nodes nt -> uniq s ->
  (forall a, a \in s -> exists x q u d, pairs x a q u /\ nth 0 x d != 0) -> (size s <= n * nf)%N.
Proof.
move=> ht hc us hs.
have [|U hU] := @fin_choice (fun=> nat -> 'cV[F]_nf) (fun _ _ => 0)
   (fun k u => exists x q d, pairs x (nth 0 s k) q u /\ nth 0 x d != 0) (size s).
  by move=> k hk; have [x [q [u [d h]]]] := hs _ (mem_nth 0 hk); exists u, x, q, d.
pose M := \matrix_(k < size s) mxvec (\matrix_(i < n, j < nf) U k i j 0).
suff fr : row_free M by move: fr; rewrite /row_free => /eqP <-; exact: rank_leq_col.
rewrite -kermx_eq0; apply/eqP/row_matrixP => c.
have: row c (kermx M) *m M = 0 by rewrite -row_mul mulmx_ker row0.
move: (row c _) => w hw; apply/rowP => k; rewrite row0 [RHS]mxE.
have comb (i : 'I_n) (j : 'I_nf) : \sum_(l < size s) w 0 l * U l i j 0 = 0.
  have /rowP/(_ (mxvec_index i j)) := hw; rewrite [X in X = _ -> _]mxE [X in _ = X -> _]mxE => h; rewrite -[RHS]h.
apply: eq_bigr => l _.
  by rewrite !mxE mxvecE mxE.
have h0 : w 0 k * inner (U k) (U k) = 0.
  transitivity (\sum_(l < size s) w 0 l * inner (U k) (U l)).
    rewrite (bigD1 k) //= big1 ?addr0 // => l hl.
    have [x [q [d [h1 _]]]] := hU k (ltn_ord k); have [x' [q' [d' [h2 _]]]] := hU l (ltn_ord l).
    by rewrite (orthogonal ht h1 h2) ?mulr0 // nth_uniq // eq_sym.
  rewrite /inner; under eq_bigr do rewrite mulr_sumr.
  rewrite exchange_big /= big1 // => i _.
  transitivity (de_area (P i) * dotv (U k i) (\sum_(l < size s) w 0 l *: U l i)).
    rewrite dotv_sumr mulr_sumr; apply: eq_bigr => l _; by rewrite dotvZr mulrCA.
  have -> : \sum_(l < size s) w 0 l *: U l i = 0.
    by apply/colP => j; rewrite summxE [RHS]mxE -[RHS](comb i j); apply: eq_bigr => l _; rewrite mxE.
  by rewrite dotv0r mulr0.
have [x [q [d [h1 h2]]]] := hU k (ltn_ord k).
move/eqP: h0; rewrite mulf_eq0 => /orP[/eqP //|/eqP h0].
by have := pair_norm hc h1 h2; rewrite h0 ltxx.
Qed.
End Eigs.

Section Char.
Variables (F : realFieldType) (gesv : nat -> nat -> seq F -> seq F -> sv_result F).
Variables (dim p : nat) (dirs : seq nat) (tau : F).
Variables (nodes : seq (seq nat)) (n_nodes : nat) (nt : nat -> nat) (junk : seq (seq F)) (P : nat -> de_data F).
Hypotheses (dim0 : (0 < dim)%N) (hP : eigs_data_all dim p nodes P) (hg : gesv_correct gesv).
Hypotheses (hv : valid_graph dim n_nodes (indexed nodes)) (hj : size junk = (2 * dim)%N).
Hypothesis (hty : eigs_types dim nodes nt P).
Notation nb := ((p + 1) ^ (dim - 1))%N.
Notation nf := ((p + 1) ^ dim)%N.
Notation N := (n_nodes * nb)%N.
Notation m := (2 * dim)%N.
Notation zt := (nseq m (nseq nb (0 : F))).
Notation n := (size nodes).
Notation res := (eigs_res gesv dim p dirs tau nodes junk P).
Notation phi eig := (@phi_of F nat dim nb (eigs_fun gesv dim p dirs tau P eig)).
Notation local := (local_dofs dim p nodes).
Notation lt := (local_tr dim p nodes).
Notation free := (dir_free dim p dirs n_nodes nt).
Notation pairs := (eigenpair dim p dirs tau nodes n_nodes nt P).
Let hz : is_trace m nb zt := zero_trace F dim nb.
Let nb0 : (0 < nb)%N. Proof. by rewrite expn_gt0 addn1. Qed.
Variable eig : F.
Hypothesis hr : regular_all dim p tau nodes P eig.
Lemma loc_trace (x : seq F) i : is_trace m nb (local x i).
Proof. by split; [exact: size_mkseq | apply/allP => l /mapP[k _ ->]; rewrite size_mkseq]. Qed.
Lemma loc_dmx (x : seq F) i : dmx dim nb (local x i) = local_part dim nb (nth [::] nodes i) x.
Proof. by apply/matrixP => k j; rewrite !mxE (nth_mkseq [::]) // nth_mkseq. Qed.
Lemma phi_val x i q u : (i < n)%N -> eig_loc dim p tau (P i) eig q u (lt x i) 0 -> forall (f : 'I_m) (j : 'I_nb),
  phi eig i (local_part dim nb (nth [::] nodes i) x) f j =
  if nt (nth 0%N (nth [::] nodes i) f) \in dirs then 0 else num_flux (de_hdg dim p (P i) eig) tau q u (lt x i) f j 0.
Proof.
move=> hi hl f j.
have [y [q' [u' [hy hl' [sy fy]]]]] := eigs_flux dirs dim0 (hP hi) hg (hr hi) (loc_trace x i) hz.
have [eq eu] := loc_unique_e (hr hi) hl' hl.
rewrite -loc_dmx /phi_of (rows_of_dmx (loc_trace x i)) /eigs_fun hy mxE.
have /colP/(_ j) := fy f; rewrite [X in X = _]mxE => ->.
rewrite /de_mask hty //; case: ifP => _; first by rewrite mxE.
by have -> : num_flux (de_hdg dim p (P i) eig) tau q' u' (tr nb (local x i)) f =
  num_flux (de_hdg dim p (P i) eig) tau q u (lt x i) f by apply: flux_ext.
Qed.
Lemma res_val x : size x = N -> exists r, [/\ res x eig = Ok r, size r = N, free r &
  forall q u, (forall i, (i < n)%N -> eig_loc dim p tau (P i) eig (q i) (u i) (lt x i) 0) ->
  forall y, size y = N -> free y -> vdot N y r =
    \sum_(i < n) \sum_(f < m) dotv (lt y i f) (num_flux (de_hdg dim p (P i) eig) tau (q i) (u i) (lt x i) f)].
Proof.
move=> sx; have [r [h1 h2 h3]] := mat_vec_on hv hj (@In_ok nodes) (phi_ok dirs dim0 hP hg hr) sx.
exists r; split=> //.
- move=> d hd hfx; rewrite h3 /global_op.
  rewrite (big_In (G' := fun=> 0)) ?big1_eq // => e he; have [i hi ->] := indexed_in he => /=.
  have [q [u hl]] := eigs_exist dim0 (hP hi) hg (lt x i) 0 (hr hi).
  rewrite /scattered big1 // => f _; rewrite big1 // => j _; case: eqP => // ed.
  rewrite (phi_val hi hl); have -> // : nth 0%N (nth [::] nodes i) f = (d %/ nb)%N; last by rewrite hfx.
  by rewrite -ed divnMDl // divn_small // addn0.
move=> q u hl y sy oy.
have -> : vdot N y r = \sum_(d < N) nth 0 y d * global_op (indexed nodes) (phi eig) x d.
  by apply: eq_bigr => d _; rewrite h3.
rewrite (global_dot _ _ _ hv) (big_nth ([::], 0%N)) big_mkord size_indexed; apply: eq_bigr => i _.
rewrite indexed_nth //=; apply: eq_bigr => f _; apply: eq_bigr => j _.
rewrite (phi_val (ltn_ord i) (hl i (ltn_ord i))) mxE.
have -> : lt y i f j 0 = nth 0 y (nth 0%N (nth [::] nodes i) f * nb + j).
  by rewrite mxE (nth_mkseq [::]) // nth_mkseq.
case: ifP => // hfx; rewrite mulr0 oy ?mul0r //.
  have [si ha] := node_ok hv (ltn_ord i).
  have : (nth 0%N (nth [::] nodes i) f < n_nodes)%N by move/(all_nthP 0%N): ha; apply; rewrite si.
  by have := ltn_ord j; nia.
by rewrite divnMDl // divn_small // addn0.
Qed.
Lemma vdot_eq0 (r : seq F) : size r = N -> vdot N r r = 0 -> r = nseq N 0.
Proof.
move=> sr /eqP; rewrite psumr_eq0 => [/allP h|d _]; last by rewrite -expr2 sqr_ge0.
apply: (@eq_from_nth _ 0); rewrite ?size_nseq // sr => d hd; rewrite nth_nseq hd.
by have := h (Ordinal hd) (mem_index_enum _); rewrite /= mulf_eq0 orbb => /eqP.
Qed.
Lemma eigen_char x : size x = N -> free x -> res x eig = Ok (nseq N 0) <-> exists q u, pairs x eig q u.
Proof.
move=> sx ox; have [r [h1 h2 h3 h4]] := res_val sx; split=> [h0|[q [u [_ _ hl hf]]]].
  have [|qu hqu] := @fin_choice (fun=> (('I_dim -> 'cV[F]_nf) * 'cV[F]_nf)%type) (fun=> (fun=> 0, 0))
     (fun i a => eig_loc dim p tau (P i) eig a.1 a.2 (lt x i) 0) n.
    move=> i hi; have [q [u hl]] := eigs_exist dim0 (hP hi) hg (lt x i) 0 (hr hi).
    by exists (q, u).
  exists (fun i => (qu i).1), (fun i => (qu i).2); split=> // y sy oy.
  rewrite -(h4 _ _ hqu) //; move: h0; rewrite h1 => -[->].
  by rewrite /vdot big1 // => d _; rewrite nth_nseq if_same mulr0.
rewrite h1; congr Ok; apply: vdot_eq0 => //.
by rewrite (h4 _ _ hl) // hf.
Qed.
End Char.
