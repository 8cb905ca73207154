(** DiffusionEigs on a hypergraph: the derivative. *)
From mathcomp Require Import all_ssreflect all_algebra zify ring.
From Verif Require Import M_Base L_Base M_Lapack S_Lapack M_Global S_Global L_Global L_Global2 L_Global3 L_Global4.
From Verif Require Import S_Hdg L_Hdg S_Tpp M_DiffusionUniform M_Diffusion S_LocalSolver S_Diffusion S_TppGeo.
From Verif Require Import L_HdgSrc L_LocalBase L_LocalLink L_DiffusionUniform2 L_Diffusion2 L_GlobalUniform L_GlobalMasked.
From Verif Require Import S_GlobalParab L_GlobalParab M_DiffusionEigs S_DiffusionEigs S_GlobalEigs L_EigHdg L_DiffusionEigs2 L_DiffusionEigs3.
Set Implicit Arguments. Unset Strict Implicit. Unset Printing Implicit Defensive.
Import Order.TTheory GRing.Theory Num.Theory.
Local Open Scope ring_scope.

Lemma foldo_ext (S I : Type) (f g : I -> S -> outcome S) s l : (forall i, List.In i l -> forall s, f i s = g i s) ->
  foldo f s l = foldo g s l.
Proof.
elim: l s => [//|i l IH] s h /=; rewrite h; last by left.
by case: (g i s) => //= s'; apply: IH => k hk; apply: h; right.
Qed.

(** The global loops for local functions that are known on the hyperedges of the graph only. *)
Section On.
Variables (F : realFieldType) (E : Type) (dim nb : nat) (ok : E -> bool).
Notation m := (2 * dim)%N.
Notation zt := (nseq m (nseq nb (0 : F))).
Variables (n_nodes : nat) (edges : seq (seq nat * E)) (junk : seq (seq F)).
Hypotheses (hv : valid_graph dim n_nodes edges) (hj : size junk = m) (ho : forall e, List.In e edges -> ok e.2).
Notation N := (n_nodes * nb)%N.
Lemma big_In (T : Type) (s : seq T) (G G' : T -> F) : (forall e, List.In e s -> G e = G' e) ->
  \sum_(e <- s) G e = \sum_(e <- s) G' e.
Proof.
elim: s => [|e s IH] h; first by rewrite !big_nil.
by rewrite !big_cons h; [rewrite IH // => e' he; apply: h; right | left].
Qed.
Lemma mat_vec_on (f : local_fun F E) x :
  (forall e, ok e -> forall xt, is_trace m nb xt -> exists2 y, f e xt zt = Ok y & is_trace m nb y) -> size x = N ->
  exists y, [/\ mat_vec nb junk edges f x = Ok y, size y = N &
    forall d, nth 0 y d = global_op edges (@phi_of F E dim nb f) x d].
Proof.
move=> fok sx; pose f' : local_fun F E := fun e x out => if ok e then f e x out else Ok out.
have fok' e xt : is_trace m nb xt -> exists2 y, f' e xt zt = Ok y & is_trace m nb y.
  move=> hx; rewrite /f'; case: ifP => [he|_]; first exact: fok.
  by exists zt => //; exact: zero_trace.
have [y [h1 h2 h3]] := mat_vecE (phi_computes fok') sx hv hj.
exists y; split; last 1 first.
- move=> d; rewrite h3; apply: big_In => e he; congr scattered.
  by rewrite /phi_of /f' ho.
- rewrite -h1 /mat_vec; congr omap; apply: foldo_ext => e he [[ax old] new].
  by rewrite /f' ho.
by rewrite h2.
Qed.
Definition phi2_of (f : local_fun2 F E) (e : E) (A B : 'M[F]_(m, nb)) : 'M[F]_(m, nb) :=
  if f e (rows_of A) zt (rows_of B) is Ok y then dmx dim nb y else 0.
Lemma mat_vec2_on (f : local_fun2 F E) x y :
  (forall e, ok e -> forall xt yt, is_trace m nb xt -> is_trace m nb yt ->
     exists2 z, f e xt zt yt = Ok z & is_trace m nb z) -> size x = N -> size y = N ->
  exists z, [/\ mat_vec2 nb junk edges f x y = Ok z, size z = N &
    forall d, nth 0 z d = \sum_(e <- edges)
      scattered e.1 (phi2_of f e.2 (local_part dim nb e.1 x) (local_part dim nb e.1 y)) d].
Proof.
move=> fok sx sy; pose f' : local_fun2 F E := fun e x out v => if ok e then f e x out v else Ok out.
have fc : computes2 f' (phi2_of f').
  move=> e old new vals /shaped_trace hold /shaped_trace hn /shaped_trace hva h0.
  have [z hz sz] : exists2 z, f' e old zt vals = Ok z & is_trace m nb z.
    rewrite /f'; case: ifP => [he|_]; first exact: fok.
    by exists zt => //; exact: zero_trace.
  exists z; rewrite (zero_dmx hn h0) hz; split => //; first by apply/shaped_trace.
  by rewrite /phi2_of !rows_of_dmx // hz.
have [z [h1 h2 h3]] := mat_vec2E sx sy hv hj fc.
exists z; split; last 1 first.
- move=> d; rewrite h3; apply: big_In => e he; congr scattered.
  by rewrite /phi2_of /f' ho.
- rewrite -h1 /mat_vec2; congr omap; apply: foldo_ext => e he [ax [[old vals] new]].
  by rewrite /f' ho.
by rewrite h2.
Qed.
Lemma scattered_le (ns : seq nat) (A : 'M[F]_(m, nb)) d c : 0 <= c -> (forall k j, `|A k j| <= c) ->
  `|scattered ns A d| <= (m * nb)%:R * c.
Proof.
move=> c0 hA; rewrite /scattered.
apply: (@le_trans _ _ (\sum_(k < m) \sum_(j < nb) c)); last first.
  by rewrite !sumr_const !card_ord -mulrnA mulr_natl mulnC.
apply: (le_trans (ler_norm_sum _ _ _)); apply: ler_sum => k _.
apply: (le_trans (ler_norm_sum _ _ _)); apply: ler_sum => j _.
by case: ifP => _ //; rewrite normr0.
Qed.
Lemma sum_le (T : Type) (s : seq T) (G : T -> F) c : (forall e, List.In e s -> `|G e| <= c) ->
  `|\sum_(e <- s) G e| <= (size s)%:R * c.
Proof.
elim: s => [|e s IH] h; first by rewrite big_nil normr0 mul0r.
rewrite big_cons (le_trans (ler_norm_add _ _)) // /= -add1n natrD mulrDl mul1r ler_add //; first by apply: h; left.
by apply: IH => e' he; apply: h; right.
Qed.
End On.

Section Eigs.
Variables (F : realFieldType) (gesv : nat -> nat -> seq F -> seq F -> sv_result F).
Variables (dim p : nat) (dirs : seq nat) (tau : F).
Variables (nodes : seq (seq nat)) (n_nodes : nat) (nt : nat -> nat) (junk : seq (seq F)) (P : nat -> de_data F).
Hypotheses (dim0 : (0 < dim)%N) (hP : eigs_data_all dim p nodes P) (hg : gesv_correct gesv).
Hypotheses (hv : valid_graph dim n_nodes (indexed nodes)) (hj : size junk = (2 * dim)%N).
Notation nb := ((p + 1) ^ (dim - 1))%N.
Notation nf := ((p + 1) ^ dim)%N.
Notation N := (n_nodes * nb)%N.
Notation m := (2 * dim)%N.
Notation zt := (nseq m (nseq nb (0 : F))).
Notation n := (size nodes).
Notation res := (eigs_res gesv dim p dirs tau nodes junk P).
Notation jac := (eigs_jacobian gesv dim p dirs tau nodes junk P).
Notation phi eig := (@phi_of F nat dim nb (eigs_fun gesv dim p dirs tau P eig)).
Notation dphi e mu := (@phi2_of F nat dim nb (eigs_jac_fun gesv dim p dirs tau P e mu)).
Notation local := (local_dofs dim p nodes).
Let hz : is_trace m nb zt := zero_trace F dim nb.
Notation ok := (fun i : nat => (i < n)%N).
Lemma In_ok e : List.In e (indexed nodes) -> ok e.2.
Proof. by case/indexed_in => i hi ->. Qed.
Lemma phi_ok eig : regular_all dim p tau nodes P eig -> forall i, ok i -> forall xt, is_trace m nb xt ->
  exists2 y, eigs_fun gesv dim p dirs tau P eig i xt zt = Ok y & is_trace m nb y.
Proof.
by move=> hr i hi xt hx; have [y [q [u [hy _ [sy _]]]]] := eigs_flux dirs dim0 (hP hi) hg (hr i hi) hx hz; exists y.
Qed.
Lemma dphi_ok e mu : regular_all dim p tau nodes P mu -> forall i, ok i -> forall xt yt, is_trace m nb xt ->
  is_trace m nb yt -> exists2 z, eigs_jac_fun gesv dim p dirs tau P e mu i xt zt yt = Ok z & is_trace m nb z.
Proof.
move=> hr i hi xt yt hx hy.
by have [z [q0 [u0 [q1 [u1 [q2 [u2 [j1 _ _ _ [sz _]]]]]]]]] := eigs_jac dirs dim0 (hP hi) hg e (hr i hi) hx hz hy; exists z.
Qed.
Lemma common (T : nat -> F -> F -> Prop) k : (forall i K K' d d', T i K d -> K <= K' -> d' <= d -> T i K' d') ->
  (forall i, (i < k)%N -> exists K d, 0 < d /\ T i K d) ->
  exists K d, [/\ 0 <= K, 0 < d & forall i, (i < k)%N -> T i K d].
Proof.
move=> mono; elim: k => [|k IH] h; first by exists 0, 1; split; rewrite ?ltr01.
have [|K [d [K0 d0 hT]]] := IH; first by move=> i hi; apply: h; exact: ltnW.
have [K' [d' [d0' hT']]] := h k (leqnn _).
exists (Num.max K K'), (Num.min d d'); split.
- by rewrite le_maxr K0.
- by rewrite lt_minr d0.
move=> i; rewrite ltnS leq_eqVlt => /orP[/eqP ->|hi].
  by apply: mono hT' _ _; rewrite ?le_maxr ?le_minl lexx orbT.
by apply: mono (hT i hi) _ _; rewrite ?le_maxr ?le_minl lexx.
Qed.
Lemma node_ok i : ok i -> size (nth [::] nodes i) = m /\ all (fun v => v < n_nodes)%N (nth [::] nodes i).
Proof.
move=> hi; move: hv => /(all_nthP ([::], 0%N)) /(_ i); rewrite size_indexed => /(_ hi).
by rewrite indexed_nth //= => /andP[/eqP].
Qed.
Lemma eigs_global_derivative x y mu e : time_free_all nodes P -> regular_all dim p tau nodes P mu ->
  size x = N -> size y = N -> exists K delta r j,
  [/\ 0 < delta, res x mu = Ok r, jac y e x mu = Ok j & forall t, `|t| <= delta ->
   regular_all dim p tau nodes P (mu + t * e) /\ exists rt, res (axpy t y x) (mu + t * e) = Ok rt /\
    forall d, `|nth 0 rt d - nth 0 r d - t * nth 0 j d| <= K * t ^+ 2].
Proof.
move=> ht hr sx sy.
pose lp i (w : seq F) := local_part dim nb (nth [::] nodes i) w.
have [|i hi|K [delta [K0 d0 hK]]] := @common (fun i K d => forall t, `|t| <= d -> regular dim p tau (P i) (mu + t * e) /\
  forall (k : 'I_m) (l : 'I_nb), `|phi (mu + t * e) i (t *: lp i y + lp i x) k l - phi mu i (lp i x) k l -
    t * dphi e mu i (lp i y) (lp i x) k l| <= K * t ^+ 2) n.
- move=> i K K' d d' h hK hd t htd; have [h1 h2] := h t (le_trans htd hd); split=> // k l.
  by apply: (le_trans (h2 k l)); rewrite ler_wpmul2r ?sqr_ge0.
- have [K [d [y0 [j [d0 h1 h2 h3]]]]] := eigs_derivative dirs dim0 (hP hi) hg e (ht i hi) (hr i hi)
     (rows_trace (lp i x)) (rows_trace (lp i y)) hz hz.
  exists K, d; split=> // t htd; have [hrt [yt [hyt hle]]] := h3 t htd; split=> // k l.
  have := hle k l; rewrite !mxE.
  have -> : phi (mu + t * e) i (t *: lp i y + lp i x) = dmx dim nb yt.
    rewrite /phi_of /eigs_fun -[lp i y]rows_ofK -[lp i x]rows_ofK -dmx_comb rows_of_dmx ?hyt //.
    exact: comb_is_trace.
  by rewrite /phi_of /phi2_of /eigs_fun /eigs_jac_fun h1 h2 !mxE.
have [r [hr1 sr hr2]] := mat_vec_on hv hj In_ok (phi_ok hr) sx.
have [j [hj1 sj hj2]] := mat_vec2_on hv hj In_ok (dphi_ok e hr) sy sx.
exists (n%:R * ((m * nb)%:R * K)), delta, r, j; split=> // t htd.
have hrt : regular_all dim p tau nodes P (mu + t * e) by move=> i hi; have [] := hK i hi t htd.
split=> //.
have [|rt [ht1 st ht2]] := mat_vec_on (x := axpy t y x) hv hj In_ok (phi_ok hrt); first by rewrite size_axpy.
exists rt; split=> // d; rewrite ht2 hr2 hj2 /global_op mulr_sumr -!sumrB.
rewrite -!mulrA -(size_indexed nodes); apply: sum_le => -[ns i] /indexed_in [i' hi [-> ->]] /=.
have [s1 s2] := node_ok hi.
rewrite (local_part_axpy _ _ sy s1 s2).
have -> : forall A B C : 'M[F]_(m, nb), scattered (nth [::] nodes i') A d - scattered (nth [::] nodes i') B d -
    t * scattered (nth [::] nodes i') C d = scattered (nth [::] nodes i') (- t *: C + (-1 *: B + A)) d.
  by move=> A B C; rewrite !scattered_lin; ring.
apply: scattered_le; first by rewrite mulr_ge0 ?sqr_ge0.
move=> k l; have [_ /(_ k l)] := hK i' hi t htd; rewrite !mxE.
by rewrite mulN1r addrC [- _ + _]addrC mulNr.
Qed.
End Eigs.
