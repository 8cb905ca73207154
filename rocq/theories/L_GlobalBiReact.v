(** Global systems of the coupled problems with a reaction term. *)
From mathcomp Require Import all_ssreflect all_algebra zify.
From Verif Require Import M_Base L_Base M_Lapack S_Lapack M_Global S_Global L_Global L_Global2 L_Global3 L_Global4.
From Verif Require Import S_Hdg S_Tpp M_DiffusionUniform M_Diffusion S_LocalSolver S_Diffusion S_TppGeo.
From Verif Require Import L_Hdg L_HdgSrc L_LocalBase L_LocalLink L_DiffusionUniform2 L_Diffusion2 L_GlobalUniform L_GlobalDiffusion.
From Verif Require Import M_Bilaplacian S_Bilaplacian L_Bilaplacian L_Bilaplacian3 L_Bilaplacian4 L_Bilaplacian5 L_GlobalBilaplacian.
From Verif Require Import S_BiReact L_BiReg L_BiFlux.
Set Implicit Arguments. Unset Strict Implicit. Unset Printing Implicit Defensive.
Import Order.TTheory GRing.Theory Num.Theory.
Local Open Scope ring_scope.

Lemma sum_neg0 (F : realFieldType) (T : Type) (l : seq T) (a : T -> F) : (forall e, List.In e l -> a e <= 0) ->
  \sum_(e <- l) a e = 0 -> forall e, List.In e l -> a e = 0.
Proof.
elim: l => [//|e l IH] h; rewrite big_cons => h0.
have hs : \sum_(j <- l) a j <= 0.
  have {}h e' : List.In e' l -> a e' <= 0 by move=> h'; apply: h; right.
  elim: l h {IH h0} => [|e' l IH] h; first by rewrite big_nil.
  rewrite big_cons -oppr_ge0 opprD addr_ge0 ?oppr_ge0 //; first by apply: h; left.
  by apply: IH => e'' h'; apply: h; right.
have he : a e <= 0 by apply: h; left.
have a0 : a e = 0 by apply/eqP; rewrite eq_le he /= -h0 ger_addl.
move=> e' [<- //|h']; apply: IH => //; first by move=> e'' h''; apply: h; right.
by move: h0; rewrite a0 add0r.
Qed.

Section React.
Variables (F : realFieldType) (E : Type) (dim p : nat) (dat : E -> bl_data F) (tau : F) (k : E -> F).
Hypotheses (dim0 : (0 < dim)%N) (hD : forall e, diffusion_data dim p (bl_df (dat e))) (tau0 : 0 < tau).
Hypothesis hreg : forall e, bi_regular dim p tau (dat e) (k e).
Variables (dirs laps : seq nat) (f : local_fun F E).
Notation nf := ((p + 1) ^ dim)%N.
Notation nb := ((p + 1) ^ (dim - 1))%N.
Notation n2 := (2 * nb)%N.
Local Notation m := (2 * dim)%N.
Notation lo x := (tr nb (lower nb x)).
Notation hi x := (tr nb (upper nb x)).
Notation hom e x q u r w := (bi_react dim p tau (dat e) (k e) q u r w (lo x) (hi x)
  (fun _ : 'I_dim => 0 : 'cV[F]_nf) 0 (fun _ : 'I_dim => 0 : 'cV[F]_nf) 0).
Notation bflux e := (bi_flux dim p dirs laps tau (dat e)).
Hypothesis hf : forall e x out, is_trace m n2 x -> is_trace m n2 out ->
  exists2 y, f e x out = Ok y & exists q u r w, hom e x q u r w /\ bflux e q u r w (lo x) (hi x) y.
Notation zt := (zero_trace F dim n2).
Notation phi := (@phi_of F E dim n2 f).
Lemma bf_ok e x : is_trace m n2 x -> exists2 y, f e x (nseq m (nseq n2 0)) = Ok y & is_trace m n2 y.
Proof. by move=> hx; have [y hy [q [u [r [w [_ [sy _ _]]]]]]] := hf e hx zt; exists y. Qed.
Lemma bf_phi e x y : is_trace m n2 x -> f e x (nseq m (nseq n2 0)) = Ok y -> phi e (dmx dim n2 x) = dmx dim n2 y.
Proof. by move=> hx hy; rewrite /phi_of (rows_of_dmx hx) hy. Qed.
Lemma bf_linear : local_linear phi.
Proof.
move=> e a A B.
have [y [y' [hy hy' hc]]] := flux_linear (@hreg e) (@hf e) a (rows_trace A) (rows_trace B) zt zt zt.
have := bf_phi (comb_is_trace _ _ a (rows_of A) (rows_of B)) hc.
by rewrite !dmx_comb !rows_ofK => ->; rewrite -(bf_phi (rows_trace A) hy)
  -(bf_phi (rows_trace B) hy') !rows_ofK.
Qed.
Lemma bf_mask e A (i : 'I_m) (j : 'I_nb) :
  (face_dirichlet dirs (bl_df (dat e)) i -> lo_mx (phi e A) i j = 0) /\
  (face_dirichlet laps (bl_df (dat e)) i -> hi_mx (phi e A) i j = 0).
Proof.
have [y hy [q [u [r [w [_ [_ f1 f2]]]]]]] := hf e (rows_trace A) zt.
have := bf_phi (rows_trace A) hy; rewrite rows_ofK => ->; rewrite -dmx_lower -dmx_upper; split=> h.
  by have /colP/(_ j) := f1 i; rewrite h !mxE.
by have /colP/(_ j) := f2 i; rewrite h !mxE.
Qed.

Variables (n_nodes : nat) (edges : seq (seq nat * E)) (junk : seq (seq F)) (nt : nat -> nat).
Hypotheses (hv : valid_graph dim n_nodes edges) (hj : size junk = m).
Hypothesis ht : types_agree (fun e => bl_df (dat e)) nt edges.
Notation N := (n_nodes * n2)%N.
Notation N1 := (n_nodes * nb)%N.
Notation op x := (elliptic_flux n2 N [::] junk edges f x).
Notation off := (@bl_off F dim p dirs laps n_nodes nt).
Notation glo := (glo nb n_nodes). Notation gup := (gup nb n_nodes). Notation gmerge := (gmerge nb n_nodes).
Lemma nb0 : (0 < nb)%N. Proof. by rewrite expn_gt0 addn1. Qed.
Lemma bopP x : size x = N -> exists z, [/\ op x = Ok z, size z = N & forall d, nth 0 z d = global_op edges phi x d].
Proof.
move=> sx; have [z [hz sz ez]] := elliptic_fluxE (phi_computes bf_ok) hv hj sx (isT : all _ [::]).
by exists z; split => //; rewrite sz.
Qed.
Lemma react_range x : size x = N -> exists z, [/\ op x = Ok z, size z = N & off z].
Proof. by move=> sx; have [z [hz sz ez]] := bopP sx; exists z; split=> //; exact: (range_off hv ht bf_mask ez). Qed.
Lemma bf_dot z t a : (forall d, nth 0 t d = global_op edges phi a d) ->
  vdot N z t = \sum_(e <- edges) fdot (local_part dim n2 e.1 z) (phi e.2 (local_part dim n2 e.1 a)).
Proof. by move=> ht'; rewrite -(global_dot _ _ _ hv); apply: eq_bigr => d _; rewrite ht'. Qed.
Lemma react_symmetric x y : size x = N -> size y = N -> off x -> off y ->
  exists u v, [/\ op x = Ok u, op y = Ok v & vdot N y u = vdot N x v].
Proof.
move=> sx sy ox oy; have [u [hu su eu]] := bopP sx; have [v [hv' sv ev]] := bopP sy.
exists u, v; split => //; rewrite (bf_dot y eu) (bf_dot x ev).
have : forall e, List.In e edges -> fdot (local_part dim n2 e.1 y) (phi e.2 (local_part dim n2 e.1 x)) =
    fdot (local_part dim n2 e.1 x) (phi e.2 (local_part dim n2 e.1 y)).
  move=> e he; set X := local_part _ _ _ x; set Y := local_part _ _ _ y.
  have [a [b [ha hb hs]]] := L_BiFlux.flux_symmetric dim0 (hD e.2) (@hf e.2) (rows_trace X) (rows_trace Y) zt zt
    (local_off hv ht he ox) (local_off hv ht he oy).
  by move: hs; rewrite !pairing_fdot -(bf_phi (rows_trace X) ha) -(bf_phi (rows_trace Y) hb) !rows_ofK.
elim: (edges) => [|e l IH] hl; first by rewrite !big_nil.
by rewrite !big_cons hl ?IH //; [move=> e' he'; apply: hl; right | left].
Qed.

(** ** Injectivity *)
Section Injective.
Hypothesis hneg : forall e, k e < 0.
Hypothesis hsame : forall v, (v < n_nodes)%N -> (nt v \in dirs) = (nt v \in laps).
Hypothesis cover : forall v, (v < n_nodes)%N -> (nt v \in dirs) || has (fun e => v \in e.1) edges.
Lemma off_z1 x : off x -> off (gmerge (glo x) (map -%R (gup x))).
Proof.
move=> ox v j h1 h2; have [o1 o2] := ox v j h1 h2; have hd := at_lt h1 h2.
split=> h; first by rewrite merge_lo // nth_glo // o1.
by rewrite merge_hi // (nth_map 0) ?size_mkseq // nth_gup // o2 // oppr0.
Qed.
Lemma off_z2 x : off x -> off (gmerge (gup x) (glo x)).
Proof.
move=> ox v j h1 h2; have [o1 o2] := ox v j h1 h2.
split=> h; first by rewrite merge_lo // nth_gup // o2 // -hsame.
by rewrite merge_hi // nth_glo // o1 // hsame.
Qed.
Let lp (e : seq nat * E) (x : seq F) := local_part dim n2 e.1 x.
Lemma part_at (e : seq nat * E) x (i : 'I_m) (j : 'I_nb) :
  lo (rows_of (lp e x)) i j 0 = nth 0 x (nth 0%N e.1 i * n2 + j) /\
  hi (rows_of (lp e x)) i j 0 = nth 0 x (nth 0%N e.1 i * n2 + (nb + j)).
Proof.
have /matrixP/(_ i j) := dmx_lower dim nb (rows_of (lp e x)).
have /matrixP/(_ i j) := dmx_upper dim nb (rows_of (lp e x)).
by rewrite !rows_ofK !mxE => -> ->.
Qed.
Lemma node_lt e (i : 'I_m) : List.In e edges -> (nth 0%N e.1 i < n_nodes)%N.
Proof. by move=> he; have [hs hn] := valid_in hv he; apply: (allP hn); rewrite mem_nth ?hs. Qed.
Lemma edge_dot e x : List.In e edges -> exists q u r w, hom e.2 (rows_of (lp e x)) q u r w /\
  forall z, off z -> fdot (lp e z) (phi e.2 (lp e x)) =
    \sum_i dotv (lo (rows_of (lp e z)) i) (num_flux (bl_hdg dim p (dat e.2)) tau r w (hi (rows_of (lp e x))) i) +
    \sum_i dotv (hi (rows_of (lp e z)) i) (num_flux (bl_hdg dim p (dat e.2)) tau q u (lo (rows_of (lp e x))) i).
Proof.
move=> he; have [y hy [q [u [r [w [l1 [sy f1 f2]]]]]]] := hf e.2 (rows_trace (lp e x)) zt.
exists q, u, r, w; split=> // z oz; have [o1 o2] := local_off hv ht he oz.
rewrite -(pairing_mask o1 f1) -(pairing_mask o2 f2) -pairing_halves pairing_fdot rows_ofK.
by rewrite -(bf_phi (rows_trace _) hy) rows_ofK.
Qed.
Lemma flip_part e x (i : 'I_m) : List.In e edges ->
  lo (rows_of (lp e (gmerge (glo x) (map -%R (gup x))))) i = lo (rows_of (lp e x)) i /\
  hi (rows_of (lp e (gmerge (glo x) (map -%R (gup x))))) i = - hi (rows_of (lp e x)) i :> 'cV[F]_nb.
Proof.
set z1 := gmerge _ _.
move=> he; have hn := node_lt i he; split; apply/colP => j; have [a1 a2] := part_at e x i j; have [b1 b2] := part_at e z1 i j.
  by rewrite a1 b1 merge_lo // nth_glo.
have hl := at_lt hn (ltn_ord j).
by rewrite [RHS]mxE a2 b2 merge_hi // (nth_map 0) ?size_mkseq // nth_gup.
Qed.
Lemma react_injective x : size x = N -> off x -> op x = Ok (nseq N 0) -> x = nseq N 0.
Proof.
move=> sx ox hx; have [z [hz sz ez]] := bopP sx; move: hz; rewrite hx => -[hz0].
have d0 t : \sum_(e <- edges) fdot (lp e t) (phi e.2 (lp e x)) = 0.
  rewrite -(bf_dot t ez) -hz0 /vdot big1 // => d _; by rewrite nth_nseq if_same mulr0.
pose z1 := gmerge (glo x) (map -%R (gup x)); pose z2 := gmerge (gup x) (glo x).
have m1 e (i : 'I_m) := @flip_part e x i.
have m2 e (i : 'I_m) : List.In e edges -> lo (rows_of (lp e z2)) i = hi (rows_of (lp e x)) i /\
    hi (rows_of (lp e z2)) i = lo (rows_of (lp e x)) i :> 'cV[F]_nb.
  move=> he; have hn := node_lt i he; split; apply/colP => j; have [a1 a2] := part_at e x i j; have [b1 b2] := part_at e z2 i j.
    by rewrite a2 b1 merge_lo // nth_gup.
  by rewrite a1 b2 merge_hi // nth_glo.
(* the first test *)
have t1 e : List.In e edges -> exists q u r w, [/\ hom e.2 (rows_of (lp e x)) q u r w,
    fdot (lp e z1) (phi e.2 (lp e x)) = k e.2 * dotv u (df_mass_mx dim p (bl_df (dat e.2)) *m u) - dotv w (bl_coef dim p (dat e.2) *m w) &
    fdot (lp e z2) (phi e.2 (lp e x)) =
      \sum_i dotv (hi (rows_of (lp e x)) i) (num_flux (bl_hdg dim p (dat e.2)) tau r w (hi (rows_of (lp e x))) i) +
      \sum_i dotv (lo (rows_of (lp e x)) i) (num_flux (bl_hdg dim p (dat e.2)) tau q u (lo (rows_of (lp e x))) i)].
  move=> he; have [q [u [r [w [l1 h]]]]] := edge_dot x he; exists q, u, r, w; split=> //.
    rewrite h; last exact: off_z1.
    have := react_energy dim0 (hD e.2) l1; rewrite dotv0r add0r => <-; congr (_ + _).
      by apply: eq_bigr => i _; have [-> _] := m1 e i he.
    by rewrite -sumrN; apply: eq_bigr => i _; have [_ ->] := m1 e i he; rewrite -sub0r dotvBl dotv0l sub0r.
  rewrite h; last exact: off_z2.
  by congr (_ + _); apply: eq_bigr => i _; have [e1 e2] := m2 e i he; rewrite ?e1 ?e2.
have n1 e : List.In e edges -> fdot (lp e z1) (phi e.2 (lp e x)) <= 0.
  move=> he; have [q [u [r [w [_ -> _]]]]] := t1 e he.
  by rewrite subr_le0 (le_trans _ (bl_coef_ge0 (hD e.2) w)) // mulr_le0_ge0 ?(ltW (hneg _)) ?(mass_pos (hD e.2)).
have z1e := sum_neg0 n1 (d0 z1).
have t2 e : List.In e edges -> exists q r, [/\ loc_eq (bl_hdg dim p (dat e.2)) tau q 0 (lo (rows_of (lp e x))),
    loc_eq (bl_hdg dim p (dat e.2)) tau r 0 (hi (rows_of (lp e x))) &
    fdot (lp e z2) (phi e.2 (lp e x)) =
      - form (bl_hdg dim p (dat e.2)) tau r r 0 0 (hi (rows_of (lp e x))) (hi (rows_of (lp e x)))
      - form (bl_hdg dim p (dat e.2)) tau q q 0 0 (lo (rows_of (lp e x))) (lo (rows_of (lp e x)))].
  move=> he; have [q [u [r [w [[l1 l2] h1 h2]]]]] := t1 e he; exists q, r.
  have := z1e e he; rewrite h1 => /eqP; rewrite subr_eq0 => /eqP h0.
  have ke := hneg e.2; have hM := mass_pos (hD e.2) u; have hW := bl_coef_ge0 (hD e.2) w.
  have w0 : w = 0.
    by apply: (coef_zero (hD e.2)); apply/eqP; rewrite eq_le hW andbT -h0 mulr_le0_ge0 // ltW.
  have u0 : u = 0.
    apply: (mass_zero (hD e.2)); apply/eqP.
    by move/eqP: h0; rewrite w0 mulmx0 dotv0r mulf_eq0 (lt_eqF ke).
  rewrite h2 w0 u0 in l1 l2 *; rewrite ?mulmx0 ?scaler0 ?addr0 in l1 l2.
  move/loc_src0: l1 => l1; move/loc_src0: l2 => l2.
  have hok := bl_ok dim0 (hD e.2).
  by rewrite (L_Hdg.energy hok l1 l1) (L_Hdg.energy hok l2 l2).
have n2' e : List.In e edges -> fdot (lp e z2) (phi e.2 (lp e x)) <= 0.
  move=> he; have [q [r [_ _ ->]]] := t2 e he; have hok := bl_ok dim0 (hD e.2).
  by rewrite -opprD oppr_le0 addr_ge0 // form_ge0 // ltW.
have z2e := sum_neg0 n2' (d0 z2).
have zero e (i : 'I_m) : List.In e edges -> lo (rows_of (lp e x)) i = 0 /\ hi (rows_of (lp e x)) i = 0 :> 'cV[F]_nb.
  move=> he; have [q [r [l1 l2 h]]] := t2 e he; have hok := bl_ok dim0 (hD e.2).
  have := z2e e he; rewrite h -opprD => /eqP; rewrite oppr_eq0 paddr_eq0 ?form_ge0 ?(ltW tau0) // => /andP[/eqP g1 /eqP g2].
  have [_ /(_ i) c1] := form_eq0 hok tau0 g1; have [_ /(_ i) c2] := form_eq0 hok tau0 g2.
  have ha : ha (bl_hdg dim p (dat e.2)) i != 0 by case: hok => _ _ _ /(_ i)[/lt0r_neq0].
  move: c1 c2; rewrite !mulmx0 => /esym/eqP c1 /esym/eqP c2; move: c1 c2.
  by rewrite !scaler_eq0 (negbTE ha) /= => /eqP -> /eqP ->.
apply: (vec_ext (n_nodes := n_nodes) (n := n2)); rewrite ?size_nseq // => v j h1 h2.
rewrite nth_nseq if_same.
have hn : (nt v \in dirs) || has (fun e => v \in e.1) edges := cover h1.
have key : ((j < nb)%N -> nth 0 x (v * n2 + j) = 0) /\ (forall j', (j' < nb)%N -> nth 0 x (v * n2 + (nb + j')) = 0).
  case/orP: hn => [hn|].
    by split=> [hjb|j' hj']; [have [-> //] := ox v j h1 hjb | have [_ -> //] := ox v j' h1 hj'; rewrite -hsame].
  have : forall e, List.In e edges -> v \in e.1 -> forall i : 'I_nb,
     nth 0 x (v * n2 + i) = 0 /\ nth 0 x (v * n2 + (nb + i)) = 0.
    move=> e he hin i; have [hs _] := valid_in hv he.
    have hi' : (index v e.1 < m)%N by rewrite -hs index_mem.
    have [c1 c2] := zero e (Ordinal hi') he; have [a1 a2] := part_at e x (Ordinal hi') i.
    by rewrite -[v](nth_index 0%N hin) -a1 -a2 c1 c2 mxE.
  elim: (edges) => [//|e l IH] hl /= /orP[hin|]; last by apply: IH => e' he'; apply: hl; right.
  have {}hl := hl e (or_introl erefl) hin.
  by split=> [hjb|j' hj']; [have [] := hl (Ordinal hjb) | have [] := hl (Ordinal hj')].
case: (ltnP j nb) => hjb; first by have [-> //] := key.
have -> : j = (nb + (j - nb))%N by lia.
by have [_ -> //] := key; lia.
Qed.

(** ** Solvability *)
Let fixd d := if (d %% n2 < nb)%N then nt (d %/ n2)%N \in dirs else nt (d %/ n2)%N \in laps.
Let dofs : seq nat := [seq d <- iota 0 N | fixd d].
Lemma dofsE d : (d \in dofs) = fixd d && (d < N)%N. Proof. by rewrite mem_filter mem_iota add0n. Qed.
Lemma dofs_lt : all (fun i => i < N)%N dofs. Proof. by apply/allP => d; rewrite dofsE => /andP[]. Qed.
Lemma offE x : off x <-> off_dir dofs x.
Proof.
split=> [ox d|h v j h1 h2].
  rewrite dofsE => /andP[hfx hd]; have n20 : (0 < n2)%N by have := nb0; lia.
  have [h1 h2] := dof_split n20 hd; rewrite (divn_eq d n2); move: hfx; rewrite /fixd; case: ltnP => hm hfx.
    by have [-> //] := ox _ _ h1 hm.
  have -> : (d %% n2 = nb + (d %% n2 - nb))%N by rewrite subnKC.
  by have [|_ -> //] := ox _ (d %% n2 - nb)%N h1; lia.
have l1 : (j < n2)%N by lia.
have l2 : (nb + j < n2)%N by lia.
split=> hfx; apply: h; rewrite dofsE at_lt // andbT /fixd.
  by have [-> ->] := divmod_at v l1; rewrite h2.
by have [-> ->] := divmod_at v l2; rewrite ltnNge leq_addr.
Qed.
Lemma react_solvable r : size r = N -> off r ->
  exists x, [/\ size x = N, off x, op x = Ok r & forall x', size x' = N -> off x' -> op x' = Ok r -> x' = x].
Proof.
move=> sr or.
have opE x : size x = N -> elliptic_flux n2 N dofs junk edges f x = op x.
  move=> sx; have [z [hz sz ez]] := bopP sx; have [z' [hz' sz' oz]] := react_range sx.
  move: hz'; rewrite hz => -[e]; subst z'.
  have [y [-> sy ey]] := elliptic_fluxE (phi_computes bf_ok) hv hj sx dofs_lt.
  congr Ok; apply: (@eq_from_nth _ 0); rewrite ?sz ?sy // => d hd.
  by rewrite ey ez; case: ifP => // hin; rewrite -ez (iffLR (offE z) oz).
have inj x : size x = N -> off_dir dofs x -> elliptic_flux n2 N dofs junk edges f x = Ok (nseq N 0) -> x = nseq N 0.
  by move=> sx ox; rewrite opE // => hx; apply: react_injective => //; exact/offE.
have [x [sx ox hx ux]] := flux_solvable (phi_computes bf_ok) bf_linear hv hj dofs_lt inj sr (iffLR (offE r) or).
exists x; split=> //; [exact/offE | by rewrite -opE |].
by move=> x' sx' /offE ox' hx'; apply: ux => //; rewrite opE.
Qed.
End Injective.
End React.
