(** The coupled problems if u is given wherever w is given: u, its gradient and w are unique. *)
From mathcomp Require Import all_ssreflect all_algebra zify.
From Verif Require Import M_Base L_Base M_Lapack S_Lapack M_Global S_Global L_Global L_Global2 L_Global3 L_Global4.
From Verif Require Import S_Hdg S_Tpp M_DiffusionUniform M_Diffusion S_LocalSolver S_Diffusion S_TppGeo.
From Verif Require Import L_Hdg L_HdgSrc L_LocalBase L_LocalLink L_DiffusionUniform2 L_Diffusion2 L_GlobalUniform L_GlobalDiffusion.
From Verif Require Import M_Bilaplacian S_Bilaplacian L_Bilaplacian L_Bilaplacian3 L_Bilaplacian4 L_Bilaplacian5 L_GlobalBilaplacian.
From Verif Require Import S_BiReact L_BiReg L_BiFlux L_GlobalBiReact.
Set Implicit Arguments. Unset Strict Implicit. Unset Printing Implicit Defensive.
Import Order.TTheory GRing.Theory Num.Theory.
Local Open Scope ring_scope.

Section Clamped.
Variables (F : realFieldType) (E : Type) (dim p : nat) (dat : E -> bl_data F) (tau : F) (k : E -> F).
Hypotheses (dim0 : (0 < dim)%N) (hD : forall e, diffusion_data dim p (bl_df (dat e))) (tau0 : 0 < tau).
Hypothesis hneg : forall e, k e <= 0.
Variables (dirs laps : seq nat) (f : local_fun F E).
Notation nf := ((p + 1) ^ dim)%N.
Notation nb := ((p + 1) ^ (dim - 1))%N.
Notation n2 := (2 * nb)%N.
Local Notation m := (2 * dim)%N.
Notation lo x := (tr nb (lower nb x)).
Notation hi x := (tr nb (upper nb x)).
Notation react e q u r w x y := (bi_react dim p tau (dat e) (k e) q u r w x y
  (fun _ : 'I_dim => 0 : 'cV[F]_nf) 0 (fun _ : 'I_dim => 0 : 'cV[F]_nf) 0).
Notation H e := (bl_hdg dim p (dat e)).
Notation bflux e := (bi_flux dim p dirs laps tau (dat e)).
Hypothesis hf : forall e x out, is_trace m n2 x -> is_trace m n2 out ->
  exists2 y, f e x out = Ok y & exists q u r w, react e q u r w (lo x) (hi x) /\ bflux e q u r w (lo x) (hi x) y.
Notation phi := (@phi_of F E dim n2 f).
Variables (n_nodes : nat) (edges : seq (seq nat * E)) (junk : seq (seq F)) (nt : nat -> nat).
Hypotheses (hv : valid_graph dim n_nodes edges) (hj : size junk = m).
Hypothesis ht : types_agree (fun e => bl_df (dat e)) nt edges.
Notation N := (n_nodes * n2)%N.
Notation N1 := (n_nodes * nb)%N.
Notation op x := (elliptic_flux n2 N [::] junk edges f x).
Notation off := (@bl_off F dim p dirs laps n_nodes nt).
Notation glo := (glo nb n_nodes). Notation gup := (gup nb n_nodes). Notation gmerge := (gmerge nb n_nodes).
Notation lp e x := (local_part dim n2 e.1 x).
Notation elo e x := (fun i : 'I_m => \col_(j < nb) nth 0 x (nth 0%N e.1 i * n2 + j)).
Notation ehi e x := (fun i : 'I_m => \col_(j < nb) nth 0 x (nth 0%N e.1 i * n2 + (nb + j))).
Let hreg e : bi_regular dim p tau (dat e) (k e). Proof. by apply: regular_neg => //; exact: hneg. Qed.
Let nb0 : (0 < nb)%N. Proof. by rewrite expn_gt0 addn1. Qed.

Lemma part_lo (e : seq nat * E) (x : seq F) i : lo (rows_of (lp e x)) i = elo e x i.
Proof. by apply/colP => j; have [-> _] := part_at e x i j; rewrite mxE. Qed.
Lemma part_hi (e : seq nat * E) (x : seq F) i : hi (rows_of (lp e x)) i = ehi e x i.
Proof. by apply/colP => j; have [_ ->] := part_at e x i j; rewrite mxE. Qed.

Lemma kernel_dot x : size x = N -> op x = Ok (nseq N 0) -> forall t,
  \sum_(e <- edges) fdot (lp e t) (phi e.2 (lp e x)) = 0.
Proof.
move=> sx hx t; have [z [hz sz ez]] := bopP hf hv hj sx; move: hz; rewrite hx => -[hz0].
rewrite -(bf_dot hv t ez) -hz0 /vdot big1 // => d _; by rewrite nth_nseq if_same mulr0.
Qed.
(** For any boundary conditions w is zero in the kernel. *)
Lemma kernel_w x : size x = N -> off x -> op x = Ok (nseq N 0) -> forall e, List.In e edges ->
  exists q u r, [/\ react e.2 q u r 0 (lo (rows_of (lp e x))) (hi (rows_of (lp e x))), k e.2 = 0 \/ u = 0 &
    forall z, off z -> fdot (lp e z) (phi e.2 (lp e x)) =
    \sum_i dotv (lo (rows_of (lp e z)) i) (num_flux (H e.2) tau r 0 (hi (rows_of (lp e x))) i) +
    \sum_i dotv (hi (rows_of (lp e z)) i) (num_flux (H e.2) tau q u (lo (rows_of (lp e x))) i)].
Proof.
move=> sx ox hx; have d0 := kernel_dot sx hx.
pose z1 := gmerge (glo x) (map -%R (gup x)).
have t1 e : List.In e edges -> exists q u r w, [/\ react e.2 q u r w (lo (rows_of (lp e x))) (hi (rows_of (lp e x))),
    fdot (lp e z1) (phi e.2 (lp e x)) = k e.2 * dotv u (df_mass_mx dim p (bl_df (dat e.2)) *m u) - dotv w (bl_coef dim p (dat e.2) *m w) &
    forall z, off z -> fdot (lp e z) (phi e.2 (lp e x)) =
    \sum_i dotv (lo (rows_of (lp e z)) i) (num_flux (H e.2) tau r w (hi (rows_of (lp e x))) i) +
    \sum_i dotv (hi (rows_of (lp e z)) i) (num_flux (H e.2) tau q u (lo (rows_of (lp e x))) i)].
  move=> he; have [q [u [r [w [l1 h]]]]] := edge_dot hf hv ht x he; exists q, u, r, w; split=> //.
  rewrite h; last exact: off_z1.
  have := react_energy dim0 (hD e.2) l1; rewrite dotv0r add0r => <-; congr (_ + _).
    by apply: eq_bigr => i _; have [-> _] := @flip_part F E dim p n_nodes edges hv e x i he.
  by rewrite -sumrN; apply: eq_bigr => i _; have [_ ->] := @flip_part F E dim p n_nodes edges hv e x i he; rewrite -sub0r dotvBl dotv0l sub0r.
have n1 e : List.In e edges -> fdot (lp e z1) (phi e.2 (lp e x)) <= 0.
  move=> he; have [q [u [r [w [_ -> _]]]]] := t1 e he.
  by rewrite subr_le0 (le_trans _ (bl_coef_ge0 (hD e.2) w)) // mulr_le0_ge0 ?hneg ?(mass_pos (hD e.2)).
have z1e := sum_neg0 n1 (d0 z1).
move=> e he; have [q [u [r [w [l1 h1 h2]]]]] := t1 e he; exists q, u, r.
have := z1e e he; rewrite h1 => /eqP; rewrite subr_eq0 => /eqP h0.
have ke := hneg e.2; have hM := mass_pos (hD e.2) u; have hW := bl_coef_ge0 (hD e.2) w.
have w0 : w = 0.
  by apply: (coef_zero (hD e.2)); apply/eqP; rewrite eq_le hW andbT -h0 mulr_le0_ge0.
subst w; split=> //; move/eqP: h0; rewrite mulmx0 dotv0r mulf_eq0 => /orP[/eqP|/eqP]; first by left.
by right; apply: (mass_zero (hD e.2)).
Qed.
(** ** Two solutions *)
Lemma diff_op x x' r : size x = N -> size x' = N -> op x = Ok r -> op x' = Ok r ->
  op (axpy (-1) x' x) = Ok (nseq N 0).
Proof.
move=> sx sx' hx hx'; have [z [hz sz ez]] := bopP hf hv hj sx; have [z' [hz' sz' ez']] := bopP hf hv hj sx'.
have sy : size (axpy (-1) x' x) = N by rewrite size_axpy.
move: hz hz'; rewrite hx hx' => -[e1] -[e2]; subst z z'.
have [y [-> sy' ey]] := bopP hf hv hj sy; congr Ok.
apply: (@eq_from_nth _ 0); rewrite ?size_nseq // => d hd.
rewrite ey (global_linear _ _ _ sx' hv (bf_linear hreg hf)) -ez -ez' nth_nseq if_same mulN1r addNr //.
Qed.
Lemma diff_off x x' : size x = N -> size x' = N -> off x -> off x' -> off (axpy (-1) x' x).
Proof.
move=> sx sx' ox ox' v j h1 h2; have [a1 a2] := ox v j h1 h2; have [b1 b2] := ox' v j h1 h2.
have l1 : (j < n2)%N by rewrite mul2n -addnn (leq_trans h2) ?leq_addr.
have l2 : (nb + j < n2)%N by rewrite mul2n -addnn ltn_add2l.
by split=> h; rewrite nth_axpy ?sx' ?at_lt // ?a1 ?b1 ?a2 ?b2 // mulr0 addr0.
Qed.
Lemma diff_react x x' e q u r w q' u' r' w' rq ru rr rw : size x = N -> size x' = N -> List.In e edges ->
  bi_react dim p tau (dat e.2) (k e.2) q u r w (elo e x) (ehi e x) rq ru rr rw ->
  bi_react dim p tau (dat e.2) (k e.2) q' u' r' w' (elo e x') (ehi e x') rq ru rr rw ->
  react e.2 (fun d => -1 *: q' d + q d) (-1 *: u' + u) (fun d => -1 *: r' d + r d) (-1 *: w' + w)
    (lo (rows_of (lp e (axpy (-1) x' x)))) (hi (rows_of (lp e (axpy (-1) x' x)))).
Proof.
move=> sx sx' he h h'; apply: react_ext (react_lin (-1) h' h) => [i|i|d||d|]; rewrite ?scaleN1r ?addNr //.
  have hn := node_lt hv i he; rewrite part_lo; apply/colP => j; rewrite !mxE nth_axpy ?mulN1r // sx' at_lt //.
  by rewrite mul2n -addnn (leq_trans (ltn_ord j)) ?leq_addr.
have hn := node_lt hv i he; rewrite part_hi; apply/colP => j; rewrite !mxE nth_axpy ?mulN1r // sx' at_lt //.
by rewrite mul2n -addnn ltn_add2l.
Qed.
Let neg_eq (n : nat) (a b : 'cV[F]_n) : -1 *: a + b = 0 -> b = a.
Proof. by rewrite scaleN1r addrC => /eqP; rewrite subr_eq0 => /eqP. Qed.
Lemma same_w x x' s e q u r w q' u' r' w' rq ru rr rw : size x = N -> size x' = N -> off x -> off x' ->
  op x = Ok s -> op x' = Ok s -> List.In e edges ->
  bi_react dim p tau (dat e.2) (k e.2) q u r w (elo e x) (ehi e x) rq ru rr rw ->
  bi_react dim p tau (dat e.2) (k e.2) q' u' r' w' (elo e x') (ehi e x') rq ru rr rw ->
  w = w' /\ (k e.2 != 0 -> u = u').
Proof.
move=> sx sx' ox ox' hx hx' he h h'; have hr := diff_react sx sx' he h h'.
have sy : size (axpy (-1) x' x) = N by rewrite size_axpy.
have [q0 [u0 [r0 [h1 h2 _]]]] := kernel_w sy (diff_off sx sx' ox ox') (diff_op sx sx' hx hx') he.
have [_ eu _ ew] := react_unique (@hreg e.2) hr h1.
split; first exact: neg_eq.
by move=> hk; apply: neg_eq; rewrite eu; case: h2 => // h0; rewrite h0 eqxx in hk.
Qed.
Hypothesis hsub : forall v, (v < n_nodes)%N -> nt v \in laps -> nt v \in dirs.
Lemma off_up x : off x -> off (gmerge (nseq N1 0) (glo x)).
Proof.
move=> ox v j h1 h2; have [o1 o2] := ox v j h1 h2.
split=> h; first by rewrite merge_lo // nth_nseq if_same.
by rewrite merge_hi // nth_glo // o1 // hsub.
Qed.
Lemma kernel_form x : size x = N -> off x -> op x = Ok (nseq N 0) -> forall e, List.In e edges ->
  exists q u r, [/\ react e.2 q u r 0 (lo (rows_of (lp e x))) (hi (rows_of (lp e x))),
    loc_eq (H e.2) tau q u (lo (rows_of (lp e x))) &
    form (H e.2) tau q q u u (lo (rows_of (lp e x))) (lo (rows_of (lp e x))) = 0].
Proof.
move=> sx ox hx; have d0 := kernel_dot sx hx; pose z2 := gmerge (nseq N1 0) (glo x).
have t e : List.In e edges -> exists q u r, [/\ react e.2 q u r 0 (lo (rows_of (lp e x))) (hi (rows_of (lp e x))),
    loc_eq (H e.2) tau q u (lo (rows_of (lp e x))) &
    fdot (lp e z2) (phi e.2 (lp e x)) = - form (H e.2) tau q q u u (lo (rows_of (lp e x))) (lo (rows_of (lp e x)))].
  move=> he; have [q [u [r [l1 _ h]]]] := kernel_w sx ox hx he; exists q, u, r.
  have [_ l2] := l1; rewrite mulmx0 addr0 in l2; move/loc_src0: l2 => l2; split=> //.
  have hok := bl_ok dim0 (hD e.2); rewrite -(L_Hdg.energy hok l2 l2) h; last exact: off_up.
  rewrite big1 ?add0r => [|i _]; last first.
    rewrite [lo _ i](_ : _ = 0) ?dotv0l //; apply/colP => j; have [-> _] := part_at e z2 i j; rewrite mxE.
    by rewrite merge_lo ?(node_lt hv i he) // nth_nseq if_same.
  apply: eq_bigr => i _; congr dotv; apply/colP => j; have [_ ->] := part_at e z2 i j; have [-> _] := part_at e x i j.
  by have hn := node_lt hv i he; rewrite merge_hi // nth_glo.
have n1 e : List.In e edges -> fdot (lp e z2) (phi e.2 (lp e x)) <= 0.
  by move=> he; have [q [u [r [_ _ ->]]]] := t e he; rewrite oppr_le0 form_ge0 ?(ltW tau0) //; exact: bl_ok.
have z2e := sum_neg0 n1 (d0 z2).
move=> e he; have [q [u [r [l1 l2 h]]]] := t e he; exists q, u, r; split=> //.
by have := z2e e he; rewrite h => /eqP; rewrite oppr_eq0 => /eqP.
Qed.
Hypothesis hc : forall v, (v < n_nodes)%N -> anchored edges (fun v => nt v \in dirs) v.
Lemma kernel_lo x : size x = N -> off x -> op x = Ok (nseq N 0) -> forall v j, (v < n_nodes)%N -> (j < nb)%N ->
  nth 0 x (v * n2 + j) = 0.
Proof.
move=> sx ox hx v j h1 h2.
have han := hc h1; elim: han h1 j h2 => [{}v hfx h1 j h2|e {}v v' he hve hwe _ IH h1 j h2].
  by have [-> //] := ox v j h1 h2.
have [hs hlt] := valid_in hv he.
have [q [u [r [_ l1 f1]]]] := kernel_form sx ox hx he; have hok := bl_ok dim0 (hD e.2).
have [|c hcx] := flux_kernel hok (bl_const dim0 (hD e.2)) (bl_grad dim0 (hD e.2)) tau0 l1.
  by rewrite (L_Hdg.energy hok l1 l1) f1 oppr0.
have val a j' : a \in e.1 -> (j' < nb)%N -> nth 0 x (a * n2 + j') = c * (j' == 0%N)%:R.
  move=> ha hj'; have hi' : (index a e.1 < m)%N by rewrite -hs index_mem.
  have [h _] := part_at e x (Ordinal hi') (Ordinal hj'); rewrite /= nth_index // in h.
  by rewrite -h hcx !mxE.
have hv' : (v < n_nodes)%N by move/allP: hlt; apply.
have c0 : c = 0 by rewrite -(IH hv' 0%N nb0) val // mulr1.
by rewrite val // c0 mul0r.
Qed.
Lemma kernel_all x : size x = N -> off x -> op x = Ok (nseq N 0) -> forall e, List.In e edges ->
  forall q u r w, react e.2 q u r w (lo (rows_of (lp e x))) (hi (rows_of (lp e x))) ->
  (forall d, q d = 0) /\ u = 0.
Proof.
move=> sx ox hx e he q u r w hr; have [q' [u' [r' [h1 h2 _]]]] := kernel_form sx ox hx he.
have [eq eu _ _] := react_unique (@hreg e.2) hr h1.
have hok := bl_ok dim0 (hD e.2).
have [|z1 z2] := loc_unique0 hok (q := q') (u := u') tau0.
  apply: loc_eq_ext h2 => // i; apply/colP => j; have [-> _] := part_at e x i j; rewrite mxE.
  by rewrite (kernel_lo sx ox hx (node_lt hv i he)).
by split=> [d|]; [rewrite eq | rewrite eu].
Qed.
Lemma same_u x x' s : size x = N -> size x' = N -> off x -> off x' -> op x = Ok s -> op x' = Ok s ->
  (forall v j, (v < n_nodes)%N -> (j < nb)%N -> nth 0 x (v * n2 + j) = nth 0 x' (v * n2 + j)) /\
  forall e q u r w q' u' r' w' rq ru rr rw, List.In e edges ->
  bi_react dim p tau (dat e.2) (k e.2) q u r w (elo e x) (ehi e x) rq ru rr rw ->
  bi_react dim p tau (dat e.2) (k e.2) q' u' r' w' (elo e x') (ehi e x') rq ru rr rw ->
  [/\ forall d, q d = q' d, u = u' & w = w'].
Proof.
move=> sx sx' ox ox' hx hx'; have sy : size (axpy (-1) x' x) = N by rewrite size_axpy.
have oy := diff_off sx sx' ox ox'; have hy := diff_op sx sx' hx hx'.
split=> [v j h1 h2|e q u r w q' u' r' w' rq ru rr rw he h h'].
  have := kernel_lo sy oy hy h1 h2; rewrite nth_axpy ?sx' ?at_lt //; last by rewrite mul2n -addnn (leq_trans h2) ?leq_addr.
  by rewrite mulN1r addrC => /eqP; rewrite subr_eq0 => /eqP.
have [ew _] := same_w sx sx' ox ox' hx hx' he h h'.
have [e1 e2] := kernel_all sy oy hy he (diff_react sx sx' he h h').
by split=> // [d|]; apply: neg_eq.
Qed.
End Clamped.
