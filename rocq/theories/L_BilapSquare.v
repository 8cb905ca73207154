(** BilaplacianEigs with coefficient one: the eigenvalues are the squares of those of DiffusionEigs. *)
From mathcomp Require Import all_ssreflect all_algebra zify ring.
From Verif Require Import M_Base L_Base M_Lapack S_Lapack M_Global S_Global L_Global L_Global2 L_Global3 L_Global4.
From Verif Require Import S_Hdg L_Hdg S_Tpp M_DiffusionUniform M_Diffusion S_LocalSolver S_Diffusion S_TppGeo.
From Verif Require Import L_HdgSrc L_LocalBase L_LocalLink L_DiffusionUniform2 L_Diffusion2 L_GlobalUniform L_GlobalMasked.
From Verif Require Import M_Bilaplacian S_Bilaplacian L_Bilaplacian L_Bilaplacian3 L_Bilaplacian4 L_Bilaplacian5 L_GlobalBilaplacian.
From Verif Require Import S_GlobalParab L_GlobalParab M_DiffusionEigs S_DiffusionEigs S_GlobalEigs L_GlobalEigs L_GlobalEigs2.
From Verif Require Import S_BiReact L_BiReg L_BiFlux L_BiNear M_BilapEigs S_BilapEigs S_GlobalBilapEigs L_BilapEigs L_BilapEigs2 L_GlobalBilapEigs.
Set Implicit Arguments. Unset Strict Implicit. Unset Printing Implicit Defensive.
Import Order.TTheory GRing.Theory Num.Theory.
Local Open Scope ring_scope.

Section Square.
Variables (F : realFieldType) (dim p : nat) (dirs : seq nat) (tau : F).
Variables (nodes : seq (seq nat)) (n_nodes : nat) (nt : nat -> nat) (P : nat -> be_data F).
Hypotheses (dim0 : (0 < dim)%N) (hP : be_data_all dim p nodes P) (hu : unit_all dim p nodes P).
Hypotheses (hv : valid_graph dim n_nodes (indexed nodes)).
Notation nb := ((p + 1) ^ (dim - 1))%N.
Notation n2 := (2 * nb)%N.
Notation nf := ((p + 1) ^ dim)%N.
Notation N := (n_nodes * n2)%N.
Notation N1 := (n_nodes * nb)%N.
Notation m := (2 * dim)%N.
Notation n := (size nodes).
Notation U := (unit_diffusion P).
Notation H i eig := (bl_hdg dim p (be_at (P i) eig)).
Notation lo := (lo_tr dim p nodes).
Notation hi := (hi_tr dim p nodes).
Notation lt := (local_tr dim p nodes).
Notation bpairs := (bi_eigenpair dim p dirs dirs tau nodes n_nodes nt P).
Notation pairs := (eigenpair dim p dirs tau nodes n_nodes nt U).
Notation off := (be_off dim p dirs dirs n_nodes nt).
Notation free := (dir_free dim p dirs n_nodes nt).
Notation both := (both dim p n_nodes).
Notation glo := (@L_GlobalBilaplacian.glo F nb n_nodes). Notation gup := (@L_GlobalBilaplacian.gup F nb n_nodes).
Let nb0 : (0 < nb)%N. Proof. by rewrite expn_gt0 addn1. Qed.
Lemma unitH i eig mu : H i eig = de_hdg dim p (U i) mu. Proof. by []. Qed.
Lemma unit_data : eigs_data_all dim p nodes U.
Proof.
move=> i hi'; have := hP hi'; case=> b [Q [xs [ws [kappa [g [h1 h2 h3 h4 [h5 h6]]]]]]].
exists b, Q, xs, ws, kappa, g; split=> //; split=> // eig; have [c1 c2 c3 c4 c5] := h5 eig; split=> // k l.
by rewrite -c1 /= hu.
Qed.
Lemma unit_coef i eig : (i < n)%N -> bl_coef dim p (be_at (P i) eig) = (be_area (P i))%:M.
Proof. by move=> hi'; rewrite -(be_mass (hP hi') eig); apply/matrixP => k l; rewrite !mxE /= hu. Qed.
Lemma unit_loc i eig kappa q u r w (x y : 'I_m -> 'cV[F]_nb) : (i < n)%N ->
  bi_eig_loc dim p tau (P i) eig q u r w x y 0 <->
  loc_src (de_hdg dim p (U i) kappa) tau r w y (fun=> 0) ((eig * be_area (P i)) *: u) /\
  loc_src (de_hdg dim p (U i) kappa) tau q u x (fun=> 0) (be_area (P i) *: w).
Proof.
move=> hi'; rewrite /bi_eig_loc /bi_react /bi_loc (unitH i eig kappa) (unit_coef _ hi') (be_mass (hP hi')).
by rewrite !mul_scalar_mx add0r addr0 scalerA.
Qed.
Lemma both_tr (kappa : F) (x : seq F) i (f : 'I_m) : (i < n)%N -> lo (both kappa x) i f = lt x i f /\ hi (both kappa x) i f = kappa *: lt x i f.
Proof.
move=> hi'; have hn := node_at hv f hi'; split; apply/colP => j; rewrite !mxE (nth_mkseq [::]) // nth_mkseq //.
  have l1 : (j < n2)%N by have := ltn_ord j; lia.
  by rewrite nth_mkseq ?at_lt //; have [-> ->] := divmod_at (nth 0%N (nth [::] nodes i) f) l1; rewrite ltn_ord.
have l1 : (nb + j < n2)%N by have := ltn_ord j; lia.
rewrite nth_mkseq ?at_lt //; have [-> ->] := divmod_at (nth 0%N (nth [::] nodes i) f) l1.
by rewrite ltnNge leq_addr /= addKn.
Qed.
Lemma both_off (kappa : F) (x : seq F) : free x -> off (both kappa x).
Proof.
move=> ox v j h1 h2.
have l1 : (j < n2)%N by lia.
have l2 : (nb + j < n2)%N by lia.
have x0 : nt v \in dirs -> nth 0 x (v * nb + j) = 0.
  by move=> h; apply: ox; [exact: at_lt | have [-> _] := divmod_at v h2].
split=> h; rewrite nth_mkseq ?at_lt //.
  by have [-> ->] := divmod_at v l1; rewrite h2 x0.
by have [-> ->] := divmod_at v l2; rewrite ltnNge leq_addr /= addKn x0 // mulr0.
Qed.
Lemma free_lo (z : seq F) : off z -> free (glo z).
Proof.
move=> oz d hd hf; have [h1 h2] := dof_split nb0 hd.
by rewrite (divn_eq d nb) nth_glo //; have [-> //] := oz _ _ h1 h2.
Qed.
Lemma free_hi (z : seq F) : off z -> free (gup z).
Proof.
move=> oz d hd hf; have [h1 h2] := dof_split nb0 hd.
by rewrite (divn_eq d nb) nth_gup //; have [_ -> //] := oz _ _ h1 h2.
Qed.
Lemma lt_glo (z : seq F) i (f : 'I_m) : (i < n)%N -> lt (glo z) i f = lo z i f /\ lt (gup z) i f = hi z i f.
Proof.
move=> hi'; have hn := node_at hv f hi'.
by split; apply/colP => j; rewrite !mxE (nth_mkseq [::]) // nth_mkseq // ?nth_glo ?nth_gup.
Qed.
Lemma lt_axpy (a : F) (x y : seq F) i (f : 'I_m) : size x = N1 -> (i < n)%N -> lt (axpy a x y) i f = a *: lt x i f + lt y i f.
Proof.
move=> sx hi'; have hn := node_at hv f hi'; apply/colP => j.
by rewrite !mxE !(nth_mkseq [::]) // !nth_mkseq // sx at_lt.
Qed.
Lemma square x kappa q u : pairs x kappa q u ->
  bpairs (both kappa x) (kappa ^+ 2) q u (fun i d => kappa *: q i d) (fun i => kappa *: u i).
Proof.
move=> [sx ox hl hf]; split.
- exact: size_mkseq.
- exact: both_off.
- move=> i hi'; apply/(unit_loc (kappa ^+ 2) kappa _ _ _ _ _ _ hi').
  have := hl i hi'; rewrite /eig_loc addr0 => l1; split; last first.
    apply: (src_ext _ _ _ _ _ l1) => // [f|]; first by have [-> _] := both_tr kappa x f hi'.
    by rewrite scalerA mulrC.
  have z0 : loc_src (de_hdg dim p (U i) kappa) tau (fun=> 0) 0 (fun=> 0) (fun=> 0) 0.
    split=> [d|]; first by rewrite !mulmx0 subrr big1 ?oppr0 ?addr0 // => f _; rewrite mulmx0 scaler0.
    by rewrite !big1 ?scaler0 ?addr0 // => k _; rewrite mulmx0.
  apply: (src_ext _ _ _ _ _ (src_lin kappa l1 z0)) => [d||f|d|]; rewrite ?addr0 ?scaler0 //.
    by have [_ ->] := both_tr kappa x f hi'.
  by rewrite scalerA mulrA.
move=> y sy oy.
have b1 := hf _ (size_mkseq _ _) (free_lo oy); have b2 := hf _ (size_mkseq _ _) (free_hi oy).
rewrite big_split /= -[RHS]addr0; congr (_ + _).
  rewrite -[RHS](mulr0 kappa) -[X in _ = kappa * X]b1 mulr_sumr; apply: eq_bigr => i _; rewrite mulr_sumr; apply: eq_bigr => f _.
  have [<- _] := lt_glo y f (ltn_ord i); rewrite -dotvZr; congr dotv.
  rewrite (unitH i _ kappa); have := flux_lin (de_hdg dim p (U i) kappa) tau kappa (q i) (u i) (lt x i) (fun=> 0) 0 (fun=> 0) f.
  have z0 : num_flux (de_hdg dim p (U i) kappa) tau (fun=> 0) 0 (fun=> 0) f = 0.
    by rewrite /num_flux !mulmx0 !scaler0 subr0 addr0 big1 // => d _; rewrite ?mulmx0 scaler0.
  rewrite z0 => hfl; rewrite -[RHS]addr0 -hfl; apply: flux_ext => [d||]; rewrite ?addr0 //.
  by have [_ ->] := both_tr kappa x f (ltn_ord i).
rewrite -[RHS]b2; apply: eq_bigr => i _; apply: eq_bigr => f _.
have [_ <-] := lt_glo y f (ltn_ord i); congr dotv; rewrite (unitH i _ kappa); apply: flux_ext => //.
by have [-> _] := both_tr kappa x f (ltn_ord i).
Qed.
Lemma root z kappa q u r w : bpairs z (kappa ^+ 2) q u r w ->
  pairs (axpy kappa (glo z) (gup z)) kappa (fun i d => kappa *: q i d + r i d) (fun i => kappa *: u i + w i).
Proof.
move=> h; have [sz oz hl _] := h; have sg : size (glo z) = N1 by exact: size_mkseq.
have ltx i (f : 'I_m) : (i < n)%N -> lt (axpy kappa (glo z) (gup z)) i f = kappa *: lo z i f + hi z i f.
  by move=> hi'; rewrite lt_axpy //; have [-> ->] := lt_glo z f hi'.
split.
- by rewrite size_axpy.
- move=> d hd hf; rewrite nth_mkseq ?sg // (free_lo oz) // (free_hi oz) // mulr0 addr0 //.
- move=> i hi'; have /(unit_loc (kappa ^+ 2) kappa _ _ _ _ _ _ hi')[l1 l2] := hl i hi'.
  rewrite /eig_loc addr0; apply: (src_ext _ _ _ _ _ (src_lin kappa l2 l1)) => // [f|d|].
  + by rewrite ltx.
  + by rewrite scaler0 addr0.
  by rewrite scalerDr !scalerA addrC /= expr2 mulrAC.
move=> y sy oy.
have [b1 _] := pair_bal hv h (size_mkseq _ _) (both_off 0 oy).
have [_ b2] := pair_bal hv h (size_mkseq _ _) (both_off 1 oy).
rewrite -[RHS]addr0 -[X in _ = _ + X]b1 -[X in _ = X + _](mulr0 kappa) -[X in _ = kappa * X + _]b2 mulr_sumr -big_split; apply: eq_bigr => i _ /=.
rewrite mulr_sumr -big_split; apply: eq_bigr => f _ /=.
have [e1 _] := both_tr 0 y f (ltn_ord i); have [_ e2] := both_tr 1 y f (ltn_ord i).
rewrite e1 e2 scale1r -dotvZr -dotvDr !(unitH i _ kappa); congr dotv; rewrite -flux_lin.
by apply: flux_ext => //; rewrite ltx.
Qed.
(** Nonzero pairs correspond. *)
Hypothesis tau0 : 0 < tau.
Hypothesis hc : covered dirs nodes n_nodes nt.
Lemma spectrum kappa : 0 < kappa ->
  (exists z q u r w d, bpairs z (kappa ^+ 2) q u r w /\ nth 0 z d != 0) <->
  (exists x q u d, pairs x kappa q u /\ nth 0 x d != 0).
Proof.
move=> k0; split=> [[z [q [u [r [w [d [h hd]]]]]]]|[x [q [u [d [h hd]]]]]]; last first.
  have [sx _ _ _] := h.
  have dN : (d < N1)%N by rewrite ltnNge; apply: contraNN hd => hh; rewrite nth_default ?sx.
  have [h1 h2] := dof_split nb0 dN.
  exists (both kappa x), q, u, (fun i d => kappa *: q i d), (fun i => kappa *: u i), (d %/ nb * n2 + d %% nb)%N.
  split; first exact: square.
  have l1 : (d %% nb < n2)%N by lia.
  by rewrite nth_mkseq ?at_lt //; have [-> ->] := divmod_at (d %/ nb) l1; rewrite h2 -divn_eq.
have hp := root h.
have hm : pairs (axpy (- kappa) (glo z) (gup z)) (- kappa) (fun i d => - kappa *: q i d + r i d) (fun i => - kappa *: u i + w i).
  by apply: root; rewrite sqrrN.
have [sz oz _ _] := h.
have [dN|hlt] := ltnP d N; last by move: hd; rewrite nth_default ?sz ?eqxx.
have n20 : (0 < n2)%N by lia.
have [h1 h2] := dof_split n20 dN.
have [j [hj hjd]] : exists j, (j < nb)%N /\ (nth 0 (glo z) (d %/ n2 * nb + j) != 0 \/ nth 0 (gup z) (d %/ n2 * nb + j) != 0).
  have hd' := hd; rewrite (divn_eq d n2) in hd'; case: (ltnP (d %% n2) nb) => hm'.
    by exists (d %% n2)%N; split=> //; left; rewrite nth_glo.
  have hk : (d %% n2 - nb < nb)%N by rewrite ltn_subLR // addnn -mul2n.
  by exists (d %% n2 - nb)%N; split=> //; right; rewrite nth_gup // subnKC.
have hjN := at_lt h1 hj.
have nx a : nth 0 (axpy a (glo z) (gup z)) (d %/ n2 * nb + j) = a * nth 0 (glo z) (d %/ n2 * nb + j) + nth 0 (gup z) (d %/ n2 * nb + j).
  by rewrite nth_mkseq // size_mkseq.
have nm : nth 0 (axpy (- kappa) (glo z) (gup z)) (d %/ n2 * nb + j) = 0.
  apply/eqP; apply: contraT => hne.
  have [_] := pair_norm_eig dim0 unit_data hv tau0 hc hm hne; rewrite oppr_ge0 leNgt k0 //.
exists (axpy kappa (glo z) (gup z)), (fun i d => kappa *: q i d + r i d), (fun i => kappa *: u i + w i), (d %/ n2 * nb + j)%N.
split=> //; rewrite nx; move: nm hjd; rewrite nx.
move: (nth 0 (glo z) _) (nth 0 (gup z) _) => a b.
rewrite mulNr addrC => /eqP; rewrite subr_eq0 => /eqP -> hjd.
have a0 : a != 0 by case: hjd => //; rewrite mulf_eq0 negb_or => /andP[].
by rewrite -mulr2n mulrn_eq0 /= mulf_neq0 // lt0r_neq0.
Qed.
End Square.
