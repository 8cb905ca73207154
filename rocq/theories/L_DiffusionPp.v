(** DiffusionPostprocess: the post-processing. *)
From mathcomp Require Import all_ssreflect all_algebra zify ring.
From Verif Require Import M_Base L_Base M_Index L_Index M_DenseLA S_DenseLA L_DenseLA M_Lapack S_Lapack S_Hdg L_Hdg S_Tpp L_Tens.
From Verif Require Import M_DiffusionUniform M_Diffusion S_LocalSolver S_Diffusion S_TppGeo S_Gradient M_DiffusionPp S_DiffusionPp.
From Verif Require Import L_LocalBase L_LocalLink L_DiffusionUniform L_DiffusionUniform2 L_TppGeo L_Diffusion2 L_Diffusion3 L_Gradient.
Set Implicit Arguments. Unset Strict Implicit. Unset Printing Implicit Defensive.
Import Order.TTheory GRing.Theory Num.Theory.
Local Open Scope ring_scope.

Lemma n_shape_ppE dim p : n_shape_pp dim p = ((p + 1 + 1) ^ dim)%N.
Proof. by rewrite /n_shape_pp hc_powE -addnA. Qed.

Section Arrays.
Variable F : realFieldType.
(** A matrix filled entry by entry. *)
Lemma fill_matrix n (f : nat -> nat -> F) A : is_mat n n A ->
  let B := for_ n (fun i A => for_ n (fun j A => mset n A i j (f i j)) A) A in
  is_mat n n B /\ forall i j, (i < n)%N -> (j < n)%N -> mget n B i j = f i j.
Proof.
move=> hA.
pose inv (k l : nat) (B : seq F) := is_mat n n B /\ forall i j, (i < n)%N -> (j < n)%N ->
  (i < k)%N || (i == k) && (j < l)%N -> mget n B i j = f i j.
have step k B : (k < n)%N -> inv k 0%N B -> inv k n (for_ n (fun j A => mset n A k j (f k j)) B).
  move=> hk hB; apply: (for_inv (P := inv k)) => // l C hl [h1 h2]; split; first exact: is_mat_mset.
  move=> i j hi hj hij; rewrite (mget_mset _ h1) //.
  by case: ifP => [/andP[/eqP -> /eqP ->] //|hne]; apply: h2 => //; move: hij hne; lia.
have h : inv n 0%N (for_ n (fun i A => for_ n (fun j A => mset n A i j (f i j)) A) A).
  apply: (for_inv (P := fun k => inv k 0%N)) => [|k B hk hB]; first by split=> // i j _ _; rewrite ltn0 andbF.
  have [h1 h2] := step k B hk hB; split=> // i j hi hj hij; apply: h2 => //; move: hij; lia.
by case: h => h1 h2; split=> // i j hi hj; apply: h2 => //; rewrite hi.
Qed.
End Arrays.

Section Post.
Variable F : realFieldType.
Variables (dim p : nat) (S : pp_setting F dim) (P : pp_data F).
Hypotheses (dim0 : (0 < dim)%N) (hS : setting_ok p S P).
Notation nf := ((p + 1) ^ dim)%N.
Notation npp := ((p + 1 + 1) ^ dim)%N.
Notation one := (cube_one F dim (p + 1)).
Implicit Types (q : 'I_dim -> 'cV[F]_nf) (u : 'cV[F]_nf) (v w : 'cV[F]_npp).

Lemma setting_data : diffusion_data dim p (pp_df P).
Proof.
case: hS => hb hg [h1 h2] _ [h3 _].
exists (st_b S), (st_Q S), (st_xs S), (st_ws S), (st_kappa S), (st_geo S); split=> //.
case: hb => b0 hs ho; split=> [//|i hi|i j hi hj].
  by apply: hs; lia.
by apply: ho; lia.
Qed.
Let hb : orthonormal_basis (p + 1 + 1) (st_b S). Proof. by case: hS => h1 _ _ _ _. Qed.
Let hg : geo_ok (st_geo S). Proof. by case: hS => _ h1 _ _ _. Qed.
Let hq : quad_ok (p + 1 + 1) (st_b S) (st_Qp S) (st_xp S) (st_wp S). Proof. by case: hS => _ _ _ [h1 _] _. Qed.
Let hc s : (s < st_Qp S ^ dim)%N -> 0 < st_coef S s. Proof. by case: hS => _ _ _ [_ h1] _; exact: h1. Qed.
Let hP : pp_contract p (st_b S) (st_Qp S) (st_xp S) (st_wp S) (st_coef S) (st_geo S) P. Proof. by case: hS => _ _ _ _ [_ h1]. Qed.
Notation A := (@stiff F dim (p + 1) (st_Qp S) (st_b S) (st_xp S) (st_wp S) (st_geo S) (st_coef S)).
Notation area := (eg_area (st_geo S)).
Let a0 : 0 < area. Proof. by case: hg. Qed.
Let npp0 : (0 < npp)%N. Proof. by rewrite expn_gt0 addn1. Qed.
Let nf0 : (0 < nf)%N. Proof. by rewrite expn_gt0 addn1. Qed.
Let o : 'I_npp := Ordinal npp0.
Let z : 'I_nf := Ordinal nf0.

Definition gradm (d : 'I_dim) : 'M[F]_(npp, nf) := \matrix_(i, j) pp_grad P i j d.
Lemma vol00 : pp_vol00 P = area.
Proof.
case: hP => _ -> _; have := @volE F dim (p + 1) (st_b S) hb o o; rewrite eqxx => ->; exact: mulr1.
Qed.
Lemma gradmE d (w : 'cV[F]_npp) (x : 'cV[F]_nf) : dotv w (gradm d *m x) =
  area * (\sum_(s < st_Qp S ^ dim) quad_weight (st_Qp S) (st_wp S) dim s *
    (fn_grad (st_b S) (st_Qp S) (st_xp S) (st_geo S) w d s * fn_at (st_b S) (st_Qp S) (st_xp S) x s)).
Proof.
have e (i : 'I_npp) (j : 'I_nf) : gradm d i j = area * (\sum_(s < st_Qp S ^ dim) quad_weight (st_Qp S) (st_wp S) dim s *
    (grad_at (p + 1 + 1) (st_b S) (st_Qp S) (st_xp S) (st_geo S) i d s * shape_at (p + 1) (st_b S) (st_Qp S) (st_xp S) dim j s)).
  have m0' : (0 < p + 1)%N by rewrite addn1.
  rewrite mxE; case: hP => _ _ ->; congr (_ * _).
  under eq_bigr => k _ do rewrite (mixed_quad hb hq (leq_addr _ _) m0') mulr_sumr.
  rewrite exchange_big; apply: eq_bigr => s _; rewrite /grad_at mulr_suml mulr_sumr.
  by apply: eq_bigr => k _; move: (invmx _ _ _) (dshape_at _ _ _ _ _ _ _ _) => x1 x2; ring.
rewrite /dotv; under eq_bigr => i _.
  rewrite mxE mulr_sumr; under eq_bigr => j _ do rewrite e mulr_sumr mulr_suml mulr_sumr.
  rewrite exchange_big /=; over.
rewrite exchange_big /= mulr_sumr; apply: eq_bigr => s _.
rewrite /fn_grad /fn_at mulr_suml !mulr_sumr; apply: eq_bigr => i _; rewrite !mulr_sumr; apply: eq_bigr => j _.
by rewrite -mulr_sumr -/(grad_at _ _ _ _ _ _ _ _); move: (grad_at _ _ _ _ _ _ _ _) (shape_at _ _ _ _ _ _ _) => x1 x2; ring.
Qed.
Lemma gradm_one d (x : 'cV[F]_nf) : dotv one (gradm d *m x) = 0.
Proof.
rewrite gradmE big1 ?mulr0 // => s _; by rewrite (fngrad_one _ _ _ dim0 hb) mul0r mulr0.
Qed.
Lemma dotv_one v : dotv one v = v o 0.
Proof.
rewrite /dotv (bigD1 o) //= big1 ?addr0 ?mxE ?mul1r // => i hi.
by rewrite mxE (negbTE (hi : (i : nat) != 0%N)) mul0r.
Qed.

(** The matrix of the code: the stiffness matrix with the entry of the constants replaced. *)
Definition K : 'M[F]_npp := A + area *: (one *m one^T).
Lemma K_mul v : K *m v = A *m v + (area * v o 0) *: one.
Proof.
rewrite mulmxDl -scalemxAl -mulmxA -scalerA; congr (_ + _ *: _).
apply/colP => i; rewrite [LHS]mxE big_ord1 [RHS]mxE mulrC; congr (_ * _).
by rewrite -dotv_one /dotv mxE; apply: eq_bigr => j _; rewrite mxE.
Qed.
Lemma K_kernel v : K *m v = 0 -> v = 0.
Proof.
move=> h; have h0 : dotv v (A *m v) + area * (v o 0 * v o 0) = 0.
  have := congr1 (dotv v) h; rewrite K_mul dotvDr dotvZr dotv0r => <-.
  by rewrite [dotv v one]dotvC dotv_one mulrA.
have hA := stiff_ge0 hq hg hc v.
have hv : 0 <= v o 0 * v o 0 by rewrite -expr2 sqr_ge0.
have [h1 h2] : dotv v (A *m v) = 0 /\ v o 0 * v o 0 = 0.
  have ha := mulr_ge0 (ltW a0) hv.
  by move/eqP: h0; rewrite (paddr_eq0 hA ha) mulf_eq0 (gt_eqF a0) /= => /andP[/eqP -> /eqP ->].
have [c ec] := stiff_eq0 dim0 hb hq hg hc h1.
move/eqP: h2; rewrite mulf_eq0 orbb => /eqP h2.
have : c = 0 by move: h2; rewrite ec mxE mxE mulr1.
by rewrite ec => ->; rewrite scale0r.
Qed.
Lemma K_unit : K \in unitmx.
Proof. by apply: kernel_unit => v; exact: K_kernel. Qed.
Lemma post_matrix : is_mat npp npp (pp_matrix dim p P) /\ mx_of npp npp (pp_matrix dim p P) = K.
Proof.
have h0 : is_mat npp npp (zeros F npp npp) by rewrite /is_mat size_nseq.
have [h1 h2] := fill_matrix (pp_stiff P) h0.
rewrite /pp_matrix n_shape_ppE /=; split; first exact: is_mat_mset.
have row (i j : 'I_npp) : (i == 0%N :> nat) || (j == 0%N :> nat) -> A i j = 0.
  have hA1 := stiff_one (st_Qp S) (st_xp S) (st_wp S) (st_geo S) dim0 hb (st_coef S).
  have col (k : 'I_npp) : A k o = 0.
    have /colP/(_ k) := hA1; rewrite [RHS]mxE mxE (bigD1 o) //= [one _ _]mxE mulr1 big1 ?addr0 // => l hl.
    by rewrite [one _ _]mxE (negbTE (hl : (l : nat) != 0%N)) mulr0.
  case/orP => /eqP h; last by rewrite (_ : j = o) //; apply: val_inj.
  rewrite (_ : i = o); last exact: val_inj.
  by rewrite -stiff_sym mxE col.
apply/matrixP => i j; rewrite [LHS]mxE.
rewrite -[nth _ _ _]/(mget npp _ i j) (mget_mset _ h1) // h2 //.
rewrite [RHS]mxE [X in _ + X]mxE [(one *m _) _ _]mxE big_ord1 [one^T _ _]mxE ![one _ _]mxE.
case: (eqVneq (i : nat) 0%N) => hi; case: (eqVneq (j : nat) 0%N) => hj /=;
  rewrite ?mulr0 ?mul0r ?mulr0 ?mulr1 ?addr0; last first.
- by case: hP => -> _ _; rewrite mxE.
- by case: hP => -> _ _; rewrite mxE.
- by case: hP => -> _ _; rewrite mxE.
by rewrite row ?hi ?eqxx // add0r vol00.
Qed.
Lemma post_vector X : is_mat npp 1 (pp_vector dim p P X) /\
  mx_of npp 1 (pp_vector dim p P X) = - (\sum_d gradm d *m qpart nf X d) + (area * upart nf dim X z 0) *: one.
Proof.
rewrite /pp_vector n_shape_ppE (n_shape_fctE p dim0).
pose evs i := flatten [seq flatten [seq [:: (i, - (nth 0 X (d * nf + j) * pp_grad P i j d))] | d <- iota 0 dim] | j <- iota 0 nf].
have -> : for_ npp (fun i a => for_ nf (fun j a => for_ dim (fun d a =>
      add_at a i (- (nth 0 X (d * nf + j) * pp_grad P i j d))) a) a) (zeros F npp 1) =
    accumulate (zeros F npp 1) (flatten [seq evs i | i <- iota 0 npp]).
  apply: for_acc => i s hi; apply: for_acc => j t hj; exact: for_acc.
have hz : size (zeros F npp 1) = npp by rewrite size_nseq muln1.
split; first by rewrite /is_mat size_upd size_accumulate hz muln1.
apply/colP => i; rewrite [LHS]mxE mul0n add0n nth_upd size_accumulate hz npp0 andbT.
rewrite [RHS]mxE [X in _ = X + _]mxE summxE [X in _ = _ + X]mxE [one _ _]mxE.
have hent : nth 0 (accumulate (zeros F npp 1) (flatten [seq evs k | k <- iota 0 npp])) i =
    - (\sum_d (gradm d *m qpart nf X d) i 0).
  rewrite nth_contrib ?hz // nth_nseq if_same add0r contrib_loop (sum_ord1 (i := i)) => [|k hk]; last first.
    rewrite /evs contrib_loop big1 // => j _; rewrite contrib_loop big1 // => d _.
    by rewrite contrib_cons contrib_nil (negbTE hk) addr0.
  rewrite /evs contrib_loop -sumrN.
  transitivity (\sum_(j < nf) \sum_(d < dim) - (nth 0 X (d * nf + j) * pp_grad P i j d)).
    by apply: eq_bigr => j _; rewrite contrib_loop; apply: eq_bigr => d _; rewrite contrib_cons contrib_nil eqxx addr0.
  rewrite exchange_big /=; apply: eq_bigr => d _; rewrite sumrN mxE; congr (- _).
  by apply: eq_bigr => j _; rewrite !mxE mulrC.
case: eqP => hi; last by rewrite mulr0 addr0 hent.
have {hent}-> : - (\sum_d (gradm d *m qpart nf X d) i 0) = 0.
  rewrite big1 ?oppr0 // => d _; rewrite (_ : i = o); last exact: val_inj.
  by rewrite -dotv_one gradm_one.
by rewrite add0r mulr1 vol00 mxE addn0 mulrC.
Qed.

(** The division succeeds, and its result is the post-processed solution. *)
Lemma post_system q u v : postprocessed P q u v <->
  K *m v = - (\sum_d gradm d *m q d) + (area * u z 0) *: one.
Proof.
have c0 n (x : 'cV[F]_n) (k : 'I_n) : nth 0 (coeffs_of x) k = x k 0.
  by rewrite /coeffs_of (nth_map k) ?size_enum_ord // nth_ord_enum.
have eA (i : 'I_npp) : (A *m v) i 0 = \sum_(j < npp) pp_stiff P i j * v j 0.
  by rewrite mxE; apply: eq_bigr => j _; case: hP => -> _ _; rewrite mxE.
have eG (i : 'I_npp) : (- (\sum_d gradm d *m q d)) i 0 = - (\sum_(d < dim) \sum_(j < nf) pp_grad P i j d * q d j 0).
  rewrite mxE summxE; congr (- _); apply: eq_bigr => d _; rewrite mxE; apply: eq_bigr => j _; by rewrite mxE.
rewrite K_mul /postprocessed -[0%N]/(nat_of_ord o) c0 -[nat_of_ord o]/(nat_of_ord z) c0; split=> [[h1 h2]|h].
  rewrite h1; congr (_ + _); apply/colP => i; rewrite eA eG; exact: h2.
have h1 : v o 0 = u z 0.
  have := congr1 (dotv one) h; rewrite !dotvDr !dotvZr.
  have -> : dotv one (A *m v) = 0.
    have -> : dotv one (A *m v) = dotv (A *m one) v by rewrite dotv_mxl stiff_sym.
    by rewrite stiff_one // dotv0l.
  have -> : dotv one (- (\sum_d gradm d *m q d)) = 0.
    by rewrite dotvNr dotv_sumr big1 ?oppr0 // => d _; rewrite gradm_one.
  rewrite !add0r dotv_one [one _ _]mxE !mulr1 => /(mulfI (lt0r_neq0 a0)); exact.
split=> // i; rewrite -eA -eG; have := h; rewrite h1 => /addIr ->; done.
Qed.
End Post.
