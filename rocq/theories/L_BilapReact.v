(** Proofs about the coupled local problems with a reaction term: matrices as arrays, and their solution. *)
From mathcomp Require Import all_ssreflect all_algebra zify ring.
From Verif Require Import M_Base L_Base M_Index L_Index M_DenseLA S_DenseLA L_DenseLA M_Lapack S_Lapack L_Lapack.
From Verif Require Import S_Hdg L_Hdg S_Tpp S_LocalSolver M_DiffusionUniform M_Diffusion S_Diffusion S_DiffusionEigs.
From Verif Require Import L_LocalBase L_LocalBlock L_LocalLink L_HdgSrc L_DiffusionUniform L_Diffusion L_BlockLink.
From Verif Require Import M_Bilaplacian S_Bilaplacian L_BiLink L_Bilaplacian L_Bilaplacian2 L_BiReact.
Set Implicit Arguments. Unset Strict Implicit. Unset Printing Implicit Defensive.
Import Order.TTheory GRing.Theory Num.Theory.
Local Open Scope ring_scope.

Section React.
Variable F : realFieldType.
Variables (dim poly_deg : nat) (tau kap nu : F) (P : bl_data F).
Hypothesis dim0 : (0 < dim)%N.
Notation D := (bl_df P).
Notation nf := (n_shape_fct dim poly_deg).
Notation nb := (n_shape_bdr dim poly_deg).
Notation L := (dim + 1)%N.
Notation nl := ((L + L) * nf)%N.
Notation second X := (drop (L * nf) X).
Notation H := (hdg_of nf nb dim (2 * dim) (df_mass D) (df_grad D) (df_bp D) (df_bb D)
  (df_normal D) (df_area D)).
Notation W := (\matrix_(i, j) df_vol D i j : 'M[F]_nf).
Notation M := (\matrix_(i, j) df_mass D i j : 'M[F]_nf).
Notation D1 := (w_problem P).

Definition brA i j : seq (nat * nat * F) :=
  [:: ((dim, L + dim)%N, - df_vol D i j); ((dim, dim), tau * (df_face_loop dim D i j).1);
      ((L + dim, L + dim)%N, kap * (tau * (df_face_loop dim D i j).1))] ++
  (flatten [seq [:: ((d, d), df_mass D i j); ((L + d, L + d)%N, df_mass D i j);
     ((dim, d), - df_grad D i j d); ((d, dim), - df_grad D i j d);
     ((L + dim, L + d)%N, kap * - df_grad D i j d); ((L + d, L + dim)%N, - df_grad D i j d);
     ((dim, d), nth 0 (df_face_loop dim D i j).2 d);
     ((L + dim, L + d)%N, kap * nth 0 (df_face_loop dim D i j).2 d)] | d <- iota 0 dim] ++
   [:: ((L + dim, dim)%N, nu * df_mass D i j)]).
Definition arr : seq F := accumulate (zeros F nl nl) (flatten [seq flatten [seq
   [seq (loc nl (e.1.1 * nf + i) (e.1.2 * nf + j), e.2) | e <- brA i j]
    | j <- iota 0 nf] | i <- iota 0 nf]).
Lemma size_arr : size arr = (nl * nl)%N.
Proof. by rewrite size_accumulate size_nseq. Qed.
Lemma brA_in i j e : e \in brA i j -> (e.1.1 < L + L)%N && (e.1.2 < L + L)%N.
Proof.
rewrite mem_cat => /orP[|].
  by rewrite !inE => /or3P[] /eqP -> /=; lia.
rewrite mem_cat => /orP[|]; last by rewrite inE => /eqP -> /=; lia.
case/flattenP => l /mapP[d]; rewrite mem_iota add0n => /andP[_ hd] ->.
by rewrite !inE => /orP[|/orP[|/orP[|/orP[|/or4P[]]]]] /eqP -> /=; lia.
Qed.
Lemma brA_ll a b i j : (a < L)%N -> (b < L)%N -> contrib2 a b (brA i j) = contrib2 a b (dfA dim tau D1 i j).
Proof.
move=> ha hb; rewrite /brA /dfA /= !contrib2_cons contrib2_cat contrib2_cons contrib2_nil !contrib2_loop !xpair_eqE.
have eb k : (L + k == b)%N = false by lia.
have ea k : (L + k == a)%N = false by lia.
rewrite !eb !ea /= ?andbF ?add0r ?addr0; congr (_ + _); apply: eq_bigr => d _.
by rewrite !contrib2_cons !contrib2_nil !xpair_eqE !eb !ea /= ?andbF ?add0r.
Qed.
Lemma brA_rr a b i j : (a < L)%N -> (b < L)%N ->
  contrib2 (L + a)%N (L + b)%N (brA i j) = (if a == dim then kap else 1) * contrib2 a b (dfA dim tau D1 i j).
Proof.
move=> ha hb; rewrite /brA /dfA /= !contrib2_cons contrib2_cat contrib2_cons contrib2_nil !contrib2_loop !xpair_eqE !eqn_add2l.
have eb k : (k <= dim)%N -> (k == L + b)%N = false by lia.
have ea k : (k <= dim)%N -> (k == L + a)%N = false by lia.
rewrite !eb // !ea // ?andbF /= !add0r !addr0 mulrDr mulr_sumr; congr (_ + _).
  by rewrite [a == dim]eq_sym; case: (dim == a); case: (dim == b); rewrite /= ?mulr0.
apply: eq_bigr => d _.
have hd : (d <= dim)%N by have := ltn_ord d; lia.
rewrite !contrib2_cons !contrib2_nil !xpair_eqE !eqn_add2l !eb // !ea // /= !add0r [a == dim]eq_sym.
case: (eqVneq dim a) => [<-|hne] /=; last by rewrite mul1r.
have -> : (d == dim :> nat) = false by have := ltn_ord d; lia.
rewrite /= !add0r !addr0 mulrDr; congr (_ + _); by case: ifP; rewrite ?mulr0.
Qed.
Lemma brA_lr a b i j : (a < L)%N -> (b < L)%N ->
  contrib2 a (L + b)%N (brA i j) = if (a == dim) && (b == dim) then - df_vol D i j else 0.
Proof.
move=> ha hb; rewrite /brA /= !contrib2_cons contrib2_cat contrib2_cons contrib2_nil !contrib2_loop !xpair_eqE !eqn_add2l.
have eb k : (k <= dim)%N -> (k == L + b)%N = false by lia.
have ea k : (L + k == a)%N = false by lia.
rewrite !eb // !ea /= ?andbF ?add0r big1 ?addr0 => [|d _]; first by rewrite ![_ == dim]eq_sym.
have hd : (d <= dim)%N by have := ltn_ord d; lia.
by rewrite !contrib2_cons contrib2_nil !xpair_eqE !eqn_add2l !eb // !ea // /= ?andbF ?add0r.
Qed.
Lemma brA_rl a b i j : (a < L)%N -> (b < L)%N -> contrib2 (L + a)%N b (brA i j) =
  if (a == dim) && (b == dim) then nu * df_mass D i j else 0.
Proof.
move=> ha hb; rewrite /brA /= !contrib2_cons contrib2_cat contrib2_cons contrib2_nil !contrib2_loop !xpair_eqE !eqn_add2l.
have ea k : (k <= dim)%N -> (k == L + a)%N = false by lia.
have eb k : (L + k == b)%N = false by lia.
rewrite !eb // !ea //= ?andbF ?add0r ?addr0 big1 ?add0r => [|d _]; first by rewrite ![_ == dim]eq_sym.
have hd : (d <= dim)%N by have := ltn_ord d; lia.
by rewrite !contrib2_cons contrib2_nil !xpair_eqE !eqn_add2l !eb // !ea // /= ?andbF ?add0r.
Qed.
Lemma arr_block (X Y : 'I_(L + L)) (i j : 'I_nf) :
  nth 0 arr (loc nl (X * nf + i) (Y * nf + j)) = rK H tau kap nu W M X Y i j.
Proof.
rewrite /arr block_entry //; last by move=> x y e _ _ /brA_in.
have le (a : 'I_L) : (a <= dim)%N by have := ltn_ord a; lia.
case: (split_ordP X) => a ->; case: (split_ordP Y) => b ->; rewrite /rK ?split_l ?split_r.
- by rewrite /= brA_ll ?dfA_contrib // mxE.
- by rewrite /= brA_lr //; case: ifP => _; rewrite !mxE.
- by rewrite /= brA_rl //; case: ifP => _; rewrite !mxE.
by rewrite /= brA_rr // dfA_contrib //; case: ifP => _; rewrite ?mul1r !mxE.
Qed.

(** ** The solution *)
Notation c := (- (kap^-1 * nu)).
Hypothesis kap0 : kap != 0.
Definition reg : Prop := forall q r u w,
  loc_src H tau r w (fun=> 0) (fun=> 0) (c *: (M *m u)) -> loc_src H tau q u (fun=> 0) (fun=> 0) (W *m w) ->
  [/\ forall d, q d = 0, u = 0, forall d, r d = 0 & w = 0].
Let s0 d : \sum_f hnu H f d *: (hE H f *m (0 : 'cV[F]_nb)) = 0.
Proof. by rewrite big1 // => f _; rewrite mulmx0 scaler0. Qed.
Let s1 : \sum_f (hE H f *m (0 : 'cV[F]_nb)) = 0.
Proof. by rewrite big1 // => f _; rewrite mulmx0. Qed.
Lemma react_scale (o m : 'cV[F]_nf) s : nu *: m + kap *: o = kap *: s <-> o = s + c *: m.
Proof.
split=> [h|->].
  apply: (scalerI kap0); apply: (addrI (nu *: m)); rewrite h scalerDr scalerA mulrN mulrA mulfV // mul1r.
  by rewrite scaleNr addrCA subrr addr0.
by rewrite scalerDr scalerA mulrN mulrA mulfV // mul1r scaleNr addrCA subrr addr0.
Qed.
Lemma reg_rsys : reg <-> (forall q r u w, rsys H tau kap nu W M q r u w -> rzero q r u w).
Proof.
split=> hr q r u w.
  move=> [h1 h2 h3 h4]; apply: hr; [split=> [d|] | split=> [d|]].
  - by rewrite -/(op_q _ _ _ _) h3 s0 oppr0 addr0.
  - rewrite -/(op_u _ _ _ _) s1 scaler0; apply/react_scale; by rewrite scaler0.
  - by rewrite -/(op_q _ _ _ _) h1 s0 oppr0 addr0.
  by rewrite -/(op_u _ _ _ _) h2 s1 scaler0 add0r.
move=> [h1 h2] [h3 h4]; apply: hr; split=> [d||d|].
- by rewrite -[LHS]/(_ - _) h3 s0 oppr0 addr0.
- by rewrite -[LHS]/(_ + _) h4 s1 scaler0 add0r.
- by rewrite -[LHS]/(_ - _) h1 s0 oppr0 addr0.
move: h2; rewrite -/(op_u _ _ _ _) s1 scaler0 => /react_scale; by rewrite scaler0.
Qed.
Lemma arr_solve gesv rhs (sq sr : 'I_dim -> 'cV[F]_nf) su sw (x y : 'I_(2 * dim) -> 'cV[F]_nb) :
  gesv_correct gesv -> reg -> size rhs = nl ->
  (forall d, qpart nf rhs d = - (\sum_f hnu H f d *: (hE H f *m x f)) + sq d) ->
  upart nf dim rhs = tau *: (\sum_f (hE H f *m x f)) + su ->
  (forall d, qpart nf (second rhs) d = - (\sum_f hnu H f d *: (hE H f *m y f)) + sr d) ->
  upart nf dim (second rhs) = kap *: (tau *: (\sum_f (hE H f *m y f)) + sw) ->
  exists X, [/\ (solve_const gesv nl 1 rhs arr).1 = Ok X, size X = nl,
    loc_src H tau (qpart nf (second X)) (upart nf dim (second X)) y sr (sw + c *: (M *m upart nf dim X))
  & loc_src H tau (qpart nf X) (upart nf dim X) x sq (W *m upart nf dim (second X) + su)].
Proof.
move=> hg /reg_rsys hr srh h1 h2 h3 h4.
have [X [hX sX [g1 g2] [g3 g4]]] := r_solve arr_block hr hg size_arr srh.
exists X; split => //.
  split=> [d|]; first by rewrite -/(op_q _ _ _ _) -h3 -g3.
  rewrite -/(op_u _ _ _ _) addrA; apply/react_scale; by rewrite g4 h4.
split=> [d|]; first by rewrite -/(op_q _ _ _ _) -h1 -g1.
by rewrite -/(op_u _ _ _ _) addrCA -h2 -g2 addrC subrK.
Qed.
Lemma arr_irregular gesv rhs : gesv_detects gesv -> size rhs = nl -> ~ reg -> (solve_const gesv nl 1 rhs arr).1 = Throw.
Proof.
by move=> hg sr hr; apply: (r_irregular arr_block hg size_arr sr) => h; apply: hr; apply/reg_rsys.
Qed.
End React.
