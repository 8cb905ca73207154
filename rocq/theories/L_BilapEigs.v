(** Proofs about M_BilapEigs: from the arrays to the equations. *)
From mathcomp Require Import all_ssreflect all_algebra zify ring.
From Verif Require Import M_Base L_Base M_Index L_Index M_DenseLA S_DenseLA L_DenseLA M_Lapack S_Lapack L_Lapack.
From Verif Require Import S_Hdg L_Hdg S_Tpp S_LocalSolver M_DiffusionUniform M_Diffusion S_Diffusion S_DiffusionEigs.
From Verif Require Import L_LocalBase L_LocalBlock L_LocalLink L_HdgSrc L_DiffusionUniform L_Diffusion L_BlockLink.
From Verif Require Import M_Bilaplacian S_Bilaplacian L_BiLink L_Bilaplacian L_Bilaplacian2 L_BiReact L_BilapReact.
From Verif Require Import S_BiReact M_BilapEigs.
Set Implicit Arguments. Unset Strict Implicit. Unset Printing Implicit Defensive.
Import Order.TTheory GRing.Theory Num.Theory.
Local Open Scope ring_scope.

Section Eigs.
Variable F : realFieldType.
Variable gesv : nat -> nat -> seq F -> seq F -> sv_result F.
Variables (dim poly_deg : nat) (tau eig : F) (P : bl_data F).
Hypothesis dim0 : (0 < dim)%N.
Notation D := (bl_df P).
Notation nf := (n_shape_fct dim poly_deg).
Notation nb := (n_shape_bdr dim poly_deg).
Notation L := (dim + 1)%N.
Notation nl := ((L + L) * nf)%N.
Notation second X := (drop (L * nf) X).
Notation H := (hdg_of nf nb dim (2 * dim) (df_mass D) (df_grad D) (df_bp D) (df_bb D)
  (df_normal D) (df_area D)).
Notation W := (\matrix_(i, j) df_vol D i j : 'M[F]_nf).
Notation M := (\matrix_(i, j) df_mass D i j : 'M[F]_nf).

Lemma be_assembleE : be_assemble_loc_matrix dim poly_deg tau D eig = arr dim poly_deg tau 1 (- eig) P.
Proof.
rewrite /be_assemble_loc_matrix /arr bl_nl // bl_lap // bl_nf //.
apply: for_acc => i s _; apply: for_acc => j t _; rewrite /brA !map_cat map_flatten -map_comp.
rewrite !accumulate_cat /= -!at_second mul1r mulNr; congr add_at; apply: for_acc => d r _ /=.
by rewrite -!at_second !mul1r.
Qed.

Lemma be_divideE rhs : be_divide gesv dim poly_deg tau D eig rhs =
  (solve_const gesv nl 1 rhs (arr dim poly_deg tau 1 (- eig) P)).1.
Proof. by rewrite /be_divide bl_nl // be_assembleE. Qed.
Let c1 : - ((1 : F)^-1 * - eig) = eig. Proof. by rewrite invr1 mul1r opprK. Qed.
Section Solve.
Hypotheses (hg : gesv_correct gesv) (hr : reg dim poly_deg tau 1 (- eig) P).
Lemma be_divide_ok rhs (x y : 'I_(2 * dim) -> 'cV[F]_nb) sw : size rhs = nl ->
  (forall d, qpart nf rhs d = - (\sum_f hnu H f d *: (hE H f *m x f))) ->
  upart nf dim rhs = tau *: (\sum_f (hE H f *m x f)) ->
  (forall d, qpart nf (second rhs) d = - (\sum_f hnu H f d *: (hE H f *m y f))) ->
  upart nf dim (second rhs) = tau *: (\sum_f (hE H f *m y f)) + sw ->
  exists X, [/\ be_divide gesv dim poly_deg tau D eig rhs = Ok X, size X = nl,
    loc_src H tau (qpart nf (second X)) (upart nf dim (second X)) y (fun=> 0) (sw + eig *: (M *m upart nf dim X))
  & loc_src H tau (qpart nf X) (upart nf dim X) x (fun=> 0) (W *m upart nf dim (second X) + 0)].
Proof.
move=> sr h1 h2 h3 h4.
have [|d||d||X [hX sX l1 l2]] := arr_solve dim0 (oner_neq0 F) (sq := fun=> 0) (sr := fun=> 0) (su := 0) (sw := sw)
  (x := x) (y := y) (rhs := rhs) hg hr.
- by [].
- by rewrite h1 addr0.
- by rewrite h2 addr0.
- by rewrite h3 addr0.
- by rewrite h4 scale1r.
by exists X; rewrite be_divideE; split=> //; rewrite -{1}c1.
Qed.
Lemma be_solve_ok lambda : is_trace (2 * dim) (2 * nb) lambda ->
  exists rhs X, [/\ bl_rhs_lambda dim poly_deg tau D lambda = Ok rhs, be_divide gesv dim poly_deg tau D eig rhs = Ok X, size X = nl,
    loc_src H tau (qpart nf (second X)) (upart nf dim (second X)) (tr nb (upper nb lambda)) (fun=> 0)
      (0 + eig *: (M *m upart nf dim X))
  & loc_src H tau (qpart nf X) (upart nf dim X) (tr nb (lower nb lambda)) (fun=> 0) (W *m upart nf dim (second X) + 0)].
Proof.
move=> hl; exists (bl_rhs_lambda_loop dim poly_deg tau D lambda).
have [l1 l2 l3 l4] := halves_parts (@rhs_halves F dim poly_deg tau P dim0 lambda).
have [|d||d||X [h1 h2 h3 h4]] := @be_divide_ok (bl_rhs_lambda_loop dim poly_deg tau D lambda)
  (tr nb (lower nb lambda)) (tr nb (upper nb lambda)) 0.
- exact: (bl_size_rhs poly_deg tau P dim0 lambda).
- by rewrite l1 df_rhs_q.
- by rewrite l2 df_rhs_u.
- by rewrite l3 df_rhs_q.
- by rewrite l4 df_rhs_u addr0.
by exists X; split=> //; rewrite /bl_rhs_lambda (iffRL (bl_lambda_okP _ _ _) hl).
Qed.
End Solve.
Lemma be_irregular lambda : gesv_detects gesv -> ~ reg dim poly_deg tau 1 (- eig) P -> is_trace (2 * dim) (2 * nb) lambda ->
  exists2 rhs, bl_rhs_lambda dim poly_deg tau D lambda = Ok rhs & be_divide gesv dim poly_deg tau D eig rhs = Throw.
Proof.
move=> hd hr hl; exists (bl_rhs_lambda_loop dim poly_deg tau D lambda).
  by rewrite /bl_rhs_lambda (iffRL (bl_lambda_okP _ _ _) hl).
rewrite be_divideE arr_irregular //; first exact: oner_neq0.
exact: (bl_size_rhs poly_deg tau P dim0 lambda).
Qed.

(** The right-hand side of the third system. *)
Lemma be_third (X : seq F) a b : size X = nl ->
  let rhs := for_ (nl %/ 2 + dim * nf) (fun i c => upd c i 0)
    (for_ nf (fun i c => upd c (nl %/ 2 + dim * nf + i) (a * nth 0 c (dim * nf + i) * b)) X) in
  [/\ size rhs = nl, forall d : 'I_dim, qpart nf rhs d = 0 :> 'cV[F]_nf, upart nf dim rhs = 0 :> 'cV[F]_nf,
      forall d : 'I_dim, qpart nf (second rhs) d = 0 :> 'cV[F]_nf
    & upart nf dim (second rhs) = (a * b) *: upart nf dim X :> 'cV[F]_nf].
Proof.
have hl2 : (nl %/ 2 = L * nf)%N by rewrite mulnDl addnn -mul2n mulKn.
move=> sX /=; rewrite hl2.
set c1' := for_ nf _ X; have s1 : size c1' = nl.
  by apply: (@for_inv _ (fun _ c => size c = nl)) => // i c _ hc; rewrite size_upd.
have hn : (L * nf + dim * nf + nf = nl)%N by lia.
have inv : forall n, (n <= nf)%N -> forall k, nth 0 (for_ n (fun i c => upd c (L * nf + dim * nf + i) (a * nth 0 c (dim * nf + i) * b)) X) k =
   if (L * nf + dim * nf <= k < L * nf + dim * nf + n)%N then a * nth 0 X (k - L * nf)%N * b else nth 0 X k.
  elim=> [|n IH] hnf k; first by case: ifP => //; lia.
  rewrite for_S; set c := for_ n _ X; have sc : size c = nl.
    by apply: (@for_inv _ (fun _ c => size c = nl)) => // i c' _ hc; rewrite size_upd.
  rewrite nth_upd sc !IH ?(ltnW hnf) //.
  case: eqP => [->|hk] /=.
    rewrite (_ : (L * nf + dim * nf + n < nl)%N); last by lia.
    rewrite (_ : (_ <= _ < _)%N = false); last by lia.
    rewrite (_ : (_ <= _ < _)%N = true); last by lia.
    by congr (_ * nth _ _ _ * _); lia.
  rewrite (_ : (L * nf + dim * nf <= k < L * nf + dim * nf + n.+1)%N = (L * nf + dim * nf <= k < L * nf + dim * nf + n)%N) //; by lia.
set rhs := for_ _ _ c1'.
have sr : size rhs = nl by apply: (@for_inv _ (fun _ c => size c = nl)) => // i c _ hc; rewrite size_upd.
have hz k : (k < L * nf + dim * nf)%N -> nth 0 rhs k = 0.
  by move=> hk; rewrite /rhs (@nth_for_upd F 0 _ (fun _ _ => 0)) ?s1 ?hk //; lia.
have pos k i : (k <= dim)%N -> (i < nf)%N -> (k * nf + i < L * nf)%N by move=> hk hi; apply: block_lt => //; lia.
split=> //.
- by move=> d; apply/colP => i; rewrite !mxE hz //; have := @pos d i (ltnW (ltn_ord d)) (ltn_ord i); lia.
- by apply/colP => i; rewrite !mxE hz //; have := @pos dim i (leqnn _) (ltn_ord i); lia.
- move=> d; apply/colP => i; rewrite !mxE nth_drop hz // ltn_add2l; exact: block_lt.
apply/colP => i; rewrite !mxE nth_drop addnA /rhs.
rewrite (@nth_for_assign_out F 0 (L * nf + dim * nf) id (fun _ _ => 0)); last by move=> k hk /=; lia.
rewrite /c1' inv // leq_addr ltn_add2l ltn_ord /= -addnA addKn mulrAC //.
Qed.
End Eigs.

(** ** Adding fluxes *)
Section Add.
Variable F : realFieldType.
Variables (dim poly_deg : nat) (dirs laps : seq nat) (tau : F) (D : df_data F).
Lemma be_addE X out : be_add dim poly_deg dirs laps tau D X out =
  bl_write dirs laps D (fun i j => lambda_at out i j + be_bdr_flux dim poly_deg tau D X i j) out.
Proof.
rewrite /be_add /bl_write; move: (be_bdr_flux _ _ _ _ _) => g.
set b1 := (X in for_ _ X out = _); set b2 := (X in _ = for_ _ X out).
have row i o : (i < size o)%N -> nth [::] o i = nth [::] out i -> forall n, (n <= size (nth [::] out i))%N ->
  for_ n (fun j out0 => add_at2 out0 i j (g i j)) o = for_ n (fun j out0 => upd2 out0 i j (lambda_at out i j + g i j)) o.
  move=> hi e; elim=> [//|n IH] hn; rewrite !for_S IH 1?ltnW //.
  rewrite /add_at2 /upd2 /add_at.
  set o' := for_ n _ o; have -> : nth 0 (nth [::] o' i) n = lambda_at out i n; last by [].
  have -> : o' = for_ n (fun j out0 => upd2 out0 i (0 + j) (lambda_at out i j + g i j)) o by [].
  rewrite row_loop // nth_upd eqxx hi /= nth_row ?e; last by rewrite add0n ltnW.
  by rewrite add0n ltnn andbF.
have keep i o k : (k != i) -> nth [::] (b2 i o) k = nth [::] o k.
  have u n (f : nat -> nat) (h : nat -> F) (o' : seq (seq F)) : k != i ->
      nth [::] (for_ n (fun j out => upd2 out i (f j) (h j)) o') k = nth [::] o' k.
    move=> hk; elim: n => [//|n IH]; by rewrite for_S /upd2 nth_upd (negbTE hk) IH.
  by move=> hk; rewrite /b2; case: ifP => _; case: ifP => _; rewrite ?u.
have sz i o : size (b2 i o) = size o.
  have u n (f : nat -> nat) (h : nat -> F) (o' : seq (seq F)) :
      size (for_ n (fun j out => upd2 out i (f j) (h j)) o') = size o'.
    elim: n => [//|n IH]; by rewrite for_S /upd2 size_upd IH.
  by rewrite /b2; case: ifP => _; case: ifP => _; rewrite ?u.
have all n : (n <= size out)%N -> [/\ for_ n b1 out = for_ n b2 out, size (for_ n b2 out) = size out &
    forall k, (n <= k)%N -> nth [::] (for_ n b2 out) k = nth [::] out k].
  elim: n => [//|n IH] hn; have [e s h] := IH (ltnW hn); rewrite !for_S e sz s; split=> //.
    move: (for_ n b2 out) s (h n (leqnn n)) => o s' en; rewrite /b1 /b2.
    have r := row n o _ en _ (eq_leq (congr1 size en)); rewrite r ?s' //.
  by move=> k hk; rewrite keep ?h ?(ltnW hk) // gtn_eqF.
by have [] := all _ (leqnn _).
Qed.
End Add.
