(** Proofs about M_AdvReact: from the arrays to the local problem. *)
From mathcomp Require Import all_ssreflect all_algebra zify ring.
From Verif Require Import M_Base L_Base M_Index L_Index M_DenseLA S_DenseLA L_DenseLA M_Lapack S_Lapack L_Lapack.
From Verif Require Import S_Hdg L_Hdg S_Tpp S_LocalSolver M_DiffusionUniform M_Diffusion S_Diffusion.
From Verif Require Import L_LocalBase L_LocalBlock L_LocalLink L_HdgSrc L_DiffusionUniform L_Diffusion.
From Verif Require Import S_DiffusionParab L_DiffusionParab L_Theta L_BlockLink S_DiffusionEigs M_AdvReact S_AdvReact L_ArHdg.
Set Implicit Arguments. Unset Strict Implicit. Unset Printing Implicit Defensive.
Import Order.TTheory GRing.Theory Num.Theory.
Local Open Scope ring_scope.

Section AdvReact.
Variable F : realFieldType.
Variable gesv : nat -> nat -> seq F -> seq F -> sv_result F.
Variables (dim poly_deg : nat) (dirs : seq nat) (tau : F) (P : ar_data F) (t : F).
Notation nf := (n_shape_fct dim poly_deg).
Notation nb := (n_shape_bdr dim poly_deg).
Notation nl := (n_loc_dofs dim poly_deg).
Notation D := (ar_df P t).
Notation K := (ar_assemble_loc_matrix dim poly_deg tau P t).
Notation mask := (face_dirichlet dirs D).
Notation H := (hdg_of nf nb dim (2 * dim) (df_vol D) (df_grad D) (df_bp D) (df_bb D)
  (df_normal D) (df_area D)).
Definition arA_ (d : 'I_dim) : 'M[F]_nf := \matrix_(i, j) ar_adv P 0 i j d.
Definition arR_ : 'M[F]_nf := \matrix_(i, j) ar_react P t i j.
Notation aloc := (adv_loc H tau arA_ arR_).

Definition arK i j : seq (nat * nat * F) :=
  ((dim, dim), tau * (df_face_loop dim D i j).1 + ar_react P t i j) ::
  flatten [seq [:: ((d, d), df_vol D i j); ((dim, d), - df_grad D i j d); ((d, dim), - df_grad D i j d);
                   ((dim, d), nth 0 (df_face_loop dim D i j).2 d); ((d, dim), - ar_adv P 0 i j d)] | d <- iota 0 dim].
Lemma ar_assembleE : K = accumulate (zeros F nl nl) (flatten [seq flatten [seq
   [seq (loc nl (e.1.1 * nf + i) (e.1.2 * nf + j), e.2) | e <- arK i j]
    | j <- iota 0 nf] | i <- iota 0 nf]).
Proof.
apply: for_acc => i s _; apply: for_acc => j r _; rewrite /arK map_cons map_flatten -map_comp.
rewrite -cat1s accumulate_cat /=; exact: for_acc.
Qed.
Lemma ar_size_K : size K = (nl * nl)%N.
Proof. by rewrite ar_assembleE size_accumulate size_nseq. Qed.
Lemma arK_in i j e : e \in arK i j -> (e.1.1 < dim + 1)%N && (e.1.2 < dim + 1)%N.
Proof.
rewrite inE => /orP[/eqP -> /=|]; first by lia.
case/flattenP => l /mapP[d]; rewrite mem_iota add0n => /andP[_ hd] ->.
by rewrite !inE => /orP[|/or4P[]] /eqP -> /=; lia.
Qed.

(** The blocks of the matrix. *)
Definition aK (X Y : 'I_(dim + 1)) : 'M[F]_nf :=
  match insub (X : nat) : option 'I_dim, insub (Y : nat) : option 'I_dim with
  | Some d, Some e => if d == e then hM H else 0
  | Some d, None => - hD H d - arA_ d
  | None, Some e => - hD H e + \sum_f hnu H f e *: hB H f
  | None, None => tau *: (\sum_f hB H f) + arR_
  end.
Lemma ar_block (X Y : 'I_(dim + 1)) (i j : 'I_nf) :
  nth 0 K (loc nl (X * nf + i) (Y * nf + j)) = aK X Y i j.
Proof.
case: X => X hX'; case: Y => Y hY'; rewrite /=; have hX : (X <= dim)%N by lia. have hY : (Y <= dim)%N by lia.
rewrite ar_assembleE (@block_entry _ (dim + 1) nf arK X Y i j) //; last first.
  by move=> x y e _ _ /arK_in.
rewrite /arK contrib2_cons contrib2_loop !xpair_eqE.
under eq_bigr => d _ do rewrite !contrib2_cons contrib2_nil !xpair_eqE addr0.
rewrite /aK /=; case: (ltnP X dim) => hXd.
  have hXn : (dim == X) = false by lia.
  rewrite hXn /= add0r (insubT (fun x => x < dim)%N hXd) (sum_ord1 (i := Ordinal hXd)) => [|d hne].
    rewrite !eqxx /= !add0r; case: (ltnP Y dim) => hYd.
      rewrite (insubT (fun x => x < dim)%N hYd) -val_eqE /=.
      have -> : (dim == Y) = false by lia.
      by rewrite !addr0; case: eqP => _; rewrite ?mxE.
    have eY : Y = dim by lia.
    by rewrite insubF ?ltnNge ?hYd // eY eqxx (ltn_eqF hXd) add0r !mxE.
  by rewrite (negbTE hne) /= !addr0.
have eX : X = dim by lia.
rewrite insubF ?ltnNge ?hXd // eX eqxx /=; case: (ltnP Y dim) => hYd.
  rewrite (insubT (fun x => x < dim)%N hYd) !mxE.
  have -> : (dim == Y) = false by lia.
  rewrite add0r (sum_ord1 (i := Ordinal hYd)) => [|d hne].
    rewrite eqxx /= (ltn_eqF hYd) /= !add0r !addr0 face_loop2 // summxE; congr (_ + _).
    by apply: eq_bigr => f _; rewrite !mxE.
  by rewrite (negbTE hne) (ltn_eqF (ltn_ord d)) /= !addr0.
have eY : Y = dim by lia.
rewrite eY eqxx insubF ?ltnn // big1 ?add0r ?addr0 => [|d _].
  rewrite face_loopE /= [in RHS]mxE [in RHS]mxE summxE [X in _ = _ + X]mxE.
  congr (_ * _ + _); apply: eq_bigr => f _.
  by rewrite mxE.
by rewrite (ltn_eqF (ltn_ord d)) /= !addr0.
Qed.

Lemma aK_q (v : 'I_(dim + 1) -> 'cV[F]_nf) (d : 'I_dim) :
  \sum_Y aK (lshift 1 d) Y *m v Y = op_q H (fun e => v (lshift 1 e)) (v (rshift dim ord0)) d
    - arA_ d *m v (rshift dim ord0).
Proof.
rewrite sum_dim1 /aK insub_q insub_u mulmxBl mulNmx /op_q addrA; congr (_ - _ - _).
rewrite (sum_ord1 (i := d)) => [|e hne]; first by rewrite insub_q eqxx.
by rewrite insub_q -val_eqE eq_sym (negbTE hne) mul0mx.
Qed.
Lemma aK_u (v : 'I_(dim + 1) -> 'cV[F]_nf) :
  \sum_Y aK (rshift dim ord0) Y *m v Y =
    op_u H tau (fun e => v (lshift 1 e)) (v (rshift dim ord0)) + arR_ *m v (rshift dim ord0).
Proof.
rewrite sum_dim1 /aK insub_u mulmxDl addrA /op_u -!scalemxAl mulmx_suml; congr (_ + _ + _).
by apply: eq_bigr => d _; rewrite insub_q.
Qed.
(** The local problem in terms of the operators. *)
Lemma op_adv q u x rq ru : aloc q u x rq ru <->
  (forall d, op_q H q u d - arA_ d *m u = - (\sum_f hnu H f d *: (hE H f *m x f)) + rq d) /\
  op_u H tau q u + arR_ *m u = tau *: (\sum_f (hE H f *m x f)) + ru.
Proof. by split=> -[h1 h2]; split=> // d; rewrite -h1 /op_q addrAC. Qed.

Lemma ar_irregular rhs : size rhs = nl -> gesv_detects gesv -> ~ adv_regular H tau arA_ arR_ ->
  ar_divide gesv dim poly_deg tau P t rhs = Abort.
Proof.
move=> sr hd hir; rewrite /ar_divide /solve_const /=.
have hu : mx_of nl nl K \notin unitmx.
  apply/negP => uK; apply: hir => q u /op_adv[h1 h2].
  pose v (Y : 'I_(dim + 1)) : 'cV[F]_nf := if insub (Y : nat) : option 'I_dim is Some d then q d else u.
  have vq d : v (lshift 1 d) = q d by rewrite /v insub_q.
  have vu : v (rshift dim ord0) = u by rewrite /v insub_u.
  have hv0 : forall Q, v Q = 0.
    apply: (blink_kernel ar_block (v := v) uK) => X; case: (split_ordP X) => k ->.
      rewrite aK_q vu -[RHS](_ : op_q H q u k - arA_ k *m u = 0); last first.
        by rewrite h1 big1 ?oppr0 ?addr0 // => f _; rewrite mulmx0 scaler0.
      by rewrite /op_q vq.
    rewrite (ord1 k) aK_u vu -[RHS](_ : op_u H tau q u + arR_ *m u = 0); last first.
      by rewrite h2 big1 ?scaler0 ?addr0 // => f _; rewrite mulmx0.
    by congr (_ + _ + _); apply: eq_bigr => d _; rewrite vq.
  by split=> [d|]; [rewrite -vq | rewrite -vu].
have hm1 : is_mat nl 1 rhs by rewrite /is_mat muln1.
by rewrite (negbTE (hd nl 1%N K rhs ar_size_K hm1 hu)).
Qed.
Lemma ar_irregular_solve st lambda : gesv_detects gesv -> ~ adv_regular H tau arA_ arR_ ->
  ar_solve_local_problem gesv dim poly_deg dirs tau P st lambda t = Abort.
Proof.
move=> hd hr; have sl := df_size_rhs dim poly_deg tau D lambda.
rewrite /ar_solve_local_problem /df_rhs_lambda; case: lambda_ok; last by case: eqP => //= _; case: eqP.
case: eqP => /= [_|_]; first exact: ar_irregular.
by case: eqP => //= _; apply: ar_irregular => //; rewrite size_mat_add.
Qed.

Hypotheses (hg : gesv_correct gesv) (hreg : adv_regular H tau arA_ arR_).
Lemma ar_divide_ok rhs x rq ru : size rhs = nl ->
  (forall d, qpart nf rhs d = - (\sum_f hnu H f d *: (hE H f *m x f)) + rq d) ->
  upart nf dim rhs = tau *: (\sum_f (hE H f *m x f)) + ru ->
  exists X, [/\ ar_divide gesv dim poly_deg tau P t rhs = Ok X, size X = nl &
    aloc (qpart nf X) (upart nf dim X) x rq ru].
Proof.
move=> sr h1 h2.
have hK (v : 'I_(dim + 1) -> 'cV[F]_nf) : (forall X, \sum_Y aK X Y *m v Y = 0) -> forall Y, v Y = 0.
  move=> hv.
  have h0 : aloc (fun e => v (lshift 1 e)) (v (rshift dim ord0)) (fun=> 0) (fun=> 0) 0.
    apply/op_adv; split=> [d|].
      have := hv (lshift 1 d); rewrite aK_q => ->.
      by rewrite big1 ?oppr0 ?addr0 // => f _; rewrite mulmx0 scaler0.
    have := hv (rshift dim ord0); rewrite aK_u => ->.
    by rewrite big1 ?scaler0 ?addr0 // => f _; rewrite mulmx0.
  have [hq hu] := hreg h0.
  move=> Y; case: (split_ordP Y) => k ->; first exact: hq.
  by rewrite (ord1 k).
have [X [hX sX hXX]] := blink_solve ar_block hg hK ar_size_K sr.
exists X; split=> //; first by move: hX; rewrite -/(n_loc_dofs dim poly_deg) /ar_divide => ->.
apply/op_adv; split=> [d|].
  by rewrite -h1; have := hXX (lshift 1 d); rewrite aK_q bpart_u.
by rewrite -h2; have := hXX (rshift dim ord0); rewrite aK_u !bpart_u.
Qed.

Section Solve.
Variable lambda : seq (seq F).
Lemma ar_solve0 : lambda_ok dim poly_deg lambda ->
  exists X, [/\ ar_solve_local_problem gesv dim poly_deg dirs tau P 0 lambda t = Ok X, size X = nl
    & aloc (qpart nf X) (upart nf dim X) (tr nb lambda) (fun=> 0) 0].
Proof.
move=> hl; rewrite /ar_solve_local_problem /df_rhs_lambda hl /=.
apply: ar_divide_ok; first exact: df_size_rhs.
  by move=> d; rewrite df_rhs_q addr0.
by rewrite df_rhs_u addr0.
Qed.
Lemma ar_solve1 : lambda_ok dim poly_deg lambda ->
  exists X, [/\ ar_solve_local_problem gesv dim poly_deg dirs tau P 1 lambda t = Ok X, size X = nl
    & aloc (qpart nf X) (upart nf dim X) (tr nb lambda)
        (@df_rq_ F dim poly_deg dirs D) (@df_ru_ F dim poly_deg dirs tau D)].
Proof.
move=> hl; have sl := df_size_rhs dim poly_deg tau D lambda.
rewrite /ar_solve_local_problem /df_rhs_lambda hl /=.
apply: ar_divide_ok; first by rewrite size_mat_add.
  by move=> d; rewrite qpart_add // df_rhs_q df_global_q.
by rewrite upart_add // df_rhs_u df_global_u.
Qed.
Lemma ar_solve_mass X0 : exists X, [/\ ar_solve_mass_problem gesv dim poly_deg tau P X0 t = Ok X, size X = nl
    & aloc (qpart nf X) (upart nf dim X) (fun=> 0) (fun=> 0)
        ((\matrix_(i, j) df_mass D i j) *m upart nf dim X0)].
Proof.
apply: ar_divide_ok; first exact: df_size_coeffs.
  by move=> d; rewrite df_coeffs_q big1 ?oppr0 ?addr0 // => f _; rewrite mulmx0 scaler0.
by rewrite df_coeffs_u big1 ?scaler0 ?add0r // => f _; rewrite mulmx0.
Qed.
Lemma ar_solve_cor X0 : lambda_ok dim poly_deg lambda ->
  exists X, [/\ ar_solve_loc_prob_cor gesv dim poly_deg dirs tau P lambda X0 t = Ok X, size X = nl
    & aloc (qpart nf X) (upart nf dim X) (tr nb lambda) (@df_rq_ F dim poly_deg dirs D)
        (@df_ru_ F dim poly_deg dirs tau D + (\matrix_(i, j) df_mass D i j) *m upart nf dim X0)].
Proof.
move=> hl; have sl := df_size_rhs dim poly_deg tau D lambda.
have s1 : size (mat_add nl 1 1 (df_rhs_lambda_loop dim poly_deg tau D lambda)
  (df_rhs_global dim poly_deg dirs tau D)) = nl by rewrite size_mat_add.
rewrite /ar_solve_loc_prob_cor /df_rhs_lambda hl /=.
apply: ar_divide_ok; first by rewrite size_mat_add.
  by move=> d; rewrite !qpart_add // df_rhs_q df_global_q df_coeffs_q addr0.
by rewrite !upart_add // df_rhs_u df_global_u df_coeffs_u -addrA.
Qed.
End Solve.
End AdvReact.
