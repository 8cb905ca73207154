(** Proofs about M_DiffusionParab: from the arrays to the time step. *)
From mathcomp Require Import all_ssreflect all_algebra zify ring.
From Verif Require Import M_Base L_Base M_Index L_Index M_DenseLA S_DenseLA L_DenseLA M_Lapack S_Lapack L_Lapack.
From Verif Require Import S_Hdg L_Hdg S_Tpp S_LocalSolver M_DiffusionUniform M_Diffusion S_Diffusion.
From Verif Require Import L_LocalBase L_LocalBlock L_LocalLink L_HdgSrc L_DiffusionUniform L_Diffusion.
From Verif Require Import M_DiffusionParab S_DiffusionParab L_Theta L_BlockLink.
Set Implicit Arguments. Unset Strict Implicit. Unset Printing Implicit Defensive.
Import Order.TTheory GRing.Theory Num.Theory.
Local Open Scope ring_scope.

(** Several contributions to one entry that has just been overwritten. *)
Lemma acc_same (R : ringType) (v : seq R) i s evs : (i < size v)%N -> all (fun e : nat * R => e.1 == i) evs ->
  accumulate (upd v i s) evs = upd v i (s + contrib i evs).
Proof.
move=> hi; elim: evs s => [|[k e] evs IH] s /=; first by rewrite contrib_nil addr0.
case/andP => /eqP -> hall; rewrite contrib_cons eqxx addrA -IH //; congr accumulate.
apply: (@eq_from_nth _ 0); rewrite ?size_add_at ?size_upd // => k0 hk0.
rewrite nth_add_at !nth_upd size_upd hi !andbT.
by case: (k0 == i); rewrite ?addr0.
Qed.
Lemma all_flat_iota (T : Type) (P : pred T) (g : nat -> seq T) n :
  (forall k, all P (g k)) -> all P (flatten [seq g k | k <- iota 0 n]).
Proof. by move=> hg; elim: (iota 0 n) => //= k l IH; rewrite all_cat hg. Qed.

Lemma for_upd_eq (T : Type) (g : nat -> T) (body : nat -> seq T -> seq T) n v :
  (forall i w, (i < n)%N -> size w = size v -> body i w = upd w i (g i)) ->
  for_ n body v = for_ n (fun i w => upd w i (g i)) v.
Proof.
elim: n => [//|n IH] h; rewrite !for_S IH => [|i w hi]; last by apply: h; lia.
by rewrite h // size_for_assign.
Qed.
Lemma nth_for_upd (T : Type) (x0 : T) (g : nat -> T) n v i : (n <= size v)%N -> (i < n)%N ->
  nth x0 (for_ n (fun i w => upd w i (g i)) v) i = g i.
Proof.
move=> hn hi; have := @nth_for_assign_in T x0 n id (fun i _ => g i) v i; apply => //; lia.
Qed.

Section Parab.
Variable F : realFieldType.
Variable gesv : nat -> nat -> seq F -> seq F -> sv_result F.
Variables (dim poly_deg : nat) (dirs : seq nat) (tau theta dt : F) (P : dp_data F).
Notation nf := (n_shape_fct dim poly_deg).
Notation nb := (n_shape_bdr dim poly_deg).
Notation nl := (n_loc_dofs dim poly_deg).
Notation D := (dp_df P).
Notation A := (dp_assemble_loc_matrix dim poly_deg tau theta dt P).
Notation mask := (face_dirichlet dirs D).
Notation H := (hdg_of nf nb dim (2 * dim) (df_vol D) (df_grad D) (df_bp D) (df_bb D)
  (df_normal D) (df_area D)).
Notation m := (\matrix_(i, j) df_mass D i j : 'M[F]_nf).

Definition dpA i j : seq (nat * nat * F) :=
  ((dim, dim), tau * theta * dt * (df_face_loop dim D i j).1) ::
  flatten [seq [:: ((d, d), df_vol D i j); ((d, dim), - df_grad D i j d); ((dim, d), - (theta * dt * df_grad D i j d));
                   ((dim, d), theta * dt * nth 0 (df_face_loop dim D i j).2 d)] | d <- iota 0 dim] ++
  [:: ((dim, dim), df_mass D i j)].
Lemma dp_assembleE : A = accumulate (zeros F nl nl) (flatten [seq flatten [seq
   [seq (loc nl (e.1.1 * nf + i) (e.1.2 * nf + j), e.2) | e <- dpA i j]
    | j <- iota 0 nf] | i <- iota 0 nf]).
Proof.
apply: for_acc => i s _; apply: for_acc => j t _; rewrite /dpA map_cons map_cat map_flatten -map_comp.
rewrite -cat1s !accumulate_cat /=; congr (madd _ _ _ _ _); exact: for_acc.
Qed.
Lemma dp_size_A : size A = (nl * nl)%N.
Proof. by rewrite dp_assembleE size_accumulate size_nseq. Qed.
Lemma dpA_in i j e : e \in dpA i j -> (e.1.1 < dim + 1)%N && (e.1.2 < dim + 1)%N.
Proof.
rewrite inE => /orP[/eqP -> /=|]; first by lia.
rewrite mem_cat => /orP[|]; last by rewrite inE => /eqP -> /=; lia.
case/flattenP => l /mapP[d]; rewrite mem_iota add0n => /andP[_ hd] ->.
by rewrite !inE => /or4P[] /eqP -> /=; lia.
Qed.

(** The blocks of the matrix. *)
Definition pK (X Y : 'I_(dim + 1)) : 'M[F]_nf :=
  match insub (X : nat) : option 'I_dim, insub (Y : nat) : option 'I_dim with
  | Some d, Some e => if d == e then hM H else 0
  | Some d, None => - hD H d
  | None, Some e => (theta * dt) *: (- hD H e + \sum_f hnu H f e *: hB H f)
  | None, None => (tau * theta * dt) *: (\sum_f hB H f) + m
  end.
Lemma dp_block (X Y : 'I_(dim + 1)) (i j : 'I_nf) :
  nth 0 A (loc nl (X * nf + i) (Y * nf + j)) = pK X Y i j.
Proof.
case: X => X hX'; case: Y => Y hY'; rewrite /=; have hX : (X <= dim)%N by lia. have hY : (Y <= dim)%N by lia.
rewrite dp_assembleE (@block_entry _ (dim + 1) nf dpA X Y i j) //; last first.
  by move=> x y e _ _ /dpA_in.
rewrite /dpA contrib2_cons contrib2_cat contrib2_loop !contrib2_cons contrib2_nil !xpair_eqE.
under eq_bigr => d _ do rewrite !contrib2_cons contrib2_nil !xpair_eqE addr0.
rewrite /pK /=; case: (ltnP X dim) => hXd.
  have hXn : (dim == X) = false by lia.
  rewrite hXn /= add0r !addr0 (insubT (fun x => x < dim)%N hXd) (sum_ord1 (i := Ordinal hXd)) => [|d hne].
    rewrite !eqxx /= addr0; case: (ltnP Y dim) => hYd.
      rewrite (insubT (fun x => x < dim)%N hYd) -val_eqE /=.
      have -> : (dim == Y) = false by lia.
      by rewrite !addr0; case: eqP => _; rewrite ?mxE.
    have eY : Y = dim by lia.
    by rewrite insubF ?ltnNge ?hYd // eY eqxx (ltn_eqF hXd) add0r !mxE.
  by rewrite (negbTE hne) /= !addr0.
have eX : X = dim by lia.
rewrite insubF ?ltnNge ?hXd // eX eqxx /=; case: (ltnP Y dim) => hYd.
  rewrite (insubT (fun x => x < dim)%N hYd) !mxE.
  have -> : (dim == Y) = false by lia.
  rewrite add0r !addr0 (sum_ord1 (i := Ordinal hYd)) => [|d hne].
    rewrite eqxx /= (ltn_eqF hYd) /= !add0r face_loop2 // summxE mulrDr mulrN; congr (_ + _ * _).
    by apply: eq_bigr => f _; rewrite !mxE.
  by rewrite (negbTE hne) (ltn_eqF (ltn_ord d)) /= !addr0.
have eY : Y = dim by lia.
rewrite eY eqxx insubF ?ltnn // big1 ?add0r ?addr0 => [|d _].
  rewrite face_loopE /= [in RHS]mxE [in RHS]mxE summxE [in RHS]mxE; congr (_ * _ + _); apply: eq_bigr => f _.
  by rewrite mxE.
by rewrite (ltn_eqF (ltn_ord d)) /= !addr0.
Qed.

Lemma sum_dim1 (V : zmodType) (G : 'I_(dim + 1) -> V) :
  \sum_Y G Y = \sum_(d < dim) G (lshift 1 d) + G (rshift dim ord0).
Proof. by rewrite big_split_ord big_ord1. Qed.
Lemma insub_q (d : 'I_dim) : insub (lshift 1 d : nat) = Some d :> option 'I_dim.
Proof. exact: valK. Qed.
Lemma insub_u : insub (rshift dim (@ord0 0) : nat) = None :> option 'I_dim.
Proof. by rewrite insubF //= addn0 ltnn. Qed.
Lemma bpart_q X (d : 'I_dim) : @bpart F (dim + 1) nf X (lshift 1 d) = qpart nf X d :> 'cV[F]_nf.
Proof. by []. Qed.
Lemma bpart_u X : @bpart F (dim + 1) nf X (rshift dim ord0) = upart nf dim X :> 'cV[F]_nf.
Proof. by apply/colP => i; rewrite !mxE /= addn0. Qed.
Lemma pK_q (v : 'I_(dim + 1) -> 'cV[F]_nf) (d : 'I_dim) :
  \sum_Y pK (lshift 1 d) Y *m v Y = op_q H (fun e => v (lshift 1 e)) (v (rshift dim ord0)) d.
Proof.
rewrite sum_dim1 /pK insub_q insub_u mulNmx /op_q; congr (_ - _).
rewrite (sum_ord1 (i := d)) => [|e hne]; first by rewrite insub_q eqxx.
by rewrite insub_q -val_eqE eq_sym (negbTE hne) mul0mx.
Qed.
Lemma pK_u (v : 'I_(dim + 1) -> 'cV[F]_nf) :
  \sum_Y pK (rshift dim ord0) Y *m v Y = m *m v (rshift dim ord0) +
    (theta * dt) *: op_u H tau (fun e => v (lshift 1 e)) (v (rshift dim ord0)).
Proof.
rewrite sum_dim1 /pK insub_u mulmxDl addrA [RHS]addrC /op_u; congr (_ + _).
rewrite [RHS]scalerDr [in RHS]scaler_sumr; congr (_ + _).
  by apply: eq_bigr => d _; rewrite insub_q scalemxAl.
by rewrite -mulmx_suml scalerA -scalemxAl; congr (_ *: _); rewrite -mulrA mulrC.
Qed.

Section Solve.
Hypotheses (hg : gesv_correct gesv) (hok : hdg_ok H) (tau0 : 0 <= tau) (c0 : 0 <= theta * dt).
Variable ar : F.
Hypotheses (hm : m = ar%:M) (ar0 : 0 < ar).
Lemma m_symm : (m : 'M[F]_nf)^T = m.
Proof. by rewrite hm tr_scalar_mx. Qed.
Lemma m_posi (u : 'cV[F]_nf) : u != 0 -> 0 < dotv u (m *m u).
Proof.
move=> hu; rewrite hm mul_scalar_mx dotvZr mulr_gt0 // lt_def dotv_ge0 andbT.
by rewrite dotv_eq0.
Qed.
Lemma dp_divide_ok rhs : size rhs = nl ->
  exists X, [/\ dp_divide gesv dim poly_deg tau theta dt P rhs = Ok X, size X = nl,
    forall d, op_q H (qpart nf X) (upart nf dim X) d = qpart nf rhs d
  & m *m upart nf dim X + (theta * dt) *: op_u H tau (qpart nf X) (upart nf dim X) = upart nf dim rhs].
Proof.
move=> sr.
have hK (v : 'I_(dim + 1) -> 'cV[F]_nf) : (forall X, \sum_Y pK X Y *m v Y = 0) -> forall Y, v Y = 0.
  move=> hv.
  have h1 : theta_step H tau m theta dt (fun e => v (lshift 1 e)) (v (rshift dim ord0))
    (fun=> 0) (fun=> 0) 0 0 0.
    split=> [d|].
      have := hv (lshift 1 d); rewrite pK_q /op_q => ->.
      by rewrite big1 ?oppr0 ?addr0 // => f _; rewrite mulmx0 scaler0.
    have := hv (rshift dim ord0); rewrite pK_u => /eqP; rewrite addr_eq0 => /eqP.
    rewrite subr0 scaler0 addr0 scalerA [dt * _]mulrC => ->; rewrite -scalerN; congr (_ *: _).
    rewrite /rate big1 => [|f _]; last by rewrite mulmx0.
    by rewrite scaler0 addr0 sub0r.
  have [hq hu] := step_unique0 hok m_posi c0 tau0 h1.
  move=> Y; case: (split_ordP Y) => k ->; first exact: hq.
  by rewrite (ord1 k).
have [X [hX sX hXX]] := blink_solve dp_block hg hK dp_size_A sr.
exists X; split=> //; first by rewrite /dp_divide hX.
  by move=> d; have := hXX (lshift 1 d); rewrite pK_q bpart_u.
by have := hXX (rshift dim ord0); rewrite pK_u !bpart_u.
Qed.

Section Rhs.
Variables (lambda : seq (seq F)) (S : dp_state F).
Lemma dp_size_rhs : size (dp_rhs_lambda_loop dim poly_deg tau theta dt P lambda) = nl.
Proof. exact: (@df_size_rhs F dim poly_deg (tau * theta * dt) D lambda). Qed.
Lemma dp_rhs_q (d : 'I_dim) : qpart nf (dp_rhs_lambda_loop dim poly_deg tau theta dt P lambda) d =
  - (\sum_f hnu H f d *: (hE H f *m tr nb lambda f)) :> 'cV[F]_nf.
Proof. exact: (@df_rhs_q F dim poly_deg (tau * theta * dt) D lambda d). Qed.
Lemma dp_rhs_u : upart nf dim (dp_rhs_lambda_loop dim poly_deg tau theta dt P lambda) =
  (tau * theta * dt) *: (\sum_f (hE H f *m tr nb lambda f)) :> 'cV[F]_nf.
Proof. exact: (@df_rhs_u F dim poly_deg (tau * theta * dt) D lambda). Qed.

Notation rhs := (dp_rhs_global dim poly_deg dirs tau theta dt P S).
Definition dpG i : seq (nat * F) :=
  (dim, theta * dt * df_src D i) :: flatten [seq (if mask f then
     (dim, tau * theta * dt * df_dirval D i f + tau * (1 - theta) * dt * dp_dirold P i f) ::
     [seq (d, - (df_normal D f d * df_dirval D i f)) | d <- iota 0 dim] else [::]) | f <- iota 0 (2 * dim)].
Lemma dp_globalE : rhs = accumulate (accumulate (zeros F nl 1)
  (flatten [seq [seq ((e.1 * nf + i)%N, e.2) | e <- dpG i] | i <- iota 0 nf]))
  (flatten [seq [seq ((e.1 * nf + i)%N, e.2) | e <- [:: (dim,
     nth 0 (dp_u_old S) i * dp_area P + dt * (1 - theta) * nth 0 (dp_flux_old S) i)]] | i <- iota 0 nf]).
Proof.
rewrite /dp_rhs_global.
have -> : for_ nf (fun i r =>
    let r := upd r (dim * nf + i) (theta * dt * df_src D i) in
    for_ (2 * dim) (fun face r =>
      if ~~ face_dirichlet dirs D face then r else
      let integral := df_dirval D i face in
      let r := add_at r (dim * nf + i) (tau * theta * dt * integral +
                                        tau * (1 - theta) * dt * dp_dirold P i face) in
      for_ dim (fun d r => add_at r (d * nf + i) (- (df_normal D face d * integral))) r) r)
  (zeros F nl 1) = accumulate (zeros F nl 1)
  (flatten [seq [seq ((e.1 * nf + i)%N, e.2) | e <- dpG i] | i <- iota 0 nf]).
  apply: for_acc_hist => i hi s; rewrite /dpG map_cons -cat1s accumulate_cat.
  have hu : upd s (dim * nf + i) (theta * dt * df_src D i) = accumulate s [:: ((dim * nf + i)%N, theta * dt * df_src D i)].
    rewrite -add_at_accumulate /add_at; congr upd.
    have hs : (dim * nf + i < size (zeros F nl 1))%N by rewrite size_nseq muln1 df_pos.
    rewrite nth_contrib // nth_nseq if_same add0r contrib_loop big1 ?add0r // => k _.
    rewrite /contrib big_map big1 // => e /=; rewrite block_inj //; last by have := ltn_ord k; lia.
    by have := ltn_ord k => hk /andP[_ /eqP]; lia.
  rewrite [X in for_ _ _ X]hu map_flatten -map_comp; apply: for_acc => f r _ /=.
  case: (mask f) => //=; rewrite -map_comp.
  rewrite (for_acc (evs := fun d => [:: ((d * nf + i)%N, - (df_normal D f d * df_dirval D i f))])) //.
  congr (accumulate _ _); by elim: (iota 0 dim) => //= d l ->.
exact: for_acc.
Qed.
Lemma dp_size_global : size rhs = nl.
Proof. by rewrite dp_globalE !size_accumulate size_nseq muln1. Qed.
Lemma dp_global_at X i : (X <= dim)%N -> (i < nf)%N -> nth 0 rhs (X * nf + i) = contrib X (dpG i) +
  contrib X [:: (dim, nth 0 (dp_u_old S) i * dp_area P + dt * (1 - theta) * nth 0 (dp_flux_old S) i)].
Proof.
move=> hX hi; rewrite dp_globalE nth_contrib; last by rewrite size_accumulate size_nseq muln1 df_pos.
rewrite (@block_vec _ (dim + 1) nf) ?addn1 ?ltnS //; congr (_ + _).
have := @block_vec F (dim + 1) nf (fun i => [:: (dim, nth 0 (dp_u_old S) i * dp_area P + dt * (1 - theta) * nth 0 (dp_flux_old S) i)]) X i.
rewrite nth_contrib; last by rewrite size_nseq muln1 df_pos.
rewrite nth_nseq if_same add0r addn1 ltnS => -> //.
Qed.
Lemma dp_global_q (d : 'I_dim) : qpart nf rhs d =
  - \sum_(f < 2 * dim | mask f) df_normal D f d *: (\col_i df_dirval D i f) :> 'cV[F]_nf.
Proof.
have hd := ltn_ord d.
have hn : (dim == d) = false by lia.
apply/colP => i; rewrite !mxE dp_global_at // ?(ltnW hd) //.
rewrite [X in _ + X]contrib_cons contrib_nil hn !addr0.
rewrite /dpG contrib_cons hn add0r.
rewrite contrib_loop summxE -sumrN [RHS]big_mkcond; apply: eq_bigr => f _.
case: (mask f); last by rewrite contrib_nil.
by rewrite contrib_cons (contrib_map _ hd) hn add0r !mxE.
Qed.
Lemma dp_global_u : upart nf dim rhs = (theta * dt) *: (\col_i df_src D i) +
  (theta * dt) *: (tau *: (\sum_(f < 2 * dim | mask f) \col_i df_dirval D i f)) +
  ((1 - theta) * dt) *: (tau *: (\sum_(f < 2 * dim | mask f) \col_i dp_dirold P i f)) +
  (dp_area P *: vec_of nf (dp_u_old S) + ((1 - theta) * dt) *: vec_of nf (dp_flux_old S)) :> 'cV[F]_nf.
Proof.
apply/colP => i; rewrite !mxE dp_global_at // [X in _ + X]contrib_cons contrib_nil eqxx addr0; congr (_ + _); last first.
  by rewrite [X in X + _]mulrC [dt * _]mulrC.
rewrite /dpG contrib_cons eqxx contrib_loop !summxE -addrA; congr (_ + _).
rewrite !mulr_sumr [X in _ = X + _]big_mkcond [X in _ = _ + X]big_mkcond -big_split; apply: eq_bigr => f _.
case: (mask f) => /=; last by rewrite contrib_nil addr0.
by rewrite contrib_cons contrib_mapn // eqxx !mxE; ring.
Qed.
End Rhs.

Notation rq := (df_rq_ poly_deg dirs D).
Notation ru := (df_ru_ dim poly_deg dirs tau D).
Definition old_rate_ S : 'cV[F]_nf :=
  vec_of nf (dp_flux_old S) + tau *: (\sum_(f < 2 * dim | mask f) (\col_i dp_dirold P i f)).
(** ** Local solutions *)
Lemma dp_solve0 S lambda : lambda_ok dim poly_deg lambda ->
  exists X, [/\ dp_solve_local_problem gesv dim poly_deg dirs tau theta dt P S 0 lambda = Ok X, size X = nl
    & theta_step H tau m theta dt (qpart nf X) (upart nf dim X) (tr nb lambda) (fun=> 0) 0 0 0].
Proof.
move=> hl; have [X [hX sX hq hu]] := dp_divide_ok (dp_size_rhs lambda).
exists X; split => //; first by rewrite /dp_solve_local_problem /dp_rhs_lambda hl /=.
split=> [d|]; first by rewrite addr0 -dp_rhs_q -hq.
rewrite subr0 scaler0 addr0 scalerA [dt * _]mulrC /rate add0r scalerBr -/(op_u _ _ _ _).
by apply/eqP; rewrite eq_sym subr_eq eq_sym hu dp_rhs_u scalerA [theta * dt * tau]mulrC mulrA.
Qed.
Lemma dp_solve1 S lambda : ar = dp_area P -> lambda_ok dim poly_deg lambda ->
  exists X, [/\ dp_solve_local_problem gesv dim poly_deg dirs tau theta dt P S 1 lambda = Ok X, size X = nl
    & theta_step H tau m theta dt (qpart nf X) (upart nf dim X) (tr nb lambda) rq ru
        (vec_of nf (dp_u_old S)) (old_rate_ S)].
Proof.
move=> har hl; have sl := dp_size_rhs lambda.
have sr : size (mat_add nl 1 1 (dp_rhs_lambda_loop dim poly_deg tau theta dt P lambda)
   (dp_rhs_global dim poly_deg dirs tau theta dt P S)) = nl by rewrite size_mat_add.
have [X [hX sX hq hu]] := dp_divide_ok sr.
exists X; split => //; first by rewrite /dp_solve_local_problem /dp_rhs_lambda hl /=.
split=> [d|]; first by rewrite -dp_rhs_q /df_rq_ -(dp_global_q S) -qpart_add // -hq.
move: hu; rewrite upart_add // dp_rhs_u dp_global_u.
have e0 : m *m vec_of nf (dp_u_old S) = dp_area P *: vec_of nf (dp_u_old S) by rewrite hm har mul_scalar_mx.
rewrite mulmxBr e0 /rate -/(op_u _ _ _ _) /df_ru_ /old_rate_.
set mu := m *m _; set o := op_u _ _ _ _; set e := \sum_f _ *m _; set u0 := vec_of _ _; set f0 := vec_of _ _.
set s := \col_i _; set g := \sum_(f < _ | _) _; set g0 := \sum_(f < _ | _) _ => hu.
apply/colP => i; have /colP/(_ i) := hu.
move: mu o e u0 f0 s g g0 {hu} => mu o e u0 f0 s g g0; rewrite !mxE.
move: (mu i 0) (o i 0) (e i 0) (u0 i 0) (f0 i 0) (s i 0) (g i 0) (g0 i 0) => a1 a2 a3 a4 a5 a6 a7 a8 h1.
have -> : a1 = a1 + theta * dt * a2 - theta * dt * a2 by rewrite addrK.
by rewrite h1; ring.
Qed.
End Solve.

(** ** Fluxes *)
Lemma dp_num_fluxE X lambda (f : 'I_(2 * dim)) (j : 'I_nb) :
  dp_num_flux dim poly_deg tau P X lambda f j =
  num_flux H tau (qpart nf X) (upart nf dim X) (tr nb lambda) f j 0.
Proof.
rewrite /dp_num_flux /dp_dual /dp_primal df_dual_tr df_primal_tr /num_flux !mxE /lambda_at; congr (_ + _ - _).
by rewrite -!mulrA; congr (_ * _); exact: mulrC.
Qed.
Lemma dp_writeE (G : nat -> nat -> F) (V : 'I_(2 * dim) -> 'cV[F]_nb) out : is_trace (2 * dim) nb out ->
  (forall (f : 'I_(2 * dim)) (j : 'I_nb), G f j = V f j 0) ->
  is_trace (2 * dim) nb (df_write dirs D G out) /\
  forall f : 'I_(2 * dim), tr nb (df_write dirs D G out) f = if mask f then 0 else V f :> 'cV[F]_nb.
Proof.
move=> ho hG; rewrite (df_writeE dirs D G ho); split; first exact: mk_is_trace.
move=> f; apply/colP => j; rewrite mxE (nth_mkseq [::]) ?ltn_ord // nth_mkseq //.
by case: ifP => _; rewrite ?hG // mxE.
Qed.

(** ** The stored rate *)
Section Fill.
Variables (X u : seq F) (lambda : seq (seq F)).
Definition dpR i : seq (nat * F) :=
  flatten [seq flatten [seq [:: (i, nth 0 X (d * nf + j) * df_grad D i j d)] | d <- iota 0 dim] ++
    flatten [seq flatten [seq [:: (i, - (nth 0 X (d * nf + j) * df_normal D f d * df_bb D i j f))] | d <- iota 0 dim]
      ++ [:: (i, - (tau * nth 0 u j * df_bb D i j f))] | f <- iota 0 (2 * dim)] | j <- iota 0 nf] ++
  flatten [seq flatten [seq [:: (i, tau * lambda_at lambda f j * df_bp D i j f)] | f <- iota 0 (2 * dim)]
    | j <- iota 0 nb].
Lemma dpR_all i : all (fun e => e.1 == i) (dpR i).
Proof.
rewrite /dpR all_cat; apply/andP; split; apply: all_flat_iota => j.
  rewrite all_cat; apply/andP; split; apply: all_flat_iota => k; first by rewrite /= eqxx.
  by rewrite all_cat /= eqxx !andbT; apply: all_flat_iota => d; rewrite /= eqxx.
by apply: all_flat_iota => k; rewrite /= eqxx.
Qed.
Lemma dp_fill_fluxE v : size v = nf -> dp_fill_flux dim poly_deg tau P X u lambda v =
  for_ nf (fun i w => upd w i (df_src D i + contrib i (dpR i))) v.
Proof.
move=> sv; apply: for_upd_eq => i w hi sw; rewrite -acc_same ?dpR_all ?sw ?sv //.
rewrite /dpR accumulate_cat.
have -> : for_ nf (fun j v0 => for_ (2 * dim) (fun face v1 =>
    add_at (for_ dim (fun d v2 => add_at v2 i (- (nth 0 X (d * nf + j) * df_normal D face d * df_bb D i j face))) v1)
      i (- (tau * nth 0 u j * df_bb D i j face)))
    (for_ dim (fun d v1 => add_at v1 i (nth 0 X (d * nf + j) * df_grad D i j d)) v0)) (upd w i (df_src D i)) =
  accumulate (upd w i (df_src D i)) (flatten [seq flatten [seq [:: (i, nth 0 X (d * nf + j) * df_grad D i j d)] | d <- iota 0 dim] ++
    flatten [seq flatten [seq [:: (i, - (nth 0 X (d * nf + j) * df_normal D f d * df_bb D i j f))] | d <- iota 0 dim]
      ++ [:: (i, - (tau * nth 0 u j * df_bb D i j f))] | f <- iota 0 (2 * dim)] | j <- iota 0 nf]).
  apply: for_acc => j t _; rewrite accumulate_cat.
  have -> : for_ dim (fun d v1 => add_at v1 i (nth 0 X (d * nf + j) * df_grad D i j d)) t =
    accumulate t (flatten [seq [:: (i, nth 0 X (d * nf + j) * df_grad D i j d)] | d <- iota 0 dim]) by exact: for_acc.
  apply: for_acc => g r _; rewrite accumulate_cat /=; congr add_at; exact: for_acc.
by apply: for_acc => j t _; exact: for_acc.
Qed.
Lemma dp_rate_entry (i : 'I_nf) : df_src D i + contrib i (dpR i) =
  rate H tau (qpart nf X) (vec_of nf u) (tr nb lambda) (\col_i df_src D i) i 0.
Proof.
rewrite /rate /dpR contrib_cat !contrib_loop !mxE -!addrA; congr (_ + _).
rewrite addrC; congr (_ + _).
  transitivity (\sum_(j < nb) \sum_(f < 2 * dim) tau * lambda_at lambda f j * df_bp D i j f).
    apply: eq_bigr => j _; rewrite contrib_loop; apply: eq_bigr => f _.
    by rewrite contrib_cons contrib_nil eqxx addr0.
  rewrite summxE mulr_sumr exchange_big; apply: eq_bigr => f _; rewrite mxE mulr_sumr; apply: eq_bigr => j _.
  by rewrite !mxE /lambda_at -mulrA [X in _ * X]mulrC.
transitivity (\sum_(j < nf) (\sum_(d < dim) nth 0 X (d * nf + j) * df_grad D i j d +
   \sum_(f < 2 * dim) (\sum_(d < dim) - (nth 0 X (d * nf + j) * df_normal D f d * df_bb D i j f) +
     - (tau * nth 0 u j * df_bb D i j f)))).
  apply: eq_bigr => j _; rewrite contrib_cat !contrib_loop; congr (_ + _); apply: eq_bigr => f _.
    by rewrite contrib_cons contrib_nil eqxx addr0.
  rewrite contrib_cat contrib_loop contrib_cons contrib_nil eqxx addr0; congr (_ + _).
  by apply: eq_bigr => d _; rewrite contrib_cons contrib_nil eqxx addr0.
rewrite !summxE mulr_sumr opprD -!sumrN.
transitivity (\sum_(j < nf) (\sum_(d < dim) (nth 0 X (d * nf + j) * df_grad D i j d -
   \sum_(f < 2 * dim) nth 0 X (d * nf + j) * df_normal D f d * df_bb D i j f) -
   \sum_(f < 2 * dim) tau * nth 0 u j * df_bb D i j f)).
  apply: eq_bigr => j _; rewrite big_split addrA sumrN big_split sumrN; congr (_ + _ - _).
  rewrite exchange_big -sumrN /=; apply: eq_bigr => d _; exact: sumrN.
rewrite big_split; congr (_ + _).
  rewrite exchange_big; apply: eq_bigr => d _; rewrite mxE -sumrN; apply: eq_bigr => j _ /=.
  rewrite [in RHS]mxE [in RHS]mxE [in RHS]mxE [in RHS]mxE summxE mulrDl mulNr opprD opprK mulrC; congr (_ - _).
  by rewrite mulr_suml; apply: eq_bigr => f _; rewrite !mxE [RHS]mulrC mulrA.
transitivity (\sum_(j < nf) \sum_(f < 2 * dim) - (tau * nth 0 u j * df_bb D i j f)); first by apply: eq_bigr => j _; rewrite -sumrN.
rewrite exchange_big; apply: eq_bigr => f _; rewrite mxE mulr_sumr -sumrN; apply: eq_bigr => j _ /=.
by rewrite !mxE -mulrA [X in _ * X]mulrC.
Qed.
Lemma dp_fill_flux_ok v : size v = nf -> let w := dp_fill_flux dim poly_deg tau P X u lambda v in
  size w = nf /\ vec_of nf w = rate H tau (qpart nf X) (vec_of nf u) (tr nb lambda) (\col_i df_src D i).
Proof.
move=> sv /=; rewrite dp_fill_fluxE // size_for_assign; split=> //.
by apply/colP => i; rewrite mxE nth_for_upd ?sv // dp_rate_entry.
Qed.
Lemma dp_fill_bdr_ok v : size v = (nb * (2 * dim))%N -> is_trace (2 * dim) nb lambda ->
  let w := dp_fill_bdr dim poly_deg dirs tau P X lambda v in
  size w = (nb * (2 * dim))%N /\ forall (f : 'I_(2 * dim)) (j : 'I_nb),
    mget nb w j f = if mask f then 0 else num_flux H tau (qpart nf X) (upart nf dim X) (tr nb lambda) f j 0.
Proof.
move=> sv [sl /allP al] /=.
have -> : dp_fill_bdr dim poly_deg dirs tau P X lambda v = for_ (2 * dim) (fun f b => for_ nb (fun j b =>
   upd b (loc nb j f) (if mask f then 0 else dp_num_flux dim poly_deg tau P X lambda f j)) b) v.
  rewrite /dp_fill_bdr sl; apply: eq_for => f b hf.
  by rewrite (eqP (al _ (mem_nth [::] _))) // sl.
pose h (j f : nat) (_ : F) := if mask f then 0 else dp_num_flux dim poly_deg tau P X lambda f j.
split; first by rewrite (@size_for2_assign F 0 nb (loc nb) h).
move=> f j; rewrite /mget (@nth_for2_assign_in F 0 nb (loc nb) h) ?sv ?loc_lt //.
  by rewrite /h dp_num_fluxE.
by move=> a c a' c' ha _ ha' _ /eqP; rewrite loc_inj // => /andP[/eqP -> /eqP ->].
Qed.
End Fill.
End Parab.
