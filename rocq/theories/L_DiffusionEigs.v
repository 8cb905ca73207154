(** Proofs about M_DiffusionEigs: from the arrays to the local problem. *)
From mathcomp Require Import all_ssreflect all_algebra zify ring.
From Verif Require Import M_Base L_Base M_Index L_Index M_DenseLA S_DenseLA L_DenseLA M_Lapack S_Lapack L_Lapack.
From Verif Require Import S_Hdg L_Hdg S_Tpp S_LocalSolver M_DiffusionUniform M_Diffusion S_Diffusion.
From Verif Require Import L_LocalBase L_LocalBlock L_LocalLink L_HdgSrc L_DiffusionUniform L_Diffusion.
From Verif Require Import S_DiffusionParab L_DiffusionParab L_Theta L_BlockLink M_DiffusionEigs S_DiffusionEigs L_EigHdg.
Set Implicit Arguments. Unset Strict Implicit. Unset Printing Implicit Defensive.
Import Order.TTheory GRing.Theory Num.Theory.
Local Open Scope ring_scope.

Section Eigs.
Variable F : realFieldType.
Variable gesv : nat -> nat -> seq F -> seq F -> sv_result F.
Variables (dim poly_deg : nat) (dirs : seq nat) (tau eig : F) (D : df_data F).
Notation nf := (n_shape_fct dim poly_deg).
Notation nb := (n_shape_bdr dim poly_deg).
Notation nl := (n_loc_dofs dim poly_deg).
Notation A := (de_assemble_loc_matrix dim poly_deg tau D eig).
Notation mask := (face_dirichlet dirs D).
Notation H := (hdg_of nf nb dim (2 * dim) (df_vol D) (df_grad D) (df_bp D) (df_bb D)
  (df_normal D) (df_area D)).
Notation m := (\matrix_(i, j) df_mass D i j : 'M[F]_nf).

Definition deA i j : seq (nat * nat * F) :=
  ((dim, dim), tau * (df_face_loop dim D i j).1) ::
  flatten [seq [:: ((d, d), df_vol D i j); ((dim, d), - df_grad D i j d); ((d, dim), - df_grad D i j d);
                   ((dim, d), nth 0 (df_face_loop dim D i j).2 d)] | d <- iota 0 dim] ++
  [:: ((dim, dim), - (eig * df_mass D i j))].
Lemma de_assembleE : A = accumulate (zeros F nl nl) (flatten [seq flatten [seq
   [seq (loc nl (e.1.1 * nf + i) (e.1.2 * nf + j), e.2) | e <- deA i j]
    | j <- iota 0 nf] | i <- iota 0 nf]).
Proof.
apply: for_acc => i s _; apply: for_acc => j t _; rewrite /deA map_cons map_cat map_flatten -map_comp.
rewrite -cat1s !accumulate_cat /=; congr (madd _ _ _ _ _); exact: for_acc.
Qed.
Lemma de_size_A : size A = (nl * nl)%N.
Proof. by rewrite de_assembleE size_accumulate size_nseq. Qed.
Lemma deA_in i j e : e \in deA i j -> (e.1.1 < dim + 1)%N && (e.1.2 < dim + 1)%N.
Proof.
rewrite inE => /orP[/eqP -> /=|]; first by lia.
rewrite mem_cat => /orP[|]; last by rewrite inE => /eqP -> /=; lia.
case/flattenP => l /mapP[d]; rewrite mem_iota add0n => /andP[_ hd] ->.
by rewrite !inE => /or4P[] /eqP -> /=; lia.
Qed.

(** The blocks of the matrix. *)
Definition eK (X Y : 'I_(dim + 1)) : 'M[F]_nf :=
  match insub (X : nat) : option 'I_dim, insub (Y : nat) : option 'I_dim with
  | Some d, Some e => if d == e then hM H else 0
  | Some d, None => - hD H d
  | None, Some e => - hD H e + \sum_f hnu H f e *: hB H f
  | None, None => tau *: (\sum_f hB H f) - eig *: m
  end.
Lemma de_block (X Y : 'I_(dim + 1)) (i j : 'I_nf) :
  nth 0 A (loc nl (X * nf + i) (Y * nf + j)) = eK X Y i j.
Proof.
case: X => X hX'; case: Y => Y hY'; rewrite /=; have hX : (X <= dim)%N by lia. have hY : (Y <= dim)%N by lia.
rewrite de_assembleE (@block_entry _ (dim + 1) nf deA X Y i j) //; last first.
  by move=> x y e _ _ /deA_in.
rewrite /deA contrib2_cons contrib2_cat contrib2_loop !contrib2_cons contrib2_nil !xpair_eqE.
under eq_bigr => d _ do rewrite !contrib2_cons contrib2_nil !xpair_eqE addr0.
rewrite /eK /=; case: (ltnP X dim) => hXd.
  have hXn : (dim == X) = false by lia.
  rewrite hXn /= add0r !addr0 (insubT (fun x => x < dim)%N hXd) (sum_ord1 (i := Ordinal hXd)) => [|d hne].
    rewrite !eqxx /= addr0 add0r; case: (ltnP Y dim) => hYd.
      rewrite (insubT (fun x => x < dim)%N hYd) -val_eqE /=.
      have -> : (dim == Y) = false by lia.
      by rewrite !addr0; case: eqP => _; rewrite ?mxE.
    have eY : Y = dim by lia.
    by rewrite insubF ?ltnNge ?hYd // eY eqxx (ltn_eqF hXd) add0r !mxE.
  by rewrite (negbTE hne) /= !addr0.
have eX : X = dim by lia.
rewrite insubF ?ltnNge ?hXd // eX eqxx /=; case: (ltnP Y dim) => hYd.
  rewrite (insubT (fun x => x < dim)%N hYd) !mxE.
  have -> : (dim == Y) = false by lia.
  rewrite add0r !addr0 (sum_ord1 (i := Ordinal hYd)) => [|d hne].
    rewrite eqxx /= (ltn_eqF hYd) /= !add0r face_loop2 // summxE; congr (_ + _).
    by apply: eq_bigr => f _; rewrite !mxE.
  by rewrite (negbTE hne) (ltn_eqF (ltn_ord d)) /= !addr0.
have eY : Y = dim by lia.
rewrite eY eqxx insubF ?ltnn // big1 ?add0r ?addr0 => [|d _].
  rewrite face_loopE /= [in RHS]mxE [in RHS]mxE summxE [X in _ = _ + X]mxE [X in _ = _ + - X]mxE [X in _ = _ + - (_ * X)]mxE.
  congr (_ * _ + _); apply: eq_bigr => f _.
  by rewrite mxE.
by rewrite (ltn_eqF (ltn_ord d)) /= !addr0.
Qed.

Lemma eK_q (v : 'I_(dim + 1) -> 'cV[F]_nf) (d : 'I_dim) :
  \sum_Y eK (lshift 1 d) Y *m v Y = op_q H (fun e => v (lshift 1 e)) (v (rshift dim ord0)) d.
Proof.
rewrite sum_dim1 /eK insub_q insub_u mulNmx /op_q; congr (_ - _).
rewrite (sum_ord1 (i := d)) => [|e hne]; first by rewrite insub_q eqxx.
by rewrite insub_q -val_eqE eq_sym (negbTE hne) mul0mx.
Qed.
Lemma eK_u (v : 'I_(dim + 1) -> 'cV[F]_nf) :
  \sum_Y eK (rshift dim ord0) Y *m v Y =
    op_u H tau (fun e => v (lshift 1 e)) (v (rshift dim ord0)) - eig *: (m *m v (rshift dim ord0)).
Proof.
rewrite sum_dim1 /eK insub_u mulmxBl addrA /op_u -!scalemxAl mulmx_suml; congr (_ + _ - _).
by apply: eq_bigr => d _; rewrite insub_q.
Qed.

Section Solve.
Variable ar : F.
Hypotheses (hm : m = ar%:M).
Lemma de_irregular rhs : size rhs = nl -> gesv_detects gesv -> ~ ereg H tau (eig * ar) ->
  de_divide gesv dim poly_deg tau D eig rhs = Throw.
Proof.
move=> sr hd hir; rewrite /de_divide /solve_const /=.
have hu : mx_of nl nl A \notin unitmx.
  apply/negP => uA; apply: hir => q u /op_src[h1 h2].
  pose v (Y : 'I_(dim + 1)) : 'cV[F]_nf := if insub (Y : nat) : option 'I_dim is Some d then q d else u.
  have vq d : v (lshift 1 d) = q d by rewrite /v insub_q.
  have vu : v (rshift dim ord0) = u by rewrite /v insub_u.
  have hv := blink_kernel de_block (v := v) uA.
  have hv0 : forall Q, v Q = 0.
    apply: hv => X; case: (split_ordP X) => k ->.
      rewrite eK_q vu -[RHS](_ : op_q H q u k = 0); last first.
        by rewrite h1 big1 ?oppr0 // => f _; rewrite mulmx0 scaler0.
      by rewrite /op_q vq.
    rewrite (ord1 k) eK_u vu -[RHS](_ : op_u H tau q u - (eig * ar) *: u = 0); last first.
      by rewrite h2 big1 ?scaler0 ?addr0 // => f _; rewrite mulmx0.
    congr (_ - _); last by rewrite hm mul_scalar_mx scalerA.
    by congr (_ + _); apply: eq_bigr => d _; rewrite vq.
  by split=> [d|]; [rewrite -vq | rewrite -vu].
have hm1 : is_mat nl 1 rhs by rewrite /is_mat muln1.
by rewrite (negbTE (hd nl 1%N A rhs de_size_A hm1 hu)).
Qed.
Hypotheses (hg : gesv_correct gesv) (hreg : ereg H tau (eig * ar)).
Lemma de_divide_ok rhs : size rhs = nl ->
  exists X, [/\ de_divide gesv dim poly_deg tau D eig rhs = Ok X, size X = nl,
    forall d, op_q H (qpart nf X) (upart nf dim X) d = qpart nf rhs d
  & op_u H tau (qpart nf X) (upart nf dim X) - (eig * ar) *: upart nf dim X = upart nf dim rhs].
Proof.
move=> sr.
have em u : eig *: (m *m u) = (eig * ar) *: u by rewrite hm mul_scalar_mx scalerA.
have hK (v : 'I_(dim + 1) -> 'cV[F]_nf) : (forall X, \sum_Y eK X Y *m v Y = 0) -> forall Y, v Y = 0.
  move=> hv.
  have h1 : eloc H tau (eig * ar) (fun e => v (lshift 1 e)) (v (rshift dim ord0)) (fun=> 0) 0.
    apply/op_src; split=> [d|].
      have := hv (lshift 1 d); rewrite eK_q => ->.
      by rewrite big1 ?oppr0 // => f _; rewrite mulmx0 scaler0.
    have := hv (rshift dim ord0); rewrite eK_u em => ->.
    by rewrite big1 ?scaler0 ?addr0 // => f _; rewrite mulmx0.
  have [hq hu] := hreg h1.
  move=> Y; case: (split_ordP Y) => k ->; first exact: hq.
  by rewrite (ord1 k).
have [X [hX sX hXX]] := blink_solve de_block hg hK de_size_A sr.
exists X; split=> //.
  by move=> d; have := hXX (lshift 1 d); rewrite eK_q bpart_u.
by have := hXX (rshift dim ord0); rewrite eK_u !bpart_u em.
Qed.
Lemma de_solve_ok lambda : lambda_ok dim poly_deg lambda -> exists rhs X,
  [/\ df_rhs_lambda dim poly_deg tau D lambda = Ok rhs, de_divide gesv dim poly_deg tau D eig rhs = Ok X,
      size X = nl & eloc H tau (eig * ar) (qpart nf X) (upart nf dim X) (tr nb lambda) 0].
Proof.
move=> hl; have [X [hX sX hq hu]] := de_divide_ok (df_size_rhs _ _ tau D lambda).
eexists; exists X; split => //; first by rewrite /df_rhs_lambda hl /=.
  exact: hX.
apply/op_src; split=> [d|]; first by rewrite hq df_rhs_q.
by rewrite hu df_rhs_u addr0.
Qed.
(** The right-hand side of the Jacobian. *)
Lemma de_rhs_ok (X : seq F) s : size X = nl ->
  let rhs := for_ nf (fun i c => upd c (dim * nf + i) (nth 0 c (dim * nf + i) * s))
    (for_ (dim * nf) (fun i c => upd c i 0) X) in
  [/\ size rhs = nl, forall d : 'I_dim, qpart nf rhs d = 0 & upart nf dim rhs = s *: upart nf dim X].
Proof.
move=> sX /=.
set c1 := for_ (dim * nf) _ X.
have s1 : size c1 = nl by rewrite /c1 size_for_assign.
have hnl : nl = (dim * nf + nf)%N by rewrite /n_loc_dofs mulnDl mul1n.
split; first by rewrite (@size_for_assign F nf (fun i => dim * nf + i)%N (fun i m => nth 0 m (dim * nf + i) * s)).
  move=> d; apply/colP => i; rewrite !mxE.
  have hi : (d * nf + i < dim * nf)%N by exact: block_lt.
  rewrite (@nth_for_assign_out F 0 nf (fun i => dim * nf + i)%N (fun _ y => y * s)); last first.
    by move=> k _; lia.
  by rewrite /c1 nth_for_upd // sX hnl; lia.
apply/colP => i; rewrite !mxE (@nth_for_assign_in F 0 nf (fun i => dim * nf + i)%N (fun _ y => y * s)) //; first last.
- by rewrite s1 hnl ltn_add2l.
- by move=> a b _ _; lia.
rewrite /c1 (@nth_for_assign_out F 0 (dim * nf) id (fun _ _ => 0)) 1?mulrC //.
by move=> k hk /=; lia.
Qed.
End Solve.

(** ** Fluxes *)
Lemma for_acc2 (R : ringType) n (evs : nat -> seq (nat * nat * R)) (body : nat -> seq (seq R) -> seq (seq R)) h w t :
  rect h w t -> (forall i s, (i < n)%N -> rect h w s -> body i s = acc2 s (evs i)) ->
  for_ n body t = acc2 t (flatten [seq evs i | i <- iota 0 n]).
Proof.
move=> ht; elim: n => [//|n IH] hb; rewrite for_S IH => [|i s hi]; last by apply: hb; lia.
by rewrite hb //; [rewrite -addn1 iotaD map_cat flatten_cat acc2_cat /= cats0 | exact: rect_acc].
Qed.
Lemma de_addE X (V : 'I_(2 * dim) -> 'cV[F]_nb) out : is_trace (2 * dim) nb out ->
  (forall (f : 'I_(2 * dim)) (j : 'I_nb), de_bdr_flux dim poly_deg tau D X f j = V f j 0) ->
  is_trace (2 * dim) nb (de_add dim poly_deg dirs tau D X out) /\
  forall f : 'I_(2 * dim), tr nb (de_add dim poly_deg dirs tau D X out) f =
    tr nb out f + if mask f then 0 else V f :> 'cV[F]_nb.
Proof.
move=> ho hV.
have hr : rect (2 * dim) nb out.
  by case: ho => so /allP ao; split=> // f hf; apply/eqP/ao/mem_nth; rewrite so.
pose g i j := if mask i then 0 else de_bdr_flux dim poly_deg tau D X i j.
have -> : de_add dim poly_deg dirs tau D X out =
    acc2 out (flatten [seq flatten [seq [:: ((i, j), g i j)] | j <- iota 0 nb] | i <- iota 0 (2 * dim)]).
  rewrite /de_add; case: (hr) => -> _; apply: for_acc2 hr _ => i s hi hs.
  case: (hs) => _ ->//; exact: for_acc2 hs _.
set t := acc2 _ _; have ht : rect (2 * dim) nb t by exact: rect_acc.
split.
  case: ht => st ht; split=> //; apply/allP => l /(nthP [::])[k]; rewrite st => hk <-.
  by rewrite ht.
move=> f; apply/colP => j; rewrite !mxE -/(get2 t f j) -/(get2 out f j) (get2_acc _ hr) //; congr (_ + _).
rewrite contrib2_loop (sum_ord1 (i := f)) => [|k hk]; last first.
  rewrite contrib2_loop big1 // => l _; rewrite contrib2_cons contrib2_nil xpair_eqE /= addr0.
  by rewrite (negbTE hk).
rewrite contrib2_loop (sum_ord1 (i := j)) => [|k hk]; last first.
  by rewrite contrib2_cons contrib2_nil xpair_eqE /= addr0 (negbTE hk) andbF.
rewrite contrib2_cons contrib2_nil !eqxx addr0 /g; case: (mask f); rewrite ?hV // mxE //.
Qed.
Lemma de_bdr_fluxE X (f : 'I_(2 * dim)) (j : 'I_nb) :
  de_bdr_flux dim poly_deg tau D X f j = num_flux H tau (qpart nf X) (upart nf dim X) (fun=> 0) f j 0.
Proof.
rewrite /de_bdr_flux df_dual_tr df_primal_tr /num_flux !mxE mulr0 subr0.
by congr (_ + _).
Qed.
Lemma de_num_fluxE X lambda (f : 'I_(2 * dim)) (j : 'I_nb) :
  de_num_flux dim poly_deg tau D X lambda f j =
  num_flux H tau (qpart nf X) (upart nf dim X) (tr nb lambda) f j 0.
Proof.
rewrite /de_num_flux /de_bdr_flux df_dual_tr df_primal_tr /num_flux !mxE /lambda_at; congr (_ + _ - _).
by rewrite -!mulrA; congr (_ * _); exact: mulrC.
Qed.
Lemma de_writeE (G : nat -> nat -> F) (V : 'I_(2 * dim) -> 'cV[F]_nb) out : is_trace (2 * dim) nb out ->
  (forall (f : 'I_(2 * dim)) (j : 'I_nb), G f j = V f j 0) ->
  is_trace (2 * dim) nb (df_write dirs D G out) /\
  forall f : 'I_(2 * dim), tr nb (df_write dirs D G out) f = if mask f then 0 else V f :> 'cV[F]_nb.
Proof.
move=> ho hG; rewrite (df_writeE dirs D G ho); split; first exact: mk_is_trace.
move=> f; apply/colP => j; rewrite mxE (nth_mkseq [::]) ?ltn_ord // nth_mkseq //.
by case: ifP => _; rewrite ?hG // mxE.
Qed.
End Eigs.
