(** Proofs about M_BilapParab: from the arrays to the equations of one step. *)
From mathcomp Require Import all_ssreflect all_algebra zify ring.
From Verif Require Import M_Base L_Base M_Index L_Index M_DenseLA S_DenseLA L_DenseLA M_Lapack S_Lapack L_Lapack.
From Verif Require Import S_Hdg L_Hdg S_Tpp S_LocalSolver M_DiffusionUniform M_Diffusion S_Diffusion.
From Verif Require Import L_LocalBase L_LocalBlock L_LocalLink L_HdgSrc L_DiffusionUniform L_Diffusion L_BlockLink.
From Verif Require Import M_Bilaplacian S_Bilaplacian L_BiLink L_Bilaplacian L_Bilaplacian2 L_BiReact L_BilapReact.
From Verif Require Import S_BiReact M_BilapParab S_BilapParab.
Set Implicit Arguments. Unset Strict Implicit. Unset Printing Implicit Defensive.
Import Order.TTheory GRing.Theory Num.Theory.
Local Open Scope ring_scope.

Section Parab.
Variable F : realFieldType.
Variable gesv : nat -> nat -> seq F -> seq F -> sv_result F.
Variables (dim poly_deg : nat) (dirs laps : seq nat) (tau theta dt : F) (P : bp_data F).
Hypothesis dim0 : (0 < dim)%N.
Notation B := (bp_bl P).
Notation D := (bl_df B).
Notation nf := (n_shape_fct dim poly_deg).
Notation nb := (n_shape_bdr dim poly_deg).
Notation L := (dim + 1)%N.
Notation nl := ((L + L) * nf)%N.
Notation second X := (drop (L * nf) X).
Notation H := (hdg_of nf nb dim (2 * dim) (df_mass D) (df_grad D) (df_bp D) (df_bb D)
  (df_normal D) (df_area D)).
Notation W := (\matrix_(i, j) df_vol D i j : 'M[F]_nf).
Notation M := (\matrix_(i, j) df_mass D i j : 'M[F]_nf).
Notation kap := (theta * dt).
Let tk x : tau * theta * dt * x = kap * (tau * x).
Proof. by rewrite mulrA [kap * tau]mulrC mulrA. Qed.

Lemma bp_assembleE : bp_assemble_loc_matrix dim poly_deg tau theta dt D = arr dim poly_deg tau kap 1 B.
Proof.
rewrite /bp_assemble_loc_matrix /arr bl_nl // bl_lap // bl_nf //.
apply: for_acc => i s _; apply: for_acc => j t _; rewrite /brA !map_cat map_flatten -map_comp.
rewrite !accumulate_cat /= -!at_second tk mul1r; congr add_at; apply: for_acc => d r _ /=.
by rewrite -!at_second mulrN.
Qed.

(** ** Right-hand sides *)
Section Lambda.
Variable lambda : seq (seq F).
Notation lam := (lambda_at lambda).
Notation rhs := (bp_rhs_lambda_loop dim poly_deg tau theta dt D lambda).
Notation part k := (df_rhs_lambda_loop dim poly_deg tau (w_problem B) (k nb lambda)).
Definition bpR i : seq (nat * F) := flatten [seq flatten [seq
   [:: (dim, tau * lam f j * df_bp D i j f); ((L + dim)%N, tau * theta * dt * lam f (nb + j)%N * df_bp D i j f)] ++
   flatten [seq [:: (d, - (df_normal D f d * lam f j * df_bp D i j f));
                    ((L + d)%N, - (df_normal D f d * lam f (nb + j)%N * df_bp D i j f))] | d <- iota 0 dim]
   | f <- iota 0 (2 * dim)] | j <- iota 0 nb].
Lemma bp_rhsE : rhs = accumulate (zeros F nl 1)
  (flatten [seq [seq ((e.1 * nf + i)%N, e.2) | e <- bpR i] | i <- iota 0 nf]).
Proof.
rewrite /bp_rhs_lambda_loop bl_nl // bl_lap // bl_nf //.
apply: for_acc => i s _; rewrite /bpR map_flatten -map_comp; apply: for_acc => j t _.
rewrite /= map_flatten -map_comp; apply: for_acc => f r _ /=.
rewrite map_flatten -map_comp -at_second; apply: for_acc => d k _ /=.
by rewrite -at_second.
Qed.
Lemma bp_size_rhs : size rhs = nl.
Proof. by rewrite bp_rhsE size_accumulate size_nseq muln1. Qed.
Lemma bp_rhs_lo k i : (k <= dim)%N -> (i < nf)%N -> nth 0 rhs (k * nf + i) = nth 0 (part (@lower F)) (k * nf + i).
Proof.
move=> hk hi; rewrite bp_rhsE (@block_vec _ (L + L) nf) //; last by lia.
rewrite df_rhsE (@block_vec _ L nf) //; last by lia.
rewrite /bpR /dfR !contrib_loop; apply: eq_bigr => j _; rewrite !contrib_loop; apply: eq_bigr => f _.
rewrite contrib_cat !contrib_cons contrib_nil contrib_loop.
have ek a : (L + a == k)%N = false by lia.
rewrite ek !addr0 lower_at //; congr (_ + _).
have -> : [seq (d, - (df_normal D f d * lam f j * df_bp D i j f)) | d <- iota 0 dim] =
   flatten [seq [:: (d, - (df_normal D f d * lam f j * df_bp D i j f))] | d <- iota 0 dim].
  by elim: (iota 0 dim) => //= d l ->.
by rewrite contrib_loop; apply: eq_bigr => d _; rewrite !contrib_cons ek contrib_nil add0r.
Qed.
Lemma bp_rhs_hi k i : (k <= dim)%N -> (i < nf)%N ->
  nth 0 (second rhs) (k * nf + i) = (if k == dim then kap else 1) * nth 0 (part (@upper F)) (k * nf + i).
Proof.
move=> hk hi; rewrite nth_drop addnA at_second bp_rhsE (@block_vec _ (L + L) nf) //; last by lia.
rewrite df_rhsE (@block_vec _ L nf) //; last by lia.
rewrite /bpR /dfR !contrib_loop mulr_sumr; apply: eq_bigr => j _.
rewrite !contrib_loop mulr_sumr; apply: eq_bigr => f _.
rewrite contrib_cat !contrib_cons contrib_nil contrib_loop.
have ek a : (a <= dim)%N -> (a == L + k)%N = false by lia.
rewrite ek // eqn_add2l addr0 add0r upper_at mulrDr; congr (_ + _).
  by rewrite eq_sym; case: (k == dim) => //=; rewrite ?mulr0 // tk !mulrA.
have -> : [seq (d, - (df_normal D f d * lam f (nb + j)%N * df_bp D i j f)) | d <- iota 0 dim] =
   flatten [seq [:: (d, - (df_normal D f d * lam f (nb + j)%N * df_bp D i j f))] | d <- iota 0 dim].
  by elim: (iota 0 dim) => //= d l ->.
rewrite contrib_loop mulr_sumr; apply: eq_bigr => d _.
have hd := ltn_ord d; rewrite !contrib_cons ek ?contrib_nil ?add0r ?addr0 ?eqn_add2l; last by lia.
case: (eqVneq k dim) => [->|_]; last by rewrite mul1r.
by rewrite (_ : (d == dim :> nat) = false) ?mulr0 //; lia.
Qed.
End Lambda.

Section Global.
Hypotheses (theta0 : theta != 0).
Notation rhs := (bp_rhs_data dim poly_deg dirs laps tau theta dt P).
Notation Q := (bp_eff theta P).
Notation mask := (face_dirichlet dirs D).
Notation mask2 := (face_dirichlet laps D).
Definition bpG i : seq (nat * F) :=
  ((L + dim)%N, kap * df_src D i + (1 - theta) * dt * bp_src_old P i) :: flatten [seq
     (if mask f then (dim, tau * df_dirval D i f) ::
        flatten [seq [:: (d, - (df_normal D f d * df_dirval D i f))] | d <- iota 0 dim] else [::]) ++
     (if mask2 f then ((L + dim)%N, tau * theta * dt * bl_dirlap B i f) ::
        flatten [seq [:: ((L + d)%N, - (df_normal D f d * bl_dirlap B i f))] | d <- iota 0 dim] else [::])
     | f <- iota 0 (2 * dim)].
Lemma bp_globalE : rhs = accumulate (zeros F nl 1)
  (flatten [seq [seq ((e.1 * nf + i)%N, e.2) | e <- bpG i] | i <- iota 0 nf]).
Proof.
rewrite /bp_rhs_data bl_nl // bl_lap // bl_nf //.
apply: for_acc_hist => i hi s; rewrite /bpG map_cons -cat1s accumulate_cat at_second.
set v := kap * df_src D i + _.
have hu : upd s ((L + dim) * nf + i) v = accumulate s [:: (((L + dim) * nf + i)%N, v)].
  rewrite -add_at_accumulate /add_at; congr upd.
  have hs : ((L + dim) * nf + i < size (zeros F nl 1))%N by rewrite size_nseq muln1 bl_pos //; lia.
  rewrite nth_contrib // nth_nseq if_same add0r contrib_loop big1 ?add0r // => k _.
  rewrite /contrib big_map big1 // => e /=; rewrite block_inj //; last by have := ltn_ord k; lia.
  by have := ltn_ord k => hk /andP[_ /eqP]; lia.
rewrite [X in for_ _ _ X]hu map_flatten -map_comp; apply: for_acc => f r _ /=.
rewrite -[mask f]/(bl_dirichlet dirs D f) -[mask2 f]/(bl_laplacian laps D f) map_cat accumulate_cat.
have -> : (if bl_dirichlet dirs D f then for_ dim (fun d r => add_at r (d * nf + i) (- (df_normal D f d * df_dirval D i f)))
             (add_at r (dim * nf + i) (tau * df_dirval D i f)) else r) =
   accumulate r [seq ((e.1 * nf + i)%N, e.2) | e <- if bl_dirichlet dirs D f then (dim, tau * df_dirval D i f) ::
        flatten [seq [:: (d, - (df_normal D f d * df_dirval D i f))] | d <- iota 0 dim] else [::]].
  by case: ifP => //= _; rewrite map_flatten -map_comp; apply: for_acc.
case: (bl_laplacian laps D f) => //=; rewrite map_flatten -map_comp; apply: for_acc => d k _ /=.
by rewrite -at_second.
Qed.
Lemma bp_size_global : size rhs = nl.
Proof. by rewrite bp_globalE size_accumulate size_nseq muln1. Qed.
Lemma bp_global_lo k i : (k <= dim)%N -> (i < nf)%N ->
  nth 0 rhs (k * nf + i) = nth 0 (df_rhs_global dim poly_deg dirs tau (u_problem Q)) (k * nf + i).
Proof.
move=> hk hi; rewrite bp_globalE (@block_vec _ (L + L) nf) //; last by lia.
rewrite df_globalE (@block_vec _ L nf) //; last by lia.
have ek a : (L + a == k)%N = false by lia.
rewrite /bpG /dfG !contrib_cons ek /= if_same !contrib_loop; congr (_ + _); apply: eq_bigr => f _.
rewrite contrib_cat [X in _ + X](_ : _ = 0) ?addr0; last first.
  case: ifP => _; rewrite ?contrib_cons ?ek ?contrib_loop ?contrib_nil // big1 ?addr0 // => d _.
  by rewrite contrib_cons ek contrib_nil addr0.
rewrite -[face_dirichlet dirs (u_problem Q) f]/(mask f); case: ifP => // _; rewrite !contrib_cons; congr (_ + _).
by congr contrib; elim: (iota 0 dim) => //= d l ->.
Qed.
Lemma bp_global_hi k i : (k <= dim)%N -> (i < nf)%N ->
  nth 0 (second rhs) (k * nf + i) =
  (if k == dim then kap else 1) * nth 0 (df_rhs_global dim poly_deg laps tau (w_problem Q)) (k * nf + i).
Proof.
move=> hk hi; rewrite nth_drop addnA at_second bp_globalE (@block_vec _ (L + L) nf) //; last by lia.
rewrite df_globalE (@block_vec _ L nf) //; last by lia.
have ek a : (a <= dim)%N -> (a == L + k)%N = false by lia.
rewrite /bpG /dfG !contrib_cons eqn_add2l !contrib_loop mulrDr mulr_sumr; congr (_ + _).
  rewrite eq_sym; case: (k == dim) => //=; rewrite ?mulr0 // mulrDr; congr (_ + _).
  move: (bp_src_old P i) => s; by field.
apply: eq_bigr => f _.
rewrite contrib_cat [X in X + _](_ : _ = 0) ?add0r; last first.
  case: ifP => _; rewrite ?contrib_cons ?ek ?contrib_loop ?contrib_nil // big1 ?addr0 // => d _.
  by rewrite contrib_cons ek ?contrib_nil ?addr0 //; have := ltn_ord d; lia.
rewrite -[face_dirichlet laps (w_problem Q) f]/(mask2 f); case: ifP => _; last by rewrite !contrib_nil mulr0.
rewrite !contrib_cons eqn_add2l mulrDr; congr (_ + _).
  by rewrite eq_sym; case: (k == dim); rewrite ?mulr0 // tk.
have -> : [seq (d, - (df_normal (w_problem Q) f d * df_dirval (w_problem Q) i f)) | d <- iota 0 dim] =
   flatten [seq [:: (d, - (df_normal D f d * bl_dirlap B i f))] | d <- iota 0 dim].
  by elim: (iota 0 dim) => //= d l ->.
rewrite !contrib_loop mulr_sumr; apply: eq_bigr => d _; have hd := ltn_ord d.
rewrite !contrib_cons eqn_add2l !contrib_nil !addr0.
case: (eqVneq k dim) => [->|_]; last by rewrite mul1r.
by rewrite (_ : (d == dim :> nat) = false) ?mulr0 //; lia.
Qed.
End Global.

(** ** The solution *)
Hypotheses (hg : gesv_correct gesv) (kap0 : kap != 0).
Hypothesis hr : reg dim poly_deg tau kap 1 B.
Notation solve st old := (bp_solve_local_problem gesv dim poly_deg dirs laps tau theta dt P old st).
Notation Q := (bp_eff theta P).
Notation rq := (df_rq_ poly_deg dirs (u_problem Q)).
Notation ru := (df_ru_ dim poly_deg dirs tau (u_problem Q)).
Notation rr := (df_rq_ poly_deg laps (w_problem Q)).
Notation rw := (df_ru_ dim poly_deg laps tau (w_problem Q)).
Let theta0 : theta != 0. Proof. by apply: contraNneq kap0 => ->; rewrite mul0r. Qed.
Let hi_q (r b : seq F) : (forall k i, (k <= dim)%N -> (i < nf)%N ->
    nth 0 (second r) (k * nf + i) = (if k == dim then kap else 1) * nth 0 b (k * nf + i)) ->
  (forall d : 'I_dim, qpart nf (second r) d = qpart nf b d :> 'cV[F]_nf) /\
  upart nf dim (second r) = kap *: upart nf dim b :> 'cV[F]_nf.
Proof.
move=> h; split=> [d|]; apply/colP => i; rewrite !mxE h // ?eqxx //; last exact: ltnW.
by rewrite (ltn_eqF (ltn_ord d)) mul1r.
Qed.
Let split_add (r s : seq F) : size r = nl ->
  [/\ forall d : 'I_dim, qpart nf (mat_add nl 1 1 r s) d = qpart nf r d + qpart nf s d :> 'cV[F]_nf,
      upart nf dim (mat_add nl 1 1 r s) = upart nf dim r + upart nf dim s :> 'cV[F]_nf,
      forall d : 'I_dim, qpart nf (second (mat_add nl 1 1 r s)) d = qpart nf (second r) d + qpart nf (second s) d :> 'cV[F]_nf
    & upart nf dim (second (mat_add nl 1 1 r s)) = upart nf dim (second r) + upart nf dim (second s) :> 'cV[F]_nf].
Proof.
move=> sr; split=> [d||d|]; apply/colP => i; rewrite !mxE ?nth_drop nth_add //;
  by [apply: pos_lo => //; apply: ltnW | apply: pos_lo | apply: pos_hi => //; apply: ltnW | apply: pos_hi].
Qed.
Section Solve.
Variable lambda : seq (seq F).
Hypothesis hl : is_trace (2 * dim) (2 * nb) lambda.
Notation x := (tr nb (lower nb lambda)).
Notation y := (tr nb (upper nb lambda)).
Let divideE rhs : bl_divide gesv dim poly_deg (bp_assemble_loc_matrix dim poly_deg tau theta dt D) rhs =
  if (solve_const gesv nl 1 rhs (arr dim poly_deg tau kap 1 B)).1 is Throw then Abort
  else (solve_const gesv nl 1 rhs (arr dim poly_deg tau kap 1 B)).1.
Proof. by rewrite /bl_divide bl_nl // bp_assembleE; case: (solve_const _ _ _ _ _) => -[]. Qed.
Let c1 : - (kap^-1 * 1) = - kap^-1 :> F. Proof. by rewrite mulr1. Qed.
Lemma bp_solve0 old : exists X, [/\ solve 0%N old lambda = Ok X, size X = nl,
    loc_src H tau (qpart nf (second X)) (upart nf dim (second X)) y (fun=> 0) (0 + - kap^-1 *: (M *m upart nf dim X))
  & loc_src H tau (qpart nf X) (upart nf dim X) x (fun=> 0) (W *m upart nf dim (second X) + 0)].
Proof.
rewrite /bp_solve_local_problem /bp_rhs_lambda (iffRL (bl_lambda_okP _ _ _) hl) /= divideE -c1.
have [l1 l2] := part_ext (fun k i hk hi => bp_rhs_lo lambda hk hi).
have [l3 l4] := hi_q (fun k i hk hi => bp_rhs_hi lambda hk hi).
have [d||d||X [-> sX h1 h2]] := arr_solve dim0 kap0 (sq := fun=> 0) (sr := fun=> 0) (su := 0) (sw := 0) (x := x) (y := y)
   hg hr (bp_size_rhs lambda).
- by rewrite l1 df_rhs_q addr0.
- by rewrite l2 df_rhs_u addr0.
- by rewrite l3 df_rhs_q addr0.
- by rewrite l4 df_rhs_u addr0.
by exists X.
Qed.
Lemma bp_solve1 old : exists X, [/\ solve 1%N old lambda = Ok X, size X = nl,
    loc_src H tau (qpart nf (second X)) (upart nf dim (second X)) y rr
      (rw + kap^-1 *: (M *m upart nf dim old) + - kap^-1 *: (M *m upart nf dim X))
  & loc_src H tau (qpart nf X) (upart nf dim X) x rq (W *m upart nf dim (second X) + ru)].
Proof.
rewrite /bp_solve_local_problem /bp_rhs_lambda (iffRL (bl_lambda_okP _ _ _) hl) /= bl_nl // divideE -c1.
have [l1 l2] := part_ext (fun k i hk hi => bp_rhs_lo lambda hk hi).
have [l3 l4] := hi_q (fun k i hk hi => bp_rhs_hi lambda hk hi).
have [g1 g2] := part_ext (fun k i hk hi => bp_global_lo theta0 hk hi).
have [g3 g4] := hi_q (fun k i hk hi => bp_global_hi theta0 hk hi).
have [o1 o2 o3 o4] := halves_parts (@coeffs_halves F dim poly_deg B dim0 old).
have z5 d : qpart nf [::] d = 0 :> 'cV[F]_nf by apply/colP => i; rewrite !mxE nth_nil.
have z6 : upart nf dim [::] = 0 :> 'cV[F]_nf by apply/colP => i; rewrite !mxE nth_nil.
have sg : size (bp_rhs_data dim poly_deg dirs laps tau theta dt P) = nl by exact: bp_size_global.
have [a1 a2 a3 a4] := split_add (bl_rhs_coeffs dim poly_deg D old) sg.
have [b1 b2 b3 b4] := split_add (bp_rhs_global dim poly_deg dirs laps tau theta dt P old) (bp_size_rhs lambda).
rewrite /bp_rhs_global bl_nl // in b1 b2 b3 b4 *.
set R := mat_add nl 1 1 (bp_rhs_lambda_loop _ _ _ _ _ _ _) _ in b1 b2 b3 b4 *.
have [|d||d||X [-> sX h1 h2]] := @arr_solve _ dim poly_deg tau kap 1 B dim0 kap0 gesv R rq rr ru (rw + kap^-1 *: (M *m upart nf dim old)) x y hg hr.
- by rewrite /R size_add bp_size_rhs.
- by rewrite b1 a1 l1 g1 o1 z5 addr0 df_rhs_q df_global_q.
- by rewrite b2 a2 l2 g2 o2 z6 addr0 df_rhs_u df_global_u.
- by rewrite b3 a3 l3 g3 o3 df_coeffs_q addr0 df_rhs_q df_global_q.
- rewrite b4 a4 l4 g4 o4 df_coeffs_u df_rhs_u df_global_u [in RHS]addrA [RHS]scalerDr.
  rewrite [X in _ = _ + X]scalerA mulfV // scale1r addrA; congr (_ + _); by rewrite -scalerDr.
by exists X.
Qed.
End Solve.
End Parab.
