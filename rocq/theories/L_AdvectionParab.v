(** Proofs about M_AdvectionParab: from the arrays to the time step. *)
From mathcomp Require Import all_ssreflect all_algebra zify ring.
From Verif Require Import M_Base L_Base M_Index L_Index M_DenseLA S_DenseLA L_DenseLA M_Lapack S_Lapack L_Lapack.
From Verif Require Import S_Hdg L_Hdg S_LocalSolver M_DiffusionUniform M_Diffusion S_Diffusion.
From Verif Require Import L_LocalBase L_LocalBlock L_LocalLink L_HdgSrc L_DiffusionUniform L_Diffusion L_DiffusionParab L_BlockLink.
From Verif Require Import M_AdvectionParab S_AdvectionParab.
Set Implicit Arguments. Unset Strict Implicit. Unset Printing Implicit Defensive.
Import Order.TTheory GRing.Theory Num.Theory.
Local Open Scope ring_scope.

Section Events.
Variable R : ringType.
Implicit Types (evs : nat -> seq (nat * R)).
Lemma contrib_none k (l : seq (nat * R)) : all (fun e => e.1 != k) l -> contrib k l = 0.
Proof.
elim: l => [|[a v] l IH] /=; first by rewrite contrib_nil.
by case/andP => h /IH hl; rewrite contrib_cons (negbTE h) add0r.
Qed.
Lemma contrib_same k (l : seq (nat * R)) : all (fun e => e.1 == k) l -> contrib k l = \sum_(e <- l) e.2.
Proof.
elim: l => [|[a v] l IH] /=; first by rewrite contrib_nil big_nil.
by case/andP => h /IH hl; rewrite contrib_cons h big_cons hl.
Qed.
Lemma sum_flat n (g : nat -> seq (nat * R)) :
  \sum_(e <- flatten [seq g k | k <- iota 0 n]) e.2 = \sum_(k < n) \sum_(e <- g k) e.2.
Proof.
rewrite big_flatten big_map -(big_mkord xpredT (fun k => \sum_(e <- g k) e.2)).
by rewrite /index_iota subn0.
Qed.
(** Round x of a loop contributes to place [pos x] only. *)
Lemma contrib_rounds n evs (pos : nat -> nat) x : (x < n)%N ->
  (forall y, (y < n)%N -> pos y = pos x -> y = x) -> (forall y, all (fun e => e.1 == pos y) (evs y)) ->
  contrib (pos x) (flatten [seq evs y | y <- iota 0 n]) = \sum_(e <- evs x) e.2.
Proof.
move=> hx hinj hev; rewrite contrib_loop (sum_ord1 (i := Ordinal hx)) => [|y hy /=]; first by rewrite contrib_same.
apply: contrib_none; apply/allP => e he; have /allP/(_ e he)/eqP -> := hev y.
by apply: contra_neq hy => h; exact: hinj h.
Qed.
End Events.
Lemma eq_for_inv (T : Type) (I : T -> Prop) n (body body' : nat -> T -> T) s :
  (forall i x, (i < n)%N -> I x -> body i x = body' i x /\ I (body' i x)) -> I s ->
  for_ n body s = for_ n body' s /\ I (for_ n body' s).
Proof.
elim: n => [//|n IH] h hs; have [e hI] := IH (fun i x hi => h i x (ltnW hi)) hs.
by rewrite !for_S e; apply: h.
Qed.

Section Adv.
Variable F : realFieldType.
Variable gesv : nat -> nat -> seq F -> seq F -> sv_result F.
Variables (dim poly_deg : nat) (dirs outs bnds : seq nat) (tau theta dt : F) (P : ap_data F).
Notation nb := (ap_shape_bdr dim poly_deg).
Notation nf := (ap_shape_fct dim poly_deg).
Notation nF := (2 * dim)%N.
Notation A := (ap_assemble_loc_matrix dim poly_deg tau theta dt P).

Lemma inflowE f : ap_dirichlet dirs bnds P f = inflow_face dirs bnds P f.
Proof. by rewrite /ap_dirichlet /inflow_face; case: (_ \in dirs) => //=; case: (_ \in bnds). Qed.
Lemma outflowE f : ap_outflow outs bnds P f = outflow_face outs bnds P f.
Proof. by rewrite /ap_outflow /outflow_face; case: (_ \in outs) => //=; case: (_ \in bnds). Qed.
Lemma ap_lambda_okP (x : seq (seq F)) : ap_lambda_ok dim poly_deg x <-> is_trace nF nb x.
Proof.
by split=> [/andP[/eqP h1 h2]|[h1 h2]]; [split | rewrite /ap_lambda_ok h1 eqxx].
Qed.

(** ** The matrix *)
Definition apA i j : seq (nat * F) :=
  [:: (loc nf i j, ap_vol P i j); (loc nf i j, - (theta * dt * ap_adv P i j))] ++
  flatten [seq [:: (loc nf i j, theta * dt * (ap_bbn P i j f + tau * ap_bb P i j f))] | f <- iota 0 nF].
Lemma apA_all i j : all (fun e => e.1 == loc nf i j) (apA i j).
Proof. by rewrite /apA /= !eqxx /=; apply: all_flat_iota => f; rewrite /= eqxx. Qed.
Lemma ap_assembleE : A = accumulate (zeros F nf nf)
  (flatten [seq flatten [seq apA i j | j <- iota 0 nf] | i <- iota 0 nf]).
Proof.
apply: for_acc => i s _; apply: for_acc => j t _; rewrite /apA accumulate_cat.
exact: for_acc.
Qed.
Lemma ap_size_A : size A = (nf * nf)%N.
Proof. by rewrite ap_assembleE size_accumulate size_nseq. Qed.
Definition loc_mx : 'M[F]_nf := mat_of nf nf (ap_vol P) - (theta * dt) *: mat_of nf nf (ap_adv P) +
  (theta * dt) *: \sum_(f < nF) mat_of nf nf (fun i j => ap_bbn P i j f + tau * ap_bb P i j f).
Lemma ap_mx : mx_of nf nf A = loc_mx.
Proof.
apply/matrixP => i j; rewrite mxE ap_assembleE -[(j * nf + i)%N]/(loc nf i j).
rewrite nth_contrib ?size_nseq ?loc_lt // nth_nseq if_same add0r.
rewrite contrib_loop (sum_ord1 (i := i)) => [|k hk]; last first.
  rewrite contrib_none //; apply/allP => e /flattenP [l /mapP [y _ ->]] /(allP (apA_all _ _)) /eqP ->.
  by rewrite loc_inj // (negbTE hk).
rewrite (@contrib_rounds _ nf (apA i) (loc nf i) j) //; last 2 first.
- by move=> y _ /eqP; rewrite loc_inj // eqxx => /eqP.
- by move=> y; exact: apA_all.
rewrite /apA !big_cons sum_flat /loc_mx !mxE summxE -addrA; congr (_ + (_ + _)).
rewrite mulr_sumr; apply: eq_bigr => f _; by rewrite big_seq1 !mxE.
Qed.
Lemma ap_divide_ok rhs : gesv_correct gesv -> (forall v : 'cV[F]_nf, loc_mx *m v = 0 -> v = 0) -> size rhs = nf ->
  exists X, [/\ ap_divide gesv dim poly_deg tau theta dt P rhs = Ok X, size X = nf
    & loc_mx *m col_of nf (nth 0 X) = col_of nf (nth 0 rhs)].
Proof.
move=> hg hK sr; have hu : mx_of nf nf A \in unitmx by rewrite ap_mx; exact: kernel_unit.
have hm : is_mat nf 1 rhs by rewrite /is_mat muln1.
have [hi [sx hx]] := hg nf 1%N A rhs ap_size_A hm hu.
exists (sv_rhs (gesv nf 1%N A rhs)); rewrite /ap_divide /solve_const /= hi; split=> //; first by rewrite sx muln1.
have e v : mx_of nf 1 v = col_of nf (nth 0 v) :> 'cV[F]_nf by apply/colP => i; rewrite !mxE mul0n.
by move: hx; rewrite ap_mx !e.
Qed.

(** ** Right-hand sides *)
Section Rhs.
Variables (lambda : seq (seq F)) (S : ap_state F).
Definition apL i : seq (nat * F) := flatten [seq flatten [seq [:: (i, - (theta * dt * lambda_at lambda f j *
      (ap_bpn P i j f - tau * ap_bp P i j f)))] | f <- iota 0 nF] | j <- iota 0 nb].
Lemma apL_all i : all (fun e => e.1 == i) (apL i).
Proof. by apply: all_flat_iota => j; apply: all_flat_iota => f; rewrite /= eqxx. Qed.
Lemma ap_rhsE : ap_rhs_lambda_loop dim poly_deg tau theta dt P lambda =
  accumulate (zeros F nf 1) (flatten [seq apL i | i <- iota 0 nf]).
Proof. by apply: for_acc => i s _; apply: for_acc => j t _; apply: for_acc. Qed.
Lemma ap_size_rhs : size (ap_rhs_lambda_loop dim poly_deg tau theta dt P lambda) = nf.
Proof. by rewrite ap_rhsE size_accumulate size_nseq muln1. Qed.
Lemma ap_rhs_lambdaE : col_of nf (nth 0 (ap_rhs_lambda_loop dim poly_deg tau theta dt P lambda)) =
  - ((theta * dt) *: \sum_(f < nF) mat_of nf nb (fun i j => ap_bpn P i j f - tau * ap_bp P i j f) *m tr nb lambda f).
Proof.
apply/colP => i; rewrite mxE ap_rhsE nth_contrib ?size_nseq ?muln1 // nth_nseq if_same add0r.
rewrite (@contrib_rounds _ nf apL id i) // ?/apL; last by move=> y; exact: apL_all.
rewrite sum_flat.
transitivity (\sum_(j < nb) \sum_(f < nF) - (theta * dt * lambda_at lambda f j *
      (ap_bpn P i j f - tau * ap_bp P i j f))).
  by apply: eq_bigr => j _; rewrite sum_flat; apply: eq_bigr => f _; rewrite big_seq1.
rewrite exchange_big [RHS]mxE [in RHS]mxE summxE mulr_sumr -sumrN; apply: eq_bigr => f _.
rewrite mxE mulr_sumr -sumrN; apply: eq_bigr => j _; rewrite !mxE /lambda_at.
by rewrite -!mulrA; congr (- (_ * (_ * _))); exact: mulrC.
Qed.

Notation rhs := (ap_rhs_global dim poly_deg dirs bnds theta dt P S).
Definition apG i : F := theta * dt * ap_src P i +
  \sum_(f < nF | inflow_face dirs bnds P f) - (theta * dt * ap_dirval P i f).
Lemma ap_globalE : rhs = for_ nf (fun i r => add_at r i (nth 0 (ap_u_old S) i * ap_area P +
                                  dt * (1 - theta) * nth 0 (ap_flux_old S) i))
   (for_ nf (fun i r => upd r i (apG i)) (zeros F nf 1)).
Proof.
rewrite /ap_rhs_global; congr for_; apply: for_upd_eq => i w hi sw /=.
have hiw : (i < size w)%N by rewrite sw size_nseq muln1.
pose evs f := if inflow_face dirs bnds P f then [:: (i, - (theta * dt * ap_dirval P i f))] else [::].
rewrite (for_acc (evs := evs)) => [|f r _]; last by rewrite /evs inflowE; case: ifP.
rewrite acc_same //; last by apply: all_flat_iota => f; rewrite /evs; case: ifP => //= _; rewrite eqxx.
congr upd; congr (_ + _); rewrite contrib_loop [RHS]big_mkcond; apply: eq_bigr => f _.
by rewrite /evs; case: ifP => _; rewrite ?contrib_nil // contrib_cons contrib_nil eqxx addr0.
Qed.
Lemma ap_size_global : size rhs = nf.
Proof.
rewrite ap_globalE (for_acc (evs := fun i => [:: (i, nth 0 (ap_u_old S) i * ap_area P +
                                  dt * (1 - theta) * nth 0 (ap_flux_old S) i)])) //.
by rewrite size_accumulate size_for_assign size_nseq muln1.
Qed.
Lemma ap_rhs_globalE : col_of nf (nth 0 rhs) = (theta * dt) *: (col_of nf (ap_src P) -
    \sum_(f < nF | inflow_face dirs bnds P f) col_of nf (fun i => ap_dirval P i f)) +
  (ap_area P *: adv_u nf S + (dt * (1 - theta)) *: adv_old_rate nf S).
Proof.
apply/colP => i; rewrite [LHS]mxE ap_globalE.
pose evs i := [:: (i, nth 0 (ap_u_old S) i * ap_area P + dt * (1 - theta) * nth 0 (ap_flux_old S) i)].
rewrite (for_acc (evs := evs)) // nth_contrib; last by rewrite size_for_assign size_nseq muln1.
rewrite (@contrib_rounds _ nf evs id i) //; last by move=> y; rewrite /= eqxx.
rewrite nth_for_upd ?size_nseq ?muln1 // /evs big_seq1 !mxE; congr (_ + (_ + _)); last exact: mulrC.
by rewrite /apG sumrN -mulr_sumr summxE mulrBr; congr (_ - _ * _); apply: eq_bigr => f _; rewrite mxE.
Qed.
End Rhs.

(** ** Local solutions *)
Section Solve.
Hypotheses (hg : gesv_correct gesv) (hK : forall v : 'cV[F]_nf, loc_mx *m v = 0 -> v = 0).
Hypothesis (hv : mat_of nf nf (ap_vol P) = (ap_area P)%:M).
Lemma loc_mxE (x : seq (seq F)) (u : 'cV[F]_nf) : loc_mx *m u = ap_area P *: u - (theta * dt) *: hom_rate dim nb tau P x u
  - (theta * dt) *: \sum_(f < nF) mat_of nf nb (fun i j => ap_bpn P i j f - tau * ap_bp P i j f) *m tr nb x f.
Proof.
rewrite /loc_mx hv mulmxDl mulmxBl mul_scalar_mx -!scalemxAl /hom_rate mulmx_suml.
rewrite /face_terms big_split /= !scalerBr scalerDr.
set a := _ *: u; set b := _ *: (_ *m u); set c := _ *: \sum_f _; set d := _ *: \sum_f _.
by apply/colP => i; rewrite !mxE; move: (a i 0) (b i 0) (c i 0) (d i 0) => *; ring.
Qed.
Lemma ap_solve0 S lambda : ap_lambda_ok dim poly_deg lambda ->
  exists X, [/\ ap_solve_local_problem gesv dim poly_deg dirs bnds tau theta dt P S 0 lambda = Ok X, size X = nf
    & hom_adv_step dim nb tau theta dt P lambda (col_of nf (nth 0 X))].
Proof.
move=> hl; have [X [hX sX e]] := ap_divide_ok hg hK (ap_size_rhs lambda).
exists X; split=> //; first by rewrite /ap_solve_local_problem /ap_rhs_lambda hl /=.
move: e; rewrite ap_rhs_lambdaE (loc_mxE lambda) /hom_adv_step => /eqP; rewrite subr_eq addNr subr_eq0 => /eqP; exact.
Qed.
Lemma ap_solve1 S lambda : ap_lambda_ok dim poly_deg lambda ->
  exists X, [/\ ap_solve_local_problem gesv dim poly_deg dirs bnds tau theta dt P S 1 lambda = Ok X, size X = nf
    & adv_step dim nb dirs bnds tau theta dt P S lambda (col_of nf (nth 0 X))].
Proof.
move=> hl.
have sr : size (mat_add nf 1 1 (ap_rhs_lambda_loop dim poly_deg tau theta dt P lambda)
   (ap_rhs_global dim poly_deg dirs bnds theta dt P S)) = nf.
  by rewrite /mat_add eqxx size_add_eq ap_size_rhs.
have [X [hX sX e]] := ap_divide_ok hg hK sr.
exists X; split=> //; first by rewrite /ap_solve_local_problem /ap_rhs_lambda hl /=.
have e2 : col_of nf (nth 0 (mat_add nf 1 1 (ap_rhs_lambda_loop dim poly_deg tau theta dt P lambda)
   (ap_rhs_global dim poly_deg dirs bnds theta dt P S))) =
   col_of nf (nth 0 (ap_rhs_lambda_loop dim poly_deg tau theta dt P lambda)) +
   col_of nf (nth 0 (ap_rhs_global dim poly_deg dirs bnds theta dt P S)).
  apply/colP => i; rewrite !mxE /mat_add eqxx.
  have hm : is_mat nf 1 (ap_rhs_lambda_loop dim poly_deg tau theta dt P lambda) by rewrite /is_mat muln1 ap_size_rhs.
  by have := mget_add_eq_same (ap_rhs_global dim poly_deg dirs bnds theta dt P S) hm (ltn_ord i) (ltnSn 0); rewrite /mget /loc mul0n add0n.
move: e; rewrite e2 ap_rhs_lambdaE ap_rhs_globalE (loc_mxE lambda) /adv_step /adv_rate /hom_rate => /colP e.
apply/colP => i; move: (e i).
move: (col_of nf (nth 0 X)) => u.
set g := \sum_f _ *m tr _ _ _; set s := col_of _ (ap_src P); set h := \sum_f _ : 'cV[F]_nf.
set d := \sum_(f < _ | _) _; set m := mat_of _ _ _ *m u; set uo := adv_u _ _; set fo := adv_old_rate _ _.
move: g s h d m uo fo {e} => g s h d m uo fo; rewrite !mxE.
move: (u i 0) (g i 0) (s i 0) (h i 0) (d i 0) (m i 0) (uo i 0) (fo i 0) => a1 a2 a3 a4 a5 a6 a7 a8 h1.
have -> : ap_area P * (a1 - a7) = (ap_area P * a1 - theta * dt * (a6 - a4) - theta * dt * a2) + theta * dt * (a6 - a4) +
   theta * dt * a2 - ap_area P * a7 by ring.
by rewrite h1; ring.
Qed.
End Solve.

(** ** Fluxes *)
Section Flux.
Variables (lambda : seq (seq F)) (X : seq F).
Notation u := (col_of nf (nth 0 X)).
Notation flux := (adv_flux dim nb outs bnds tau P lambda u).
Definition apF1 i j f : F := if outflow_face outs bnds P f then tau * nth 0 X j * ap_pb P i j f
  else nth 0 X j * (ap_pbn P i j f + tau * ap_pb P i j f).
Definition apF2 i j f : F := if outflow_face outs bnds P f then - (lambda_at lambda f j * tau * ap_pp P i j f)
  else lambda_at lambda f j * (ap_ppn P i j f - tau * ap_pp P i j f).
Lemma apF_sum (f : 'I_nF) (i : 'I_nb) :
  \sum_(j < nf) apF1 i j f + \sum_(j < nb) apF2 i j f = flux f i 0.
Proof.
rewrite /adv_flux /apF1 /apF2; case: ifP => _; rewrite !mxE.
  rewrite mulrBr !mulr_sumr -sumrN; congr (_ + _); apply: eq_bigr => j _; rewrite !mxE.
    by rewrite -mulrA [X in _ * X]mulrC.
  by congr (- _); rewrite /lambda_at -mulrA mulrCA; congr (_ * _); exact: mulrC.
by congr (_ + _); apply: eq_bigr => j _; rewrite !mxE /lambda_at mulrC.
Qed.
Lemma face_events n (G : nat -> nat -> nat -> F) (v : seq F) (f : 'I_nF) (i : 'I_nb) : size v = (nF * nb)%N ->
  nth 0 (for_ nb (fun i v => for_ n (fun j v => for_ nF (fun f v => add_at v (f * nb + i) (G i j f)) v) v) v) (f * nb + i) =
  nth 0 v (f * nb + i) + \sum_(j < n) G i j f.
Proof.
move=> sv; pose evs i j f := [:: ((f * nb + i)%N, G i j f)].
rewrite (for_acc (evs := fun i => flatten [seq flatten [seq evs i j f | f <- iota 0 nF] | j <- iota 0 n])) => [|k w _]; last first.
  by apply: for_acc => j t _; apply: for_acc.
rewrite nth_contrib ?sv ?block_lt //; congr (_ + _).
rewrite contrib_loop (sum_ord1 (i := i)) => [|k hk]; last first.
  rewrite contrib_none //; apply/allP => e /flattenP [l /mapP [y _ ->]] /flattenP [l' /mapP [z _ ->]].
  by rewrite inE => /eqP -> /=; rewrite block_inj // (negbTE hk) andbF.
rewrite contrib_loop; apply: eq_bigr => j _.
rewrite (@contrib_rounds _ nF (evs i j) (fun f => f * nb + i)%N f) ?big_seq1 //.
  by move=> y _ /eqP; rewrite block_inj // => /andP[/eqP].
by move=> y; rewrite /= eqxx.
Qed.
Lemma size_face_events n (G : nat -> nat -> nat -> F) (v : seq F) :
  size (for_ nb (fun i v => for_ n (fun j v => for_ nF (fun f v => add_at v (f * nb + i) (G i j f)) v) v) v) = size v.
Proof.
pose evs i j f := [:: ((f * nb + i)%N, G i j f)].
rewrite (for_acc (evs := fun i => flatten [seq flatten [seq evs i j f | f <- iota 0 nF] | j <- iota 0 n])) => [|k w _].
  by rewrite size_accumulate.
by apply: for_acc => j t _; apply: for_acc.
Qed.
Lemma ap_flux_loopsE : ap_flux_loops dim poly_deg outs bnds tau P lambda X =
  for_ nb (fun i v => for_ nb (fun j v => for_ nF (fun f v => add_at v (f * nb + i) (apF2 i j f)) v) v)
  (for_ nb (fun i v => for_ nf (fun j v => for_ nF (fun f v => add_at v (f * nb + i) (apF1 i j f)) v) v) (nseq (nF * nb) 0)).
Proof.
have e1 v0 : for_ nb (fun i v => for_ nf (fun j v => for_ nF (fun face v =>
    if ~~ ap_outflow outs bnds P face then
      add_at v (face * nb + i) (nth 0 X j * (ap_pbn P i j face + tau * ap_pb P i j face))
    else add_at v (face * nb + i) (tau * nth 0 X j * ap_pb P i j face)) v) v) v0 =
  for_ nb (fun i v => for_ nf (fun j v => for_ nF (fun f v => add_at v (f * nb + i) (apF1 i j f)) v) v) v0.
  apply: eq_for => i v _; apply: eq_for => j w _; apply: eq_for => f r _; rewrite outflowE /apF1; by case: (outflow_face _ _ _ _).
rewrite /ap_flux_loops e1; apply: eq_for => i v _; apply: eq_for => j w _; apply: eq_for => f r _.
by rewrite outflowE /apF2; case: (outflow_face _ _ _ _).
Qed.
Lemma ap_flux_loops_at (f : 'I_nF) (i : 'I_nb) :
  nth 0 (ap_flux_loops dim poly_deg outs bnds tau P lambda X) (f * nb + i) = flux f i 0.
Proof.
rewrite ap_flux_loopsE face_events; last by rewrite size_face_events size_nseq.
by rewrite face_events ?size_nseq // nth_nseq if_same add0r apF_sum.
Qed.
Lemma size_ap_flux_loops : size (ap_flux_loops dim poly_deg outs bnds tau P lambda X) = (nF * nb)%N.
Proof. by rewrite ap_flux_loopsE !size_face_events size_nseq. Qed.
Lemma ap_flux_at S (res : bool) (f : 'I_nF) (i : 'I_nb) :
  nth 0 (ap_flux_at_boundary dim poly_deg outs bnds tau theta P S lambda X res) (f * nb + i) =
  (theta *: flux f + (if res then (1 - theta) *: adv_old_flux nb S f else 0)) i 0.
Proof.
have -> : ap_flux_at_boundary dim poly_deg outs bnds tau theta P S lambda X res =
  for_ nF (fun f v => for_ nb (fun i v => upd v (f * nb + i) (nth 0 v (f * nb + i) * theta +
     (if res then (1 - theta) * mget nb (ap_bdr_old S) i f else 0))) v)
  (ap_flux_loops dim poly_deg outs bnds tau P lambda X).
  rewrite /ap_flux_at_boundary.
  have hb f0 i0 (v : seq F) : (f0 < nF)%N -> (i0 < nb)%N -> size v = (nF * nb)%N ->
    (let v0 := upd v (f0 * nb + i0) (nth 0 v (f0 * nb + i0) * theta) in
    if res then add_at v0 (f0 * nb + i0) ((1 - theta) * mget nb (ap_bdr_old S) i0 f0) else v0) =
    upd v (f0 * nb + i0) (nth 0 v (f0 * nb + i0) * theta +
     (if res then (1 - theta) * mget nb (ap_bdr_old S) i0 f0 else 0)).
    move=> hf hi sv /=; case: (res); last by rewrite addr0.
    have hp : (f0 * nb + i0 < size v)%N by rewrite sv block_lt.
    apply: (@eq_from_nth _ 0); rewrite ?size_add_at ?size_upd // => k hk.
    by rewrite nth_add_at !nth_upd size_upd hp !andbT; case: (k == _); rewrite ?addr0.
  suff hh : forall f0 (v : seq F), (f0 < nF)%N -> size v = (nF * nb)%N ->
     for_ nb (fun i v => let v0 := upd v (f0 * nb + i) (nth 0 v (f0 * nb + i) * theta) in
       if res then add_at v0 (f0 * nb + i) ((1 - theta) * mget nb (ap_bdr_old S) i f0) else v0) v =
     for_ nb (fun i v => upd v (f0 * nb + i) (nth 0 v (f0 * nb + i) * theta +
     (if res then (1 - theta) * mget nb (ap_bdr_old S) i f0 else 0))) v /\
     size (for_ nb (fun i v => upd v (f0 * nb + i) (nth 0 v (f0 * nb + i) * theta +
     (if res then (1 - theta) * mget nb (ap_bdr_old S) i f0 else 0))) v) = (nF * nb)%N.
    by have [] := eq_for_inv hh size_ap_flux_loops.
  move=> f0 v hf; apply: (@eq_for_inv _ (fun v : seq F => size v = (nF * nb)%N)) => i0 w hi sw.
  by split; [exact: hb | rewrite size_upd].
pose h (i f : nat) (a : F) := a * theta + (if res then (1 - theta) * mget nb (ap_bdr_old S) i f else 0).
rewrite (@nth_for2_assign_in F 0 nb (fun i f => f * nb + i)%N h) ?size_ap_flux_loops ?block_lt //; last first.
  by move=> a c a' c' ha _ ha' _ /eqP; rewrite block_inj // => /andP[/eqP -> /eqP ->].
rewrite /h ap_flux_loops_at mxE mxE mulrC; congr (_ + _); case: (res); by rewrite !mxE.
Qed.

(** ** The stored state *)
Definition apR i : seq (nat * F) :=
  flatten [seq (i, ap_adv P i j * nth 0 X j) ::
    flatten [seq [:: (i, - (nth 0 X j * (ap_bbn P i j f + tau * ap_bb P i j f)))] | f <- iota 0 nF] | j <- iota 0 nf] ++
  flatten [seq (if inflow_face dirs bnds P f then [:: (i, - ap_dirval P i f)] else
    flatten [seq [:: (i, - (lambda_at lambda f j * (ap_bpn P i j f - tau * ap_bp P i j f)))] | j <- iota 0 nb])
    | f <- iota 0 nF].
Lemma apR_all i : all (fun e => e.1 == i) (apR i).
Proof.
rewrite /apR all_cat; apply/andP; split; apply: all_flat_iota => j.
  by rewrite /= eqxx; apply: all_flat_iota => f; rewrite /= eqxx.
by case: ifP => _; rewrite /= ?eqxx //; apply: all_flat_iota => f; rewrite /= eqxx.
Qed.
Lemma ap_fill_fluxE v : size v = nf -> ap_fill_flux dim poly_deg dirs bnds tau P X lambda v =
  for_ nf (fun i w => upd w i (ap_src P i + contrib i (apR i))) v.
Proof.
move=> sv; apply: for_upd_eq => i w hi sw; rewrite -acc_same ?apR_all ?sw ?sv //.
rewrite /apR accumulate_cat.
have -> : for_ nf (fun j v0 => for_ nF (fun face v1 =>
    add_at v1 i (- (nth 0 X j * (ap_bbn P i j face + tau * ap_bb P i j face)))) (add_at v0 i (ap_adv P i j * nth 0 X j)))
    (upd w i (ap_src P i)) =
  accumulate (upd w i (ap_src P i)) (flatten [seq (i, ap_adv P i j * nth 0 X j) ::
    flatten [seq [:: (i, - (nth 0 X j * (ap_bbn P i j f + tau * ap_bb P i j f)))] | f <- iota 0 nF] | j <- iota 0 nf]).
  by apply: for_acc => j t _; rewrite -cat1s accumulate_cat /=; exact: for_acc.
apply: for_acc => f t _; rewrite inflowE; case: (inflow_face _ _ _ _) => //=; exact: for_acc.
Qed.
Definition inflow_terms : 'cV[F]_nf :=
  \sum_(f < nF | inflow_face dirs bnds P f) mat_of nf nb (fun i j => ap_bpn P i j f - tau * ap_bp P i j f) *m tr nb lambda f.
Lemma ap_rate_entry (i : 'I_nf) :
  ap_src P i + contrib i (apR i) = (adv_rate dim nb dirs bnds tau P lambda u + inflow_terms) i 0.
Proof.
rewrite contrib_same ?apR_all // /apR big_cat !sum_flat /=.
rewrite [RHS]mxE /adv_rate !mxE -!addrA; congr (_ + _).
have e1 : \sum_(k < nf) \sum_(e <- (nat_of_ord i, ap_adv P i k * nth 0 X k) ::
    flatten [seq [:: (nat_of_ord i, - (nth 0 X k * (ap_bbn P i k f + tau * ap_bb P i k f)))] | f <- iota 0 nF]) e.2 =
  \sum_(k < nf) ap_adv P i k * nth 0 X k - \sum_(f < nF) \sum_(k < nf) (ap_bbn P i k f + tau * ap_bb P i k f) * nth 0 X k.
  rewrite exchange_big -sumrN -big_split; apply: eq_bigr => k _; rewrite big_cons sum_flat -sumrN; congr (_ + _).
  by apply: eq_bigr => f _; rewrite big_seq1 mulrC.
rewrite e1 -!addrA; congr (_ + _); first by apply: eq_bigr => j _; rewrite !mxE.
rewrite /inflow_terms !summxE -!sumrN [X in _ = _ + (X + _)]big_mkcond [X in _ = _ + (_ + X)]big_mkcond -!big_split.
apply: eq_bigr => f _ /=.
rewrite !mxE opprD -!addrA; congr (_ + _); first by congr (- _); apply: eq_bigr => j _; rewrite !mxE.
case hm : (inflow_face dirs bnds P f).
  by rewrite big_seq1 /= addrCA addNr addr0.
rewrite sum_flat !addr0 -sumrN; apply: eq_bigr => j _; rewrite big_seq1 !mxE /lambda_at.
by congr (- _); exact: mulrC.
Qed.
Lemma ap_fill_flux_ok v : size v = nf ->
  let w := ap_fill_flux dim poly_deg dirs bnds tau P X lambda v in
  size w = nf /\ col_of nf (nth 0 w) = adv_rate dim nb dirs bnds tau P lambda u + inflow_terms.
Proof.
move=> sv /=; rewrite ap_fill_fluxE // size_for_assign; split=> //.
by apply/colP => i; rewrite mxE nth_for_upd ?sv // ap_rate_entry.
Qed.
Lemma inflow_terms0 : in_free dim nb dirs bnds P lambda -> inflow_terms = 0.
Proof.
move=> hfree; rewrite /inflow_terms big1 // => f hf.
rewrite (_ : tr nb lambda f = 0) ?mulmx0 //; apply/colP => j; rewrite !mxE; exact: hfree.
Qed.
Definition apB i f : seq (nat * F) :=
  flatten [seq [:: (loc nb i f, apF1 i j f)] | j <- iota 0 nf] ++
  flatten [seq [:: (loc nb i f, apF2 i j f)] | j <- iota 0 nb].
Lemma apB_all i f : all (fun e => e.1 == loc nb i f) (apB i f).
Proof. by rewrite /apB all_cat; apply/andP; split; apply: all_flat_iota => j; rewrite /= eqxx. Qed.
Lemma ap_fill_bdr_ok : let w := ap_fill_bdr dim poly_deg outs bnds tau P X lambda in
  size w = (nb * nF)%N /\ forall f : 'I_nF, \col_j mget nb w j f = flux f :> 'cV[F]_nb.
Proof.
cbv zeta.
have -> : ap_fill_bdr dim poly_deg outs bnds tau P X lambda =
  accumulate (zeros F nb nF) (flatten [seq flatten [seq apB i f | f <- iota 0 nF] | i <- iota 0 nb]).
  apply: for_acc => i s _; apply: for_acc => f t _; rewrite /apB accumulate_cat /apF1 /apF2 outflowE.
  case: (outflow_face _ _ _ _) => /=.
    have -> : for_ nf (fun j b => madd nb b i f (tau * nth 0 X j * ap_pb P i j f)) t = 
      accumulate t (flatten [seq [:: (loc nb i f, tau * nth 0 X j * ap_pb P i j f)] | j <- iota 0 nf]) by exact: for_acc.
    exact: for_acc.
  have -> : for_ nf (fun j b => madd nb b i f (nth 0 X j * (ap_pbn P i j f + tau * ap_pb P i j f))) t = 
      accumulate t (flatten [seq [:: (loc nb i f, nth 0 X j * (ap_pbn P i j f + tau * ap_pb P i j f))] | j <- iota 0 nf])
    by exact: for_acc.
  exact: for_acc.
split; first by rewrite size_accumulate size_nseq.
move=> f; apply/colP => i; rewrite mxE /mget nth_contrib ?size_nseq ?loc_lt // nth_nseq if_same add0r.
rewrite contrib_loop (sum_ord1 (i := i)) => [|k hk]; last first.
  rewrite contrib_none //; apply/allP => e /flattenP [l /mapP [y _ ->]] /(allP (apB_all _ _)) /eqP ->.
  by rewrite loc_inj // (negbTE hk).
rewrite (@contrib_rounds _ nF (apB i) (loc nb i) f) //; last 2 first.
- by move=> y _ /eqP; rewrite loc_inj // eqxx => /eqP.
- by move=> y; exact: apB_all.
rewrite /apB big_cat !sum_flat /= -apF_sum; congr (_ + _); by apply: eq_bigr => j _; rewrite big_seq1.
Qed.
End Flux.

(** ** Writing traces *)
Lemma ap_writeE (G : nat -> nat -> F) out : is_trace nF nb out ->
  ap_write dirs bnds P G out = mkseq (fun f => mkseq (fun j => if inflow_face dirs bnds P f then 0 else G f j) nb) nF.
Proof.
move=> [so /allP ao]; rewrite /ap_write so.
have hw f : (f < nF)%N -> size (nth [::] out f) = nb by move=> hf; apply/eqP/ao/mem_nth; rewrite so.
rewrite (write_all (fun i j => if ap_dirichlet dirs bnds P i then 0 else G i j) 0 so hw).
by apply: eq_mkseq => f; apply: eq_mkseq => j; rewrite inflowE.
Qed.
Lemma ap_write_tr (G : nat -> nat -> F) (V : 'I_nF -> 'cV[F]_nb) out : is_trace nF nb out ->
  (forall (f : 'I_nF) (j : 'I_nb), G f j = V f j 0) ->
  is_trace nF nb (ap_write dirs bnds P G out) /\
  forall f : 'I_nF, tr nb (ap_write dirs bnds P G out) f = if inflow_face dirs bnds P f then 0 else V f :> 'cV[F]_nb.
Proof.
move=> ho hG; rewrite (ap_writeE G ho); split.
  by split; [exact: size_mkseq | apply/allP => l /mapP[f _ ->]; rewrite size_mkseq].
move=> f; apply/colP => j; rewrite mxE (nth_mkseq [::]) ?ltn_ord // nth_mkseq //.
by case: ifP => _; rewrite ?hG // mxE.
Qed.
End Adv.
