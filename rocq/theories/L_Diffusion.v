(** Proofs about M_Diffusion: from the arrays to the local HDG problem. *)
From mathcomp Require Import all_ssreflect all_algebra zify ring.
From Verif Require Import M_Base L_Base M_Index L_Index M_DenseLA S_DenseLA L_DenseLA M_Lapack S_Lapack L_Lapack.
From Verif Require Import S_Hdg L_Hdg S_Tpp S_LocalSolver M_DiffusionUniform M_Diffusion S_Diffusion.
From Verif Require Import L_LocalBase L_LocalBlock L_LocalLink L_HdgSrc L_DiffusionUniform.
Set Implicit Arguments. Unset Strict Implicit. Unset Printing Implicit Defensive.
Import Order.TTheory GRing.Theory Num.Theory.
Local Open Scope ring_scope.

Section Diffusion.
Variable F : realFieldType.
Variable gesv : nat -> nat -> seq F -> seq F -> sv_result F.
Variables (dim poly_deg : nat) (dirs : seq nat) (tau : F) (D : df_data F).
Notation nf := (n_shape_fct dim poly_deg).
Notation nb := (n_shape_bdr dim poly_deg).
Notation nl := (n_loc_dofs dim poly_deg).
Notation A := (df_assemble_loc_matrix dim poly_deg tau D).
Notation mask := (face_dirichlet dirs D).

Lemma face_loopE i j : df_face_loop dim D i j =
  (\sum_(f < 2 * dim) df_bb D i j f,
   accumulate (nseq dim 0) (flatten [seq flatten [seq [:: (d, df_bb D i j f * df_normal D f d)] | d <- iota 0 dim]
                            | f <- iota 0 (2 * dim)])).
Proof.
rewrite /df_face_loop; elim: (2 * dim)%N => [|n IH]; first by rewrite big_ord0.
have -> : iota 0 n.+1 = iota 0 n ++ [:: n] by rewrite -addn1 iotaD.
rewrite for_S IH big_ord_recr map_cat flatten_cat accumulate_cat /= cats0.
congr (_, _); apply: for_acc => d s _; exact: add_at_accumulate.
Qed.
Lemma face_loop2 i j d : (d < dim)%N ->
  nth 0 (df_face_loop dim D i j).2 d = \sum_(f < 2 * dim) df_normal D f d * df_bb D i j f.
Proof.
move=> hd; rewrite face_loopE nth_contrib ?size_nseq // nth_nseq hd add0r contrib_loop.
apply: eq_bigr => f _; rewrite contrib_loop (sum_ord1 (i := Ordinal hd)) => [|e hne].
  by rewrite contrib_cons contrib_nil eqxx addr0 mulrC.
by rewrite contrib_cons contrib_nil (negbTE hne) addr0.
Qed.

Definition dfA i j : seq (nat * nat * F) :=
  ((dim, dim), tau * (df_face_loop dim D i j).1) ::
  flatten [seq [:: ((d, d), df_vol D i j); ((dim, d), - df_grad D i j d); ((d, dim), - df_grad D i j d);
                   ((dim, d), nth 0 (df_face_loop dim D i j).2 d)] | d <- iota 0 dim].

Lemma df_assembleE : A = accumulate (zeros F nl nl) (flatten [seq flatten [seq
   [seq (loc nl (e.1.1 * nf + i) (e.1.2 * nf + j), e.2) | e <- dfA i j]
    | j <- iota 0 nf] | i <- iota 0 nf]).
Proof.
apply: for_acc => i s _; apply: for_acc => j t _; rewrite /dfA map_cons map_flatten -map_comp.
rewrite -cat1s accumulate_cat; exact: for_acc.
Qed.
Lemma df_size_A : size A = (nl * nl)%N.
Proof. by rewrite df_assembleE size_accumulate size_nseq. Qed.

Notation H := (hdg_of nf nb dim (2 * dim) (df_vol D) (df_grad D) (df_bp D) (df_bb D)
  (df_normal D) (df_area D)).

Lemma dfA_in i j e : e \in dfA i j -> (e.1.1 < dim + 1)%N && (e.1.2 < dim + 1)%N.
Proof.
rewrite inE => /orP[/eqP -> /=|]; first by lia.
case/flattenP => l /mapP[d]; rewrite mem_iota add0n => /andP[_ hd] ->.
by rewrite !inE => /or4P[] /eqP -> /=; lia.
Qed.

Lemma df_block P Q (i j : 'I_nf) : (P <= dim)%N -> (Q <= dim)%N ->
  nth 0 A (loc nl (P * nf + i) (Q * nf + j)) = block H tau P Q i j.
Proof.
move=> hP hQ; rewrite df_assembleE (@block_entry _ (dim + 1) nf dfA P Q i j) ?addn1 ?ltnS //; last first.
  by move=> x y e _ _ /dfA_in; rewrite addn1.
rewrite /dfA contrib2_cons contrib2_loop xpair_eqE.
under eq_bigr => d _ do rewrite !contrib2_cons contrib2_nil !xpair_eqE addr0.
rewrite /block; case: (ltnP P dim) => hPd.
  have hPn : (dim == P) = false by lia.
  rewrite hPn /= add0r (insubT (fun x => x < dim)%N hPd) (sum_ord1 (i := Ordinal hPd)) => [|d hne].
    rewrite !eqxx /= !add0r; case: (ltnP Q dim) => hQd.
      rewrite (insubT (fun x => x < dim)%N hQd) -val_eqE /=.
      have -> : (dim == Q) = false by lia.
      by rewrite !addr0 mxE.
    have eQ : Q = dim by lia.
    rewrite insubF ?ltnNge ?hQd // eQ eqxx (ltn_eqF hPd) addr0 add0r mxE //.
  by rewrite (negbTE hne) /= !addr0.
have eP : P = dim by lia.
rewrite insubF ?ltnNge ?hPd // eP eqxx /=; case: (ltnP Q dim) => hQd.
  rewrite (insubT (fun x => x < dim)%N hQd) !mxE.
  have -> : (dim == Q) = false by lia.
  rewrite add0r (sum_ord1 (i := Ordinal hQd)) => [|d hne].
    rewrite eqxx /= (ltn_eqF hQd) /= !add0r face_loop2 // summxE; congr (_ + _).
    by apply: eq_bigr => f _; rewrite !mxE.
  by rewrite (negbTE hne) (ltn_eqF (ltn_ord d)) /= !addr0.
have eQ : Q = dim by lia.
rewrite eQ eqxx insubF ?ltnn // big1 ?addr0 => [|d _].
  by rewrite face_loopE /= summxE; congr (_ * _); apply: eq_bigr => f _; rewrite mxE.
by rewrite (ltn_eqF (ltn_ord d)) /= !addr0.
Qed.

(** ** Right-hand sides *)
Lemma df_pos P i : (P <= dim)%N -> (i < nf)%N -> (P * nf + i < nl)%N.
Proof. by move=> hX hy; apply: block_lt; rewrite // addn1 ltnS. Qed.

Section Lambda.
Variable lambda : seq (seq F).
Notation lam := (lambda_at lambda).
Notation rhs := (df_rhs_lambda_loop dim poly_deg tau D lambda).
Definition dfR i : seq (nat * F) := flatten [seq flatten [seq
   (dim, tau * lam f j * df_bp D i j f) ::
   [seq (d, - (df_normal D f d * lam f j * df_bp D i j f)) | d <- iota 0 dim]
   | f <- iota 0 (2 * dim)] | j <- iota 0 nb].
Lemma df_rhsE : rhs = accumulate (zeros F nl 1)
  (flatten [seq [seq ((e.1 * nf + i)%N, e.2) | e <- dfR i] | i <- iota 0 nf]).
Proof.
apply: for_acc => i s _; rewrite /dfR map_flatten -map_comp; apply: for_acc => j t _.
rewrite /= map_flatten -map_comp; apply: for_acc => f r _ /=; rewrite -map_comp.
rewrite (for_acc (evs := fun d => [:: ((d * nf + i)%N, - (df_normal D f d * lam f j * df_bp D i j f))])) //.
congr (accumulate _ _); by elim: (iota 0 dim) => //= d l ->.
Qed.
Lemma df_size_rhs : size rhs = nl.
Proof. by rewrite df_rhsE size_accumulate size_nseq muln1. Qed.
Lemma contrib_map P (G : nat -> F) n : (P < n)%N -> contrib P [seq (d, G d) | d <- iota 0 n] = G P.
Proof.
move=> hP; rewrite /contrib big_map /= (big_rem P) ?mem_iota //= eqxx big_seq_cond big1 ?addr0 //.
by move=> d; rewrite mem_rem_uniq ?iota_uniq // inE => /andP[/andP[/negbTE -> _]].
Qed.
Lemma contrib_mapn P (G : nat -> F) n : (n <= P)%N -> contrib P [seq (d, G d) | d <- iota 0 n] = 0.
Proof.
move=> hP; rewrite /contrib big_map /= big_seq_cond big1 // => d.
by rewrite mem_iota => /andP[/andP[_ hd] /eqP]; lia.
Qed.
Lemma df_rhs_q (d : 'I_dim) : qpart nf rhs d = - (\sum_f hnu H f d *: (hE H f *m tr nb lambda f)) :> 'cV[F]_nf.
Proof.
have hd := ltn_ord d.
apply/colP => i; rewrite !mxE df_rhsE (@block_vec _ (dim + 1) nf) // ?addn1 ?ltnS ?(ltnW hd) //.
rewrite /dfR contrib_loop summxE -sumrN.
under [LHS]eq_bigr => j _ do rewrite contrib_loop.
rewrite exchange_big /=; apply: eq_bigr => f _; rewrite !mxE mulr_sumr -sumrN; apply: eq_bigr => j _.
rewrite contrib_cons (contrib_map _ hd) (_ : (dim == d) = false); last by lia.
by rewrite add0r !mxE /lambda_at [_ * df_bp _ _ _ _]mulrC mulrCA mulrA -mulrA.
Qed.
Lemma df_rhs_u : upart nf dim rhs = tau *: (\sum_f (hE H f *m tr nb lambda f)) :> 'cV[F]_nf.
Proof.
apply/colP => i; rewrite !mxE df_rhsE (@block_vec _ (dim + 1) nf) // ?addn1 ?ltnS //.
rewrite /dfR contrib_loop summxE mulr_sumr.
under [LHS]eq_bigr => j _ do rewrite contrib_loop.
rewrite exchange_big /=; apply: eq_bigr => f _; rewrite !mxE mulr_sumr; apply: eq_bigr => j _.
rewrite contrib_cons contrib_mapn // eqxx addr0 !mxE /lambda_at -mulrA; congr (_ * _); exact: mulrC.
Qed.
End Lambda.

Section Global.
Notation rhs := (df_rhs_global dim poly_deg dirs tau D).
Definition dfG i : seq (nat * F) :=
  (dim, df_src D i) :: flatten [seq (if mask f then (dim, tau * df_dirval D i f) ::
     [seq (d, - (df_normal D f d * df_dirval D i f)) | d <- iota 0 dim] else [::]) | f <- iota 0 (2 * dim)].
Lemma df_globalE : rhs = accumulate (zeros F nl 1)
  (flatten [seq [seq ((e.1 * nf + i)%N, e.2) | e <- dfG i] | i <- iota 0 nf]).
Proof.
apply: for_acc_hist => i hi s; rewrite /dfG map_cons -cat1s accumulate_cat.
have hu : upd s (dim * nf + i) (df_src D i) = accumulate s [:: ((dim * nf + i)%N, df_src D i)].
  rewrite -add_at_accumulate /add_at; congr upd.
  have hs : (dim * nf + i < size (zeros F nl 1))%N by rewrite size_nseq muln1 df_pos.
  rewrite nth_contrib // nth_nseq if_same add0r contrib_loop big1 ?add0r // => k _.
  rewrite /contrib big_map big1 // => e /=; rewrite block_inj //; last by have := ltn_ord k; lia.
  by have := ltn_ord k => hk /andP[_ /eqP]; lia.
rewrite [X in for_ _ _ X]hu map_flatten -map_comp; apply: for_acc => f r _ /=.
case: (mask f) => //=; rewrite -map_comp.
rewrite (for_acc (evs := fun d => [:: ((d * nf + i)%N, - (df_normal D f d * df_dirval D i f))])) //.
congr (accumulate _ _); by elim: (iota 0 dim) => //= d l ->.
Qed.
Lemma df_size_global : size rhs = nl.
Proof. by rewrite df_globalE size_accumulate size_nseq muln1. Qed.
Lemma df_global_q (d : 'I_dim) : qpart nf rhs d =
  - \sum_(f < 2 * dim | mask f) df_normal D f d *: (\col_i df_dirval D i f) :> 'cV[F]_nf.
Proof.
have hd := ltn_ord d.
apply/colP => i; rewrite !mxE df_globalE (@block_vec _ (dim + 1) nf) // ?addn1 ?ltnS ?(ltnW hd) //.
rewrite /dfG contrib_cons (_ : (dim == d) = false) ?add0r; last by lia.
rewrite contrib_loop summxE -sumrN [RHS]big_mkcond; apply: eq_bigr => f _.
case: (mask f); last by rewrite contrib_nil.
rewrite contrib_cons (contrib_map _ hd) (_ : (dim == d) = false); last by lia.
by rewrite add0r !mxE.
Qed.
Lemma df_global_u : upart nf dim rhs = (\col_i df_src D i) +
  tau *: (\sum_(f < 2 * dim | mask f) \col_i df_dirval D i f) :> 'cV[F]_nf.
Proof.
apply/colP => i; rewrite !mxE df_globalE (@block_vec _ (dim + 1) nf) // ?addn1 ?ltnS //.
rewrite /dfG contrib_cons eqxx contrib_loop summxE mulr_sumr [in RHS]big_mkcond; congr (_ + _).
apply: eq_bigr => f _; case: (mask f); last by rewrite contrib_nil.
by rewrite contrib_cons contrib_mapn // eqxx addr0 mxE.
Qed.
End Global.

Section Coeffs.
Variable coeffs : seq F.
Notation rhs := (df_rhs_coeffs dim poly_deg D coeffs).
Lemma df_coeffsE : rhs = accumulate (zeros F nl 1) (flatten [seq [seq ((e.1 * nf + i)%N, e.2) | e <-
   [seq (dim, nth 0 coeffs (dim * nf + j) * df_mass D i j) | j <- iota 0 nf]] | i <- iota 0 nf]).
Proof.
apply: for_acc => i s _; rewrite -map_comp.
rewrite (for_acc (evs := fun j => [:: ((dim * nf + i)%N, nth 0 coeffs (dim * nf + j) * df_mass D i j)])) //.
congr (accumulate _ _); by elim: (iota 0 nf) => //= d l ->.
Qed.
Lemma df_size_coeffs : size rhs = nl.
Proof. by rewrite df_coeffsE size_accumulate size_nseq muln1. Qed.
Lemma df_coeffs_q (d : 'I_dim) : qpart nf rhs d = 0 :> 'cV[F]_nf.
Proof.
have hd := ltn_ord d.
apply/colP => i; rewrite !mxE df_coeffsE (@block_vec _ (dim + 1) nf (fun i => [seq (dim, nth 0 coeffs (dim * nf + j) * df_mass D i j) | j <- iota 0 nf])) // ?addn1 ?ltnS ?(ltnW hd) //.
by rewrite /contrib big_map big1 // => j /=; lia.
Qed.
Lemma df_coeffs_u : upart nf dim rhs =
  (\matrix_(i, j) df_mass D i j) *m upart nf dim coeffs :> 'cV[F]_nf.
Proof.
apply/colP => i; rewrite !mxE df_coeffsE (@block_vec _ (dim + 1) nf (fun i => [seq (dim, nth 0 coeffs (dim * nf + j) * df_mass D i j) | j <- iota 0 nf])) // ?addn1 ?ltnS //.
have -> : iota 0 nf = index_iota 0 nf by rewrite /index_iota subn0.
rewrite /contrib big_map /= eqxx big_mkord; apply: eq_bigr => j _.
by rewrite !mxE mulrC.
Qed.
End Coeffs.

(** ** Boundary values *)
Section Bdr.
Variable X : seq F.
Lemma df_primal_tr (f : 'I_(2 * dim)) (j : 'I_nb) :
  mget (2 * dim) (df_primal dim poly_deg D X) f j = ((hE H f)^T *m upart nf dim X) j 0.
Proof.
have -> : df_primal dim poly_deg D X = accumulate (zeros F (2 * dim) nb)
   [seq (loc (2 * dim) e.1.1 e.1.2, e.2) | e <- flatten [seq flatten [seq flatten [seq
     [:: ((f, j), nth 0 X (dim * nf + i) * df_bp D i j f)] | f <- iota 0 (2 * dim)] | j <- iota 0 nb] | i <- iota 0 nf]].
  rewrite map_flatten -map_comp; apply: for_acc => i s _ /=.
  rewrite map_flatten -map_comp; apply: for_acc => k t _ /=.
  by rewrite map_flatten -map_comp; apply: for_acc => g r _.
rewrite /mget flat_entry //; last first.
  move=> e /flattenP[l /mapP[i _ ->]] /flattenP[l' /mapP[k _ ->]] /flattenP[l2 /mapP[g hg ->]].
  by rewrite inE => /eqP -> /=; move: hg; rewrite mem_iota; lia.
rewrite contrib2_loop mxE; apply: eq_bigr => i _; rewrite contrib2_loop (sum_ord1 (i := j)) => [|k hne].
  rewrite contrib2_loop (sum_ord1 (i := f)) => [|g hne].
    by rewrite contrib2_cons contrib2_nil eqxx addr0 !mxE mulrC.
  by rewrite contrib2_cons contrib2_nil xpair_eqE (negbTE hne) addr0.
rewrite contrib2_loop big1 // => g _.
by rewrite contrib2_cons contrib2_nil xpair_eqE (negbTE hne) andbF addr0.
Qed.
Lemma df_dual_tr (f : 'I_(2 * dim)) (j : 'I_nb) :
  mget (2 * dim) (df_dual dim poly_deg D X) f j =
  (\sum_d hnu H f d *: ((hE H f)^T *m qpart nf X d)) j 0.
Proof.
have -> : df_dual dim poly_deg D X = accumulate (zeros F (2 * dim) nb)
   [seq (loc (2 * dim) e.1.1 e.1.2, e.2) | e <- flatten [seq flatten [seq flatten [seq
     flatten [seq [:: ((f, j), df_normal D f d * df_bp D i j f * nth 0 X (d * nf + i))] | d <- iota 0 dim]
     | f <- iota 0 (2 * dim)] | j <- iota 0 nb] | i <- iota 0 nf]].
  rewrite map_flatten -map_comp; apply: for_acc => i s _ /=.
  rewrite map_flatten -map_comp; apply: for_acc => k t _ /=.
  rewrite map_flatten -map_comp; apply: for_acc => g r _ /=.
  by rewrite map_flatten -map_comp; apply: for_acc => d l _ /=.
rewrite /mget flat_entry //; last first.
  move=> e /flattenP[l /mapP[i _ ->]] /flattenP[l' /mapP[k _ ->]] /flattenP[l2 /mapP[g hg ->]].
  move=> /flattenP[l3 /mapP[d _ ->]].
  by rewrite inE => /eqP -> /=; move: hg; rewrite mem_iota; lia.
rewrite contrib2_loop summxE.
under [RHS]eq_bigr => d _ do rewrite !mxE mulr_sumr.
rewrite [RHS]exchange_big; apply: eq_bigr => i _; rewrite contrib2_loop (sum_ord1 (i := j)) => [|k hne].
  rewrite contrib2_loop (sum_ord1 (i := f)) => [|g hne].
    rewrite contrib2_loop; apply: eq_bigr => d _.
    by rewrite contrib2_cons contrib2_nil eqxx addr0 !mxE mulrA.
  rewrite contrib2_loop big1 // => d _.
  by rewrite contrib2_cons contrib2_nil xpair_eqE (negbTE hne) addr0.
rewrite contrib2_loop big1 // => g _; rewrite contrib2_loop big1 // => d _.
by rewrite contrib2_cons contrib2_nil xpair_eqE (negbTE hne) andbF addr0.
Qed.
End Bdr.

(** ** Solving *)
Lemma df_divide_ok rhs : gesv_correct gesv -> hdg_ok H -> 0 < tau -> size rhs = nl ->
  exists X, [/\ df_divide gesv dim poly_deg tau D rhs = Ok X, size X = nl,
    forall d, op_q H (qpart nf X) (upart nf dim X) d = qpart nf rhs d
  & op_u H tau (qpart nf X) (upart nf dim X) = upart nf dim rhs].
Proof.
move=> hg hok ht sr; have [X [hX sX hq hu]] := link_solve df_block hg hok ht df_size_A sr.
by exists X; split => //; move: hX; rewrite -/(n_loc_dofs dim poly_deg) /df_divide => ->.
Qed.

Lemma size_mat_add (r s : seq F) : size (mat_add nl 1 1 r s) = size r.
Proof. by rewrite /mat_add eqxx size_add_eq. Qed.
Lemma nth_mat_add (r s : seq F) k : size r = nl -> (k < nl)%N ->
  nth 0 (mat_add nl 1 1 r s) k = nth 0 r k + nth 0 s k.
Proof.
move=> hr hk; rewrite /mat_add eqxx; have hm : is_mat nl 1 r by rewrite /is_mat muln1.
by have := mget_add_eq_same s hm hk (ltnSn 0); rewrite /mget /loc mul0n add0n.
Qed.
Lemma qpart_add (r s : seq F) (d : 'I_dim) : size r = nl ->
  qpart nf (mat_add nl 1 1 r s) d = qpart nf r d + qpart nf s d :> 'cV[F]_nf.
Proof.
move=> hr; apply/colP => i; rewrite !mxE nth_mat_add //; apply: df_pos => //; exact: ltnW.
Qed.
Lemma upart_add (r s : seq F) : size r = nl ->
  upart nf dim (mat_add nl 1 1 r s) = upart nf dim r + upart nf dim s :> 'cV[F]_nf.
Proof. by move=> hr; apply/colP => i; rewrite !mxE nth_mat_add // df_pos. Qed.

Definition df_rq_ (d : 'I_dim) : 'cV[F]_nf :=
  - \sum_(f < 2 * dim | mask f) df_normal D f d *: (\col_i df_dirval D i f).
Definition df_ru_ : 'cV[F]_nf := (\col_i df_src D i) + tau *: (\sum_(f < 2 * dim | mask f) \col_i df_dirval D i f).

Section Solve.
Variable lambda : seq (seq F).
Hypotheses (hg : gesv_correct gesv) (hok : hdg_ok H) (tau0 : 0 < tau).
Lemma df_solve0 : lambda_ok dim poly_deg lambda ->
  exists X, [/\ df_solve_local_problem gesv dim poly_deg dirs tau D 0 lambda = Ok X, size X = nl
    & loc_src H tau (qpart nf X) (upart nf dim X) (tr nb lambda) (fun=> 0) 0].
Proof.
move=> hl; have [X [hX sX hq hu]] := df_divide_ok hg hok tau0 (df_size_rhs lambda).
exists X; split => //; first by rewrite /df_solve_local_problem /df_rhs_lambda hl /=.
by split=> [d|]; rewrite addr0; [rewrite -df_rhs_q -hq | rewrite -df_rhs_u -hu].
Qed.
Lemma df_solve1 : lambda_ok dim poly_deg lambda ->
  exists X, [/\ df_solve_local_problem gesv dim poly_deg dirs tau D 1 lambda = Ok X, size X = nl
    & loc_src H tau (qpart nf X) (upart nf dim X) (tr nb lambda) df_rq_ df_ru_].
Proof.
move=> hl; have sl := df_size_rhs lambda.
have sr : size (mat_add nl 1 1 (df_rhs_lambda_loop dim poly_deg tau D lambda) (df_rhs_global dim poly_deg dirs tau D)) = nl.
  by rewrite size_mat_add.
have [X [hX sX hq hu]] := df_divide_ok hg hok tau0 sr.
exists X; split => //; first by rewrite /df_solve_local_problem /df_rhs_lambda hl /=.
split=> [d|].
  by rewrite -df_rhs_q /df_rq_ -df_global_q -qpart_add // -hq.
by rewrite -df_rhs_u /df_ru_ -df_global_u -upart_add // -hu.
Qed.
Lemma df_solve_mass X0 : exists X, [/\ df_solve_mass_problem gesv dim poly_deg tau D X0 = Ok X, size X = nl
    & loc_src H tau (qpart nf X) (upart nf dim X) (fun=> 0) (fun=> 0)
        ((\matrix_(i, j) df_mass D i j) *m upart nf dim X0)].
Proof.
have [X [hX sX hq hu]] := df_divide_ok hg hok tau0 (df_size_coeffs X0).
exists X; split => //; split=> [d|].
  rewrite -/(op_q _ _ _ _) hq df_coeffs_q big1 ?oppr0 ?addr0 // => f _.
  by rewrite mulmx0 scaler0.
rewrite -/(op_u _ _ _ _) hu df_coeffs_u big1 ?scaler0 ?add0r // => f _.
by rewrite mulmx0.
Qed.
Lemma df_solve_cor X0 : lambda_ok dim poly_deg lambda ->
  exists X, [/\ df_solve_loc_prob_cor gesv dim poly_deg dirs tau D lambda X0 = Ok X, size X = nl
    & loc_src H tau (qpart nf X) (upart nf dim X) (tr nb lambda) df_rq_
        (df_ru_ + (\matrix_(i, j) df_mass D i j) *m upart nf dim X0)].
Proof.
move=> hl; have sl := df_size_rhs lambda.
pose s1 := mat_add nl 1 1 (df_rhs_lambda_loop dim poly_deg tau D lambda) (df_rhs_global dim poly_deg dirs tau D).
have s1s : size s1 = nl by rewrite size_mat_add.
pose s2 := mat_add nl 1 1 s1 (df_rhs_coeffs dim poly_deg D X0).
have s2s : size s2 = nl by rewrite size_mat_add.
have [X [hX sX hq hu]] := df_divide_ok hg hok tau0 s2s.
exists X; split => //; first by rewrite /df_solve_loc_prob_cor /df_rhs_lambda hl /=.
split=> [d|].
  rewrite -/(op_q _ _ _ _) hq qpart_add // df_coeffs_q addr0 qpart_add //.
  by rewrite df_rhs_q df_global_q.
rewrite -/(op_u _ _ _ _) hu upart_add // df_coeffs_u upart_add // addrA.
by rewrite df_rhs_u df_global_u.
Qed.
End Solve.

Lemma df_writeE (G : nat -> nat -> F) out : is_trace (2 * dim) nb out ->
  df_write dirs D G out = mkseq (fun f => mkseq (fun j => if mask f then 0 else G f j) nb) (2 * dim).
Proof.
move=> [so /allP ao]; rewrite /df_write so; apply: (write_all _ 0 so) => f hf.
by apply/eqP/ao/mem_nth; rewrite so.
Qed.
Lemma mk_is_trace (G : nat -> nat -> F) : is_trace (2 * dim) nb (mkseq (fun f => mkseq (G f) nb) (2 * dim)).
Proof. by split; [exact: size_mkseq | apply/allP => l /mapP[f _ ->]; rewrite size_mkseq]. Qed.

Section Flux.
Variables (lambda_in lambda_out : seq (seq F)).
Hypotheses (hg : gesv_correct gesv) (hok : hdg_ok H) (tau0 : 0 < tau).
Hypotheses (hi : is_trace (2 * dim) nb lambda_in) (ho : is_trace (2 * dim) nb lambda_out).

Lemma df_flux_write X : 
  let out := df_write dirs D (fun i j => mget (2 * dim) (df_dual dim poly_deg D X) i j +
     tau * mget (2 * dim) (df_primal dim poly_deg D X) i j - tau * lambda_at lambda_in i j * df_area D i) lambda_out in
  is_trace (2 * dim) nb out /\ forall f : 'I_(2 * dim), tr nb out f = 
    if mask f then 0 else num_flux H tau (qpart nf X) (upart nf dim X) (tr nb lambda_in) f :> 'cV[F]_nb.
Proof.
move=> out; rewrite /out df_writeE //; split; first exact: mk_is_trace.
move=> f; apply/colP => j; rewrite mxE (nth_mkseq [::]) ?ltn_ord // nth_mkseq //.
case: ifP => _; first by rewrite mxE.
rewrite df_dual_tr df_primal_tr /num_flux !mxE /lambda_at; congr (_ + _ - _).
by rewrite -!mulrA; congr (_ * _); exact: mulrC.
Qed.
Lemma df_mass_write X : 
  let out := df_write dirs D (fun i j => mget (2 * dim) (df_dual dim poly_deg D X) i j +
     tau * mget (2 * dim) (df_primal dim poly_deg D X) i j) lambda_out in
  is_trace (2 * dim) nb out /\ forall f : 'I_(2 * dim), tr nb out f = 
    if mask f then 0 else num_flux H tau (qpart nf X) (upart nf dim X) (fun=> 0) f :> 'cV[F]_nb.
Proof.
move=> out; rewrite /out df_writeE //; split; first exact: mk_is_trace.
move=> f; apply/colP => j; rewrite mxE (nth_mkseq [::]) ?ltn_ord // nth_mkseq //.
case: ifP => _; first by rewrite mxE.
by rewrite df_dual_tr df_primal_tr /num_flux scaler0 subr0 !mxE.
Qed.

Lemma df_trace_to_flux_ok : exists2 y,
  df_trace_to_flux gesv dim poly_deg dirs tau D lambda_in lambda_out = Ok y
  & flux_src H tau mask lambda_in (fun=> 0) 0 y.
Proof.
have [X [hX sX hl]] := df_solve0 hg hok tau0 (iffRL (lambda_okP _ _ _) hi).
rewrite /df_trace_to_flux /df_flux !(iffRL (lambda_okP _ _ _)) // hX /=.
have [t1 t2] := df_flux_write X; eexists; first by [].
by split => //; exists (qpart nf X), (upart nf dim X).
Qed.
Lemma df_residual_flux_ok : exists2 y,
  df_residual_flux gesv dim poly_deg dirs tau D lambda_in lambda_out = Ok y
  & flux_src H tau mask lambda_in df_rq_ df_ru_ y.
Proof.
have [X [hX sX hl]] := df_solve1 hg hok tau0 (iffRL (lambda_okP _ _ _) hi).
rewrite /df_residual_flux /df_flux !(iffRL (lambda_okP _ _ _)) // hX /=.
have [t1 t2] := df_flux_write X; eexists; first by [].
by split => //; exists (qpart nf X), (upart nf dim X).
Qed.
(** The mass fluxes: a second local problem with the solution of the first as a source. *)
Definition mass_src (rq : 'I_dim -> 'cV[F]_nf) (ru : 'cV[F]_nf) (y : seq (seq F)) : Prop :=
  exists (q : 'I_dim -> 'cV[F]_nf) (u : 'cV[F]_nf),
    loc_src H tau q u (tr nb lambda_in) rq ru /\ 
    flux_src H tau mask (zero_trace F (2 * dim) nb) (fun=> 0) ((\matrix_(i, j) df_mass D i j) *m u) y.
Lemma tr_zero (f : 'I_(2 * dim)) : tr nb (zero_trace F (2 * dim) nb) f = 0 :> 'cV[F]_nb.
Proof. by apply/colP => j; rewrite !mxE nth_nseq ltn_ord nth_nseq if_same. Qed.
Lemma df_mass_fluxP X Y rq ru : loc_src H tau (qpart nf X) (upart nf dim X) (tr nb lambda_in) rq ru ->
  loc_src H tau (qpart nf Y) (upart nf dim Y) (fun=> 0) (fun=> 0)
        ((\matrix_(i, j) df_mass D i j) *m upart nf dim X) ->
  mass_src rq ru (df_write dirs D (fun i j => mget (2 * dim) (df_dual dim poly_deg D Y) i j +
     tau * mget (2 * dim) (df_primal dim poly_deg D Y) i j) lambda_out).
Proof.
move=> h1 h2; exists (qpart nf X), (upart nf dim X); split => //.
have [t1 t2] := df_mass_write Y; split => //; exists (qpart nf Y), (upart nf dim Y); split.
  by apply: src_ext h2 => // f; rewrite tr_zero.
move=> f; rewrite t2; case: ifP => // _; apply: flux_ext => //.
by rewrite tr_zero.
Qed.
Lemma df_trace_to_mass_flux_ok : exists2 y,
  df_trace_to_mass_flux gesv dim poly_deg dirs tau D lambda_in lambda_out = Ok y
  & mass_src (fun=> 0) 0 y.
Proof.
have [X [hX sX hl]] := df_solve0 hg hok tau0 (iffRL (lambda_okP _ _ _) hi).
have [Y [hY sY hm]] := df_solve_mass hg hok tau0 X.
rewrite /df_trace_to_mass_flux /df_mass_flux !(iffRL (lambda_okP _ _ _)) // hX /= hY /=.
eexists; first reflexivity; exact: df_mass_fluxP hl hm.
Qed.
Lemma df_total_mass_ok : exists2 y,
  df_total_numerical_flux_mass gesv dim poly_deg dirs tau D lambda_in lambda_out = Ok y
  & mass_src df_rq_ df_ru_ y.
Proof.
have [X [hX sX hl]] := df_solve1 hg hok tau0 (iffRL (lambda_okP _ _ _) hi).
have [Y [hY sY hm]] := df_solve_mass hg hok tau0 X.
rewrite /df_total_numerical_flux_mass /df_mass_flux !(iffRL (lambda_okP _ _ _)) // hX /= hY /=.
eexists; first reflexivity; exact: df_mass_fluxP hl hm.
Qed.
End Flux.

Lemma df_node_typesE : df_node_types dim dirs D = mkseq (fun f => (mask f : nat)) (2 * dim).
Proof.
rewrite /df_node_types.
have := @for_inv _ (fun i r => size r = (2 * dim)%N /\ forall k, nth 0%N r k = if (k < i)%N then (mask k : nat) else 0%N)
  (2 * dim) (fun i r => if mask i then upd r i 1%N else r) (nseq (2 * dim) 0%N).
case.
- by split; [exact: size_nseq | move=> k; rewrite nth_nseq if_same].
- move=> i r hi [sr hr]; case hm: (mask i); split; rewrite ?size_upd // => k.
    rewrite nth_upd sr hi andbT; case: eqP => [->|hne]; first by rewrite ltnSn hm.
    by rewrite hr (_ : (k < i.+1)%N = (k < i)%N) //; lia.
  rewrite hr; case: (k =P i) => [->|hne]; first by rewrite ltnn ltnSn hm.
  by rewrite (_ : (k < i.+1)%N = (k < i)%N) //; lia.
move=> sr hr; apply: (@eq_from_nth _ 0%N); rewrite ?size_mkseq // sr => k hk.
by rewrite hr hk nth_mkseq.
Qed.
End Diffusion.
