(** Proofs about M_DiffusionUniform. *)
From mathcomp Require Import all_ssreflect all_algebra zify ring.
From Verif Require Import M_Base L_Base M_Index L_Index M_DenseLA S_DenseLA M_Lapack S_Lapack L_Lapack.
From Verif Require Import S_Hdg L_Hdg S_Tpp S_LocalSolver M_DiffusionUniform L_LocalBase L_LocalLink.
Set Implicit Arguments. Unset Strict Implicit. Unset Printing Implicit Defensive.
Import Order.TTheory GRing.Theory Num.Theory.
Local Open Scope ring_scope.

Lemma sum_faces2 (V : zmodType) D (G : nat -> V) :
  \sum_(f < 2 * D) G f = \sum_(d < D) (G (2 * d + 0)%N + G (2 * d + 1)%N).
Proof.
rewrite mulnC sum_blocks; apply: eq_bigr => d _.
by rewrite !big_ord_recl big_ord0 addr0 /= mulnC.
Qed.
Lemma unit_normalE (F : realFieldType) d (s : bool) k :
  unit_normal F (2 * d + s) k = if k == d then (if s then 1 else -1) else 0.
Proof.
rewrite /unit_normal (_ : (2 * d + s) %/ 2 = d)%N; last by case: s => /=; lia.
by rewrite oddD oddM /= oddb.
Qed.
Lemma sum_normals2 (F : realFieldType) (V : lmodType F) D (G : nat -> V) k : (k < D)%N ->
  \sum_(f < 2 * D) unit_normal F f k *: G f = G (2 * k + 1)%N - G (2 * k + 0)%N.
Proof.
move=> hk; rewrite (sum_faces2 D (fun f => unit_normal F f k *: G f)) (sum_ord1 (i := Ordinal hk)) => [|d hne] /=.
  by rewrite (unit_normalE F k false) (unit_normalE F k true) eqxx scaleN1r scale1r addrC.
rewrite (unit_normalE F d false) (unit_normalE F d true).
by rewrite eq_sym (negbTE hne) !scale0r addr0.
Qed.

Lemma upd_upd (T : Type) (s : seq T) i v w : upd (upd s i v) i w = upd s i w.
Proof.
case: s => [//|x0 s]; apply: (@eq_from_nth _ x0); rewrite ?size_upd // => k hk.
by rewrite !nth_upd size_upd; case: (_ && _).
Qed.

Section Uniform.
Variable F : realFieldType.
Variable gesv : nat -> nat -> seq F -> seq F -> sv_result F.
Variables (dim poly_deg : nat) (ig : integrator F) (tau : F).
Notation nf := (n_shape_fct dim poly_deg).
Notation nb := (n_shape_bdr dim poly_deg).
Notation nl := (n_loc_dofs dim poly_deg).
Notation A := (assemble_loc_matrix dim poly_deg ig tau).

Lemma n_shape_bdrE : nb = ((poly_deg + 1) ^ (dim - 1))%N.
Proof. exact: hc_powE. Qed.
Lemma n_shape_fctE : (0 < dim)%N -> nf = ((poly_deg + 1) ^ dim)%N.
Proof.
by move=> h; rewrite /n_shape_fct /n_glob_dofs_per_node hc_powE -expnSr subn1 prednK.
Qed.

Definition evsA i j : seq (nat * F) :=
  flatten [seq [:: (loc nl (d * nf + i) (d * nf + j), ig_vol ig i j)] | d <- iota 0 dim] ++
  flatten [seq [:: (loc nl (dim * nf + i) (d * nf + j), - ig_dvol ig i j d);
                   (loc nl (d * nf + i) (dim * nf + j), - ig_dvol ig i j d);
                   (loc nl (dim * nf + i) (d * nf + j), ig_bb ig i j (2 * d + 1));
                   (loc nl (dim * nf + i) (dim * nf + j), tau * ig_bb ig i j (2 * d + 1));
                   (loc nl (dim * nf + i) (d * nf + j), - ig_bb ig i j (2 * d + 0));
                   (loc nl (dim * nf + i) (dim * nf + j), tau * ig_bb ig i j (2 * d + 0))]
          | d <- iota 0 dim].

Lemma assembleE : A = accumulate (zeros F nl nl)
  (flatten [seq flatten [seq evsA i j | j <- iota 0 nf] | i <- iota 0 nf]).
Proof.
apply: for_acc => i s _; apply: for_acc => j t _; rewrite /evsA accumulate_cat -!for_accumulate.
by [].
Qed.

Lemma size_A : size A = (nl * nl)%N.
Proof. by rewrite assembleE size_accumulate size_nseq. Qed.

(** Entry (i, j) of block (P, Q). *)
Definition blockA P Q i j : F :=
  if (P < dim)%N then
    if Q == P then ig_vol ig i j else if Q == dim then - ig_dvol ig i j P else 0
  else if (Q < dim)%N then - ig_dvol ig i j Q + (ig_bb ig i j (2 * Q + 1) - ig_bb ig i j (2 * Q + 0))
  else tau * \sum_(d < dim) (ig_bb ig i j (2 * d + 1) + ig_bb ig i j (2 * d + 0)).

Lemma entry_A P Q i j : (P <= dim)%N -> (Q <= dim)%N -> (i < nf)%N -> (j < nf)%N ->
  nth 0 A (loc nl (P * nf + i) (Q * nf + j)) = blockA P Q i j.
Proof.
move=> hP hQ hi hj.
have hlt X y : (X <= dim)%N -> (y < nf)%N -> (X * nf + y < nl)%N.
  by move=> hX hy; apply: block_lt; rewrite // addn1 ltnS.
have hk : (loc nl (P * nf + i) (Q * nf + j) < size (zeros F nl nl))%N.
  by rewrite size_nseq /loc; apply: block_lt; apply: hlt.
rewrite assembleE nth_contrib // nth_nseq if_same add0r contrib_loop.
have hcond X Y x y : (X <= dim)%N -> (Y <= dim)%N -> (x < nf)%N -> (y < nf)%N ->
    (loc nl (X * nf + x) (Y * nf + y) == loc nl (P * nf + i) (Q * nf + j)) =
    [&& X == P, x == i, Y == Q & y == j].
  by move=> hX hY hx hy; rewrite loc_inj ?hlt // !block_inj // -andbA.
have hev x y : (x < nf)%N -> (y < nf)%N ->
    contrib (loc nl (P * nf + i) (Q * nf + j)) (evsA x y) =
    if (x == i) && (y == j) then blockA P Q i j else 0.
  move=> hx hy; rewrite contrib_cat !contrib_loop.
  have hc X Y : (X <= dim)%N -> (Y <= dim)%N ->
     (loc nl (X * nf + x) (Y * nf + y) == loc nl (P * nf + i) (Q * nf + j)) =
     [&& X == P, Y == Q & (x == i) && (y == j)].
    by move=> hX hY; rewrite hcond //; case: (X == P); case: (Y == Q); case: (x == i).
  have h1 (d : 'I_dim) : contrib (loc nl (P * nf + i) (Q * nf + j))
      [:: (loc nl (d * nf + x) (d * nf + y), ig_vol ig x y)] =
      if [&& d == P :> nat, d == Q :> nat & (x == i) && (y == j)] then ig_vol ig x y else 0.
    by rewrite contrib_cons contrib_nil addr0 hc // ltnW.
  rewrite (eq_bigr _ (fun d _ => h1 d)).
  under [X in _ + X]eq_bigr => d _.
    rewrite !contrib_cons contrib_nil !hc ?(ltnW (ltn_ord d)) //.
    over.
  case hxy : ((x == i) && (y == j)); last by rewrite !big1 ?addr0 // => d _; rewrite !andbF ?addr0.
  case/andP: hxy => /eqP -> /eqP ->; rewrite /blockA.
  case: (ltnP P dim) => hPd.
    have hPn : (dim == P) = false by lia.
    rewrite (@sum_at1 _ dim (fun d => if [&& d == P, d == Q & true] then ig_vol ig i j else 0) P) //;
      last by move=> k _ hne; rewrite (negbTE hne).
    rewrite eqxx andbT /= hPn /=.
    under eq_bigr => d _ do rewrite !add0r !addr0 andbT.
    rewrite (@sum_at1 _ dim (fun d => if (d == P) && (dim == Q) then - ig_dvol ig i j d else 0) P) //;
      last by move=> k _ hne; rewrite (negbTE hne).
    rewrite eqxx /= [P == Q]eq_sym [dim == Q]eq_sym; case: eqP => [->|_]; last by rewrite add0r.
    by rewrite ltn_eqF // addr0.
  have eP : P = dim by apply/eqP; rewrite eqn_leq hP hPd.
  rewrite big1 ?add0r => [|d _]; last by rewrite eP (ltn_eqF (ltn_ord d)).
  rewrite eP eqxx /=; case: (ltnP Q dim) => hQd.
    have hQn : (dim == Q) = false by lia.
    rewrite (bigD1 (Ordinal hQd)) //= big1 ?addr0 => [|k].
      by rewrite hQn eqxx (ltn_eqF hQd) /= !add0r ?addr0.
    by rewrite -val_eqE /= => hne; rewrite (negbTE hne) hQn (ltn_eqF (ltn_ord k)) /= !addr0.
  have eQ : Q = dim by apply/eqP; rewrite eqn_leq hQ hQd.
  rewrite eQ eqxx mulr_sumr; apply: eq_bigr => d _.
  by rewrite (ltn_eqF (ltn_ord d)) /= !add0r addr0 mulrDr.
rewrite (@sum_at1 _ nf (fun x => contrib _ (flatten [seq evsA x y | y <- iota 0 nf])) i) //.
  rewrite contrib_loop (@sum_at1 _ nf (fun y => contrib _ (evsA i y)) j) // ?hev ?eqxx // => y hy hne.
  by rewrite hev // eqxx (negbTE hne).
move=> x hx hne; rewrite contrib_loop big1 // => y _.
by rewrite hev // (negbTE hne).
Qed.

Lemma dim_lt P i : (P <= dim)%N -> (i < nf)%N -> (P * nf + i < nl)%N.
Proof. by move=> hX hy; apply: block_lt; rewrite // addn1 ltnS. Qed.

Section Rhs.
Variable lambda : seq (seq F).
Notation lam := (lambda_at lambda).
Definition evsR i j : seq (nat * F) :=
  flatten [seq [:: ((d * nf + i)%N, lam (2 * d + 0) j * ig_bp ig i j (2 * d + 0));
                   ((dim * nf + i)%N, tau * lam (2 * d + 0) j * ig_bp ig i j (2 * d + 0));
                   ((d * nf + i)%N, - (lam (2 * d + 1) j * ig_bp ig i j (2 * d + 1)));
                   ((dim * nf + i)%N, tau * lam (2 * d + 1) j * ig_bp ig i j (2 * d + 1))]
          | d <- iota 0 dim].
Notation rhs := (assemble_rhs_loop dim poly_deg ig tau lambda).
Lemma rhsE : rhs = accumulate (zeros F nl 1)
  (flatten [seq flatten [seq evsR i j | j <- iota 0 nb] | i <- iota 0 nf]).
Proof.
by apply: for_acc => i s _; apply: for_acc => j t _; rewrite /evsR -for_accumulate.
Qed.
Lemma size_rhs : size rhs = nl.
Proof. by rewrite rhsE size_accumulate size_nseq muln1. Qed.

Lemma entry_rhs P i : (P <= dim)%N -> (i < nf)%N ->
  nth 0 rhs (P * nf + i) =
  if (P < dim)%N then
    \sum_(j < nb) (lam (2 * P + 0) j * ig_bp ig i j (2 * P + 0) - lam (2 * P + 1) j * ig_bp ig i j (2 * P + 1))
  else \sum_(j < nb) \sum_(d < dim) tau * (lam (2 * d + 0) j * ig_bp ig i j (2 * d + 0) +
                                          lam (2 * d + 1) j * ig_bp ig i j (2 * d + 1)).
Proof.
move=> hP hi.
rewrite rhsE nth_contrib ?size_nseq ?muln1 ?dim_lt // nth_nseq if_same add0r contrib_loop.
rewrite (@sum_at1 _ nf (fun x => contrib _ (flatten [seq evsR x y | y <- iota 0 nb])) i) //; last first.
  move=> x hx hne; rewrite contrib_loop big1 // => y _; rewrite contrib_loop big1 // => d _.
  by rewrite !contrib_cons contrib_nil !block_inj // (negbTE hne) !andbF !addr0.
rewrite contrib_loop; case: (ltnP P dim) => hPd.
  have hPn : (dim == P) = false by lia.
  apply: eq_bigr => j _; rewrite contrib_loop.
  rewrite (sum_ord1 (i := Ordinal hPd)) // => [|d hne].
    by rewrite !contrib_cons contrib_nil !block_inj // !eqxx hPn /= !add0r addr0.
  by rewrite !contrib_cons contrib_nil !block_inj // (negbTE hne) hPn /= !addr0.
have eP : P = dim by apply/eqP; rewrite eqn_leq hP hPd.
apply: eq_bigr => j _; rewrite contrib_loop; apply: eq_bigr => d _.
rewrite !contrib_cons contrib_nil !block_inj // eP !eqxx (ltn_eqF (ltn_ord d)) /= !add0r addr0.
by rewrite mulrDr !mulrA.
Qed.
End Rhs.

Section Bdr.
Variable coeffs : seq F.
Notation co P i := (nth 0 coeffs (P * nf + i)%N).
Definition evsP i j : seq (nat * nat * F) :=
  flatten [seq [:: ((2 * d + 0, j)%N, co dim i * ig_bp ig i j (2 * d + 0));
                   ((2 * d + 1, j)%N, co dim i * ig_bp ig i j (2 * d + 1))] | d <- iota 0 dim].
Definition evsD i j : seq (nat * nat * F) :=
  flatten [seq [:: ((2 * d + 0, j)%N, - (co d i * ig_bp ig i j (2 * d + 0)));
                   ((2 * d + 1, j)%N, co d i * ig_bp ig i j (2 * d + 1))] | d <- iota 0 dim].
Notation zero2 := (nseq (2 * dim) (nseq nb (0 : F))).
Notation primal := (primal_at_boundary dim poly_deg ig coeffs).
Notation dual := (dual_at_boundary dim poly_deg ig coeffs).
Lemma primalE : primal = acc2 zero2 (flatten [seq flatten [seq evsP i j | j <- iota 0 nb] | i <- iota 0 nf]).
Proof.
by apply: for_acc2 => i s _; apply: for_acc2 => j t _; apply: for_acc2.
Qed.
Lemma dualE : dual = acc2 zero2 (flatten [seq flatten [seq evsD i j | j <- iota 0 nb] | i <- iota 0 nf]).
Proof.
by apply: for_acc2 => i s _; apply: for_acc2 => j t _; apply: for_acc2.
Qed.

Lemma entry_bdr (G : nat -> nat -> nat -> nat -> F) d (s : bool) j : (d < dim)%N -> (j < nb)%N ->
  get2 (acc2 zero2 (flatten [seq flatten [seq
    flatten [seq [:: ((2 * e + 0, y)%N, G x y e 0%N); ((2 * e + 1, y)%N, G x y e 1%N)] | e <- iota 0 dim]
    | y <- iota 0 nb] | x <- iota 0 nf])) (2 * d + s) j = \sum_(i < nf) G i j d s.
Proof.
move=> hd hj; rewrite (get2_acc _ (rect_nseq _ _ _)) // ?get2_nseq ?add0r; last by case: s => /=; lia.
rewrite contrib2_loop; apply: eq_bigr => i _; rewrite contrib2_loop.
rewrite (sum_ord1 (i := Ordinal hj)) // => [|y hne].
  rewrite contrib2_loop (sum_ord1 (i := Ordinal hd)) // => [|e hne].
    rewrite !contrib2_cons contrib2_nil !xpair_eqE !eqxx !andbT !eqn_add2l.
    by case: s => /=; rewrite ?add0r ?addr0.
  rewrite !contrib2_cons contrib2_nil !xpair_eqE; move: hne => /= /eqP hne.
  have -> : (2 * e + 0 == 2 * d + s)%N = false by case: s => /=; lia.
  have -> : (2 * e + 1 == 2 * d + s)%N = false by case: s => /=; lia.
  by rewrite /= !addr0.
rewrite contrib2_loop big1 // => e _.
by rewrite !contrib2_cons contrib2_nil !xpair_eqE (negbTE hne) !andbF !addr0.
Qed.

Lemma entry_primal d (s : bool) j : (d < dim)%N -> (j < nb)%N ->
  get2 primal (2 * d + s) j = \sum_(i < nf) co dim i * ig_bp ig i j (2 * d + s).
Proof.
move=> hd hj; rewrite primalE.
exact: (entry_bdr (fun i j d s => co dim i * ig_bp ig i j (2 * d + s))).
Qed.
Lemma entry_dual d (s : bool) j : (d < dim)%N -> (j < nb)%N ->
  get2 dual (2 * d + s) j = \sum_(i < nf) (if s then 1 else -1) * (co d i * ig_bp ig i j (2 * d + s)).
Proof.
move=> hd hj; rewrite dualE.
rewrite -(@eq_bigr _ _ _ _ _ _ (fun i : 'I_nf => (fun i j d (s : nat) => if s == 0%N then - (co d i * ig_bp ig i j (2 * d + 0)) else co d i * ig_bp ig i j (2 * d + 1)) i j d s)).
  exact: (entry_bdr (fun i j d s => if s == 0%N then - (co d i * ig_bp ig i j (2 * d + 0)) else co d i * ig_bp ig i j (2 * d + 1))).
by move=> i _; case: s; rewrite /= ?mul1r ?mulN1r.
Qed.
End Bdr.

Notation H := (hdg_of nf nb dim (2 * dim) (ig_vol ig) (ig_dvol ig) (ig_bp ig) (ig_bb ig)
  (unit_normal F) (fun=> 1)).

Lemma block_A P Q (i j : 'I_nf) : (P <= dim)%N -> (Q <= dim)%N ->
  nth 0 A (loc nl (P * nf + i) (Q * nf + j)) = block H tau P Q i j.
Proof.
move=> hP hQ; rewrite entry_A // /blockA /block.
case: (ltnP P dim) => hPd.
  rewrite (insubT (fun x => x < dim)%N hPd); case: (ltnP Q dim) => hQd.
    by rewrite (insubT (fun x => x < dim)%N hQd) -val_eqE /= eq_sym (ltn_eqF hQd) mxE.
  have eQ : Q = dim by apply/eqP; rewrite eqn_leq hQ hQd.
  by rewrite insubF ?ltnNge ?hQd // eQ eq_sym (ltn_eqF hPd) eqxx mxE.
rewrite insubF ?ltnNge ?hPd //; case: (ltnP Q dim) => hQd.
  rewrite (insubT (fun x => x < dim)%N hQd) !mxE; congr (_ + _).
  rewrite summxE; under eq_bigr => f _ do rewrite !mxE.
  by rewrite (@sum_normals2 F [lmodType F of F^o] dim (fun f => ig_bb ig i j f) Q hQd).
rewrite insubF ?ltnNge ?hQd //; congr (_ * _); rewrite summxE.
under [RHS]eq_bigr => f _ do rewrite mxE.
rewrite (sum_faces2 dim (fun f => ig_bb ig i j f)).
by apply: eq_bigr => d _; rewrite addrC.
Qed.

Section Solve.
Variable lambda : seq (seq F).
Notation rhs := (assemble_rhs_loop dim poly_deg ig tau lambda).
Notation lam := (lambda_at lambda).
Lemma rhs_q (d : 'I_dim) : qpart nf rhs d = - (\sum_f hnu H f d *: (hE H f *m tr nb lambda f)) :> 'cV[F]_nf.
Proof.
apply/colP => i; rewrite !mxE entry_rhs ?(ltnW (ltn_ord d)) // ltn_ord summxE.
under [in RHS]eq_bigr => f _.
  rewrite !mxE; under eq_bigr => j _ do rewrite !mxE.
  over.
rewrite (@sum_normals2 F [lmodType F of F^o] dim (fun f => \sum_(j < nb) ig_bp ig i j f * lam f j) d) //.
by rewrite opprB -sumrB; apply: eq_bigr => j _; rewrite ![lam _ _ * _]mulrC.
Qed.
Lemma rhs_u : upart nf dim rhs = tau *: (\sum_f (hE H f *m tr nb lambda f)) :> 'cV[F]_nf.
Proof.
apply/colP => i; rewrite !mxE entry_rhs // ltnn summxE.
under [in RHS]eq_bigr => f _.
  rewrite !mxE; under eq_bigr => j _ do rewrite !mxE.
  over.
rewrite (sum_faces2 dim (fun f => \sum_(j < nb) ig_bp ig i j f * lam f j)) mulr_sumr exchange_big.
apply: eq_bigr => d _; rewrite -big_split mulr_sumr; apply: eq_bigr => j _ /=.
by rewrite ![lam _ _ * _]mulrC.
Qed.

Lemma solve_ok : gesv_correct gesv -> hdg_ok H -> 0 < tau -> lambda_ok dim poly_deg lambda ->
  exists X, [/\ solve_local_problem gesv dim poly_deg ig tau lambda = Ok X, size X = nl
    & loc_eq H tau (qpart nf X) (upart nf dim X) (tr nb lambda)].
Proof.
move=> hg hok ht hl; rewrite /solve_local_problem /assemble_rhs hl.
have [X [hX sX hq hu]] := link_solve block_A hg hok ht size_A (size_rhs lambda).
exists X; split => //; first by move: hX; rewrite -/(n_loc_dofs dim poly_deg) /obind => ->.
by split=> [d|]; [rewrite -rhs_q -hq | rewrite -rhs_u -hu].
Qed.
End Solve.

Lemma lambda_okP (x : seq (seq F)) : lambda_ok dim poly_deg x <-> is_trace (2 * dim) nb x.
Proof.
by split=> [/andP[/eqP h1 h2]|[h1 h2]]; [split | rewrite /lambda_ok h1 eqxx].
Qed.

Lemma primal_tr X (f : 'I_(2 * dim)) : tr nb (primal_at_boundary dim poly_deg ig X) f =
  (hE H f)^T *m upart nf dim X :> 'cV[F]_nb.
Proof.
apply/colP => j; rewrite !mxE.
have hf := ltn_ord f; have ef : (f = 2 * (f %/ 2) + odd f :> nat)%N by rewrite -modn2; lia.
have hd : (f %/ 2 < dim)%N by lia.
rewrite -/(get2 _ _ _) [in LHS]ef entry_primal // -ef.
by apply: eq_bigr => i _; rewrite !mxE mulrC.
Qed.
Lemma dual_tr X (f : 'I_(2 * dim)) : tr nb (dual_at_boundary dim poly_deg ig X) f =
  \sum_d hnu H f d *: ((hE H f)^T *m qpart nf X d) :> 'cV[F]_nb.
Proof.
apply/colP => j; rewrite !mxE summxE.
have hf := ltn_ord f; have ef : (f = 2 * (f %/ 2) + odd f :> nat)%N by rewrite -modn2; lia.
have hd : (f %/ 2 < dim)%N by lia.
rewrite -/(get2 _ _ _) [in LHS]ef entry_dual //.
rewrite (sum_ord1 (i := Ordinal hd)) => [|d hne].
  rewrite !mxE mulr_sumr /=; apply: eq_bigr => i _.
  rewrite !mxE -ef /unit_normal eqxx; congr (_ * _); exact: mulrC.
by rewrite mxE /= /unit_normal (negbTE hne) mul0r.
Qed.

(** Overwriting every entry. *)
Lemma write_all (T : Type) n w (G : nat -> nat -> T) (x0 : T) (t : seq (seq T)) : size t = n ->
  (forall f, (f < n)%N -> size (nth [::] t f) = w) ->
  for_ n (fun i out => for_ (size (nth [::] out i)) (fun j out =>
     upd out i (upd (nth [::] out i) j (G i j))) out) t =
  mkseq (fun f => mkseq (G f) w) n.
Proof.
move=> st sw.
have inner i out : size out = n -> (i < n)%N -> size (nth [::] out i) = w ->
  for_ w (fun j out => upd out i (upd (nth [::] out i) j (G i j))) out = upd out i (mkseq (G i) w).
  move=> so hi sr.
  have := @for_inv _ (fun j o => exists r, [/\ o = upd out i r, size r = w &
     forall k, (k < j)%N -> nth x0 r k = G i k]) w
     (fun j out => upd out i (upd (nth [::] out i) j (G i j))) out.
  case.
  - by exists (nth [::] out i); split => //; rewrite upd_id.
  - move=> j o hj [r [-> sr' hr]]; exists (upd r j (G i j)).
    have er : nth [::] (upd out i r) i = r by rewrite nth_upd eqxx so hi.
    split; rewrite ?size_upd // ?er; first by rewrite upd_upd.
    by move=> k; rewrite ltnS nth_upd sr' hj andbT; case: eqP => [-> //|hne] hk; apply: hr; lia.
  move=> r [-> sr' hr]; congr upd; apply: (@eq_from_nth _ x0); rewrite ?size_mkseq // => k hk.
  by rewrite nth_mkseq ?hr // -sr'.
have [so _] : size (for_ n (fun i out => for_ (size (nth [::] out i)) (fun j out =>
     upd out i (upd (nth [::] out i) j (G i j))) out) t) = n /\ True.
  split=> //; apply: (@for_inv _ (fun _ o => size o = n)) => // i o hi ho.
  by apply: (@for_inv _ (fun _ o => size o = n)) => // k o' _ ho'; rewrite size_upd.
have := @for_inv _ (fun i o => [/\ size o = n, forall f, (f < i)%N -> nth [::] o f = mkseq (G f) w &
     forall f, (f < n)%N -> size (nth [::] o f) = w]) n
     (fun i out => for_ (size (nth [::] out i)) (fun j out => upd out i (upd (nth [::] out i) j (G i j))) out) t.
case.
- by split.
- move=> i o hi [h1 h2 h3]; rewrite h3 // inner // ?h3 //; split; rewrite ?size_upd //.
    by move=> f; rewrite ltnS nth_upd h1 hi andbT; case: eqP => [-> //|hne] hf; apply: h2; lia.
  by move=> f hf; rewrite nth_upd; case: ifP => [_|_]; rewrite ?size_mkseq ?h3.
move=> _ h2 _; apply: (@eq_from_nth _ [::]); rewrite ?size_mkseq // so => f hf.
by rewrite h2 // nth_mkseq.
Qed.

Lemma trace_to_flux_ok lambda_in lambda_out : gesv_correct gesv -> hdg_ok H -> 0 < tau ->
  is_trace (2 * dim) nb lambda_in -> is_trace (2 * dim) nb lambda_out ->
  exists2 y, trace_to_flux gesv dim poly_deg ig tau lambda_in lambda_out = Ok y
    & flux_of H tau lambda_in y.
Proof.
move=> hg hok ht hi ho; have [so /allP ao] := ho.
have [X [hX sX hl]] := solve_ok hg hok ht (iffRL (lambda_okP _) hi).
rewrite /trace_to_flux !(iffRL (lambda_okP _)) // hX /=.
pose G i j := nth 0 (nth [::] (dual_at_boundary dim poly_deg ig X) i) j +
  tau * (nth 0 (nth [::] (primal_at_boundary dim poly_deg ig X) i) j - lambda_at lambda_in i j).
exists (mkseq (fun f => mkseq (G f) nb) (2 * dim)).
  congr Ok; rewrite so; apply: (write_all G 0 so) => f hf; apply/eqP/ao/mem_nth.
  by rewrite so.
split.
  by split; [exact: size_mkseq | apply/allP => l /mapP[f _ ->]; rewrite size_mkseq].
exists (qpart nf X), (upart nf dim X); split => // f.
apply/colP => j; rewrite mxE (nth_mkseq [::]) ?ltn_ord // nth_mkseq // /G.
rewrite /num_flux -primal_tr -dual_tr mulr1 !mxE.
by rewrite mulrBr addrA.
Qed.
End Uniform.
