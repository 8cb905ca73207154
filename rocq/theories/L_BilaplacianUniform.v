(** Proofs about M_BilaplacianUniform: from the arrays to the coupled local problems. *)
From mathcomp Require Import all_ssreflect all_algebra zify ring.
From Verif Require Import M_Base L_Base M_Index L_Index M_DenseLA S_DenseLA L_DenseLA M_Lapack S_Lapack L_Lapack.
From Verif Require Import S_Hdg L_Hdg S_Tpp S_LocalSolver M_DiffusionUniform M_Diffusion S_Diffusion.
From Verif Require Import L_LocalBase L_LocalBlock L_LocalLink L_HdgSrc L_DiffusionUniform L_Diffusion L_BlockLink.
From Verif Require Import M_Bilaplacian S_Bilaplacian L_BiLink L_Bilaplacian M_BilaplacianUniform.
Set Implicit Arguments. Unset Strict Implicit. Unset Printing Implicit Defensive.
Import Order.TTheory GRing.Theory Num.Theory.
Local Open Scope ring_scope.

Section BilaplacianUniform.
Variable F : realFieldType.
Variable gesv : nat -> nat -> seq F -> seq F -> sv_result F.
Variables (dim poly_deg : nat) (ig : integrator F) (tau : F).
Hypothesis dim0 : (0 < dim)%N.
Notation nf := (n_shape_fct dim poly_deg).
Notation nb := (n_shape_bdr dim poly_deg).
Notation L := (dim + 1)%N.
Notation nl := ((L + L) * nf)%N.
Notation A := (bu_assemble_loc_matrix dim poly_deg ig tau).
Notation second X := (drop (L * nf) X).
Notation H := (hdg_of nf nb dim (2 * dim) (ig_vol ig) (ig_dvol ig) (ig_bp ig) (ig_bb ig)
  (unit_normal F) (fun=> 1)).
Notation W := (\matrix_(i, j) ig_vol ig i j : 'M[F]_nf).

Lemma bu_nf : bu_shape_fct dim poly_deg = nf.
Proof. exact: bl_nf. Qed.
Lemma bu_nb : bu_shape_bdr dim poly_deg = nb. Proof. by []. Qed.
Lemma bu_nl : bu_loc_dofs dim poly_deg = nl. Proof. exact: bl_nl. Qed.
Lemma bu_lap : bu_dofs_lap dim poly_deg = (L * nf)%N. Proof. exact: bl_lap. Qed.

(** ** The matrix *)
Definition duA i j : seq (nat * nat * F) :=
  flatten [seq [:: ((d, d), ig_vol ig i j)] | d <- iota 0 dim] ++
  flatten [seq [:: ((dim, d), - ig_dvol ig i j d); ((d, dim), - ig_dvol ig i j d);
                   ((dim, d), ig_bb ig i j (2 * d + 1)); ((dim, dim), tau * ig_bb ig i j (2 * d + 1));
                   ((dim, d), - ig_bb ig i j (2 * d + 0)); ((dim, dim), tau * ig_bb ig i j (2 * d + 0))]
          | d <- iota 0 dim].
Lemma duA_contrib a b (i j : 'I_nf) : (a <= dim)%N -> (b <= dim)%N ->
  contrib2 a b (duA i j) = block H tau a b i j.
Proof.
move=> ha hb; rewrite -(block_A _ _ i j ha hb) assembleE -(@block_entry _ L nf duA) ?addn1 //; last first.
  move=> x y e _ _; rewrite mem_cat => /orP[]; case/flattenP => l /mapP[d]; rewrite mem_iota add0n => /andP[_ hd] ->.
    by rewrite !inE => /eqP -> /=; lia.
  by rewrite !inE => /orP[|/orP[|/or4P[]]] /eqP -> /=; lia.
rewrite /n_loc_dofs addn1; congr (nth 0 (accumulate _ (flatten _)) _); apply: eq_map => x; congr flatten; apply: eq_map => y.
by rewrite /evsA /duA map_cat !map_flatten -!map_comp /n_loc_dofs addn1.
Qed.
Definition buA i j : seq (nat * nat * F) :=
  [:: ((dim, L + dim)%N, - ig_vol ig i j)] ++
  flatten [seq [:: ((d, d), ig_vol ig i j); ((L + d, L + d)%N, ig_vol ig i j)] | d <- iota 0 dim] ++
  flatten [seq [:: ((dim, d), - ig_dvol ig i j d); ((d, dim), - ig_dvol ig i j d);
     ((L + dim, L + d)%N, - ig_dvol ig i j d); ((L + d, L + dim)%N, - ig_dvol ig i j d);
     ((dim, d), ig_bb ig i j (2 * d + 1)); ((L + dim, L + d)%N, ig_bb ig i j (2 * d + 1));
     ((dim, dim), tau * ig_bb ig i j (2 * d + 1)); ((L + dim, L + dim)%N, tau * ig_bb ig i j (2 * d + 1));
     ((dim, d), - ig_bb ig i j (2 * d + 0)); ((L + dim, L + d)%N, - ig_bb ig i j (2 * d + 0));
     ((dim, dim), tau * ig_bb ig i j (2 * d + 0)); ((L + dim, L + dim)%N, tau * ig_bb ig i j (2 * d + 0))]
     | d <- iota 0 dim].
Lemma bu_assembleE : A = accumulate (zeros F nl nl) (flatten [seq flatten [seq
   [seq (loc nl (e.1.1 * nf + i) (e.1.2 * nf + j), e.2) | e <- buA i j]
    | j <- iota 0 nf] | i <- iota 0 nf]).
Proof.
rewrite /bu_assemble_loc_matrix bu_nl bu_lap bu_nf.
apply: for_acc => i s _; apply: for_acc => j t _; rewrite /buA !map_cat !map_flatten -!map_comp.
rewrite !accumulate_cat /= -!at_second.
have e2 r0 : for_ dim (fun d A => madd nl (madd nl A (d * nf + i) (d * nf + j) (ig_vol ig i j))
    (L * nf + d * nf + i) (L * nf + d * nf + j) (ig_vol ig i j)) r0 = accumulate r0
  (flatten [seq [:: (loc nl (d * nf + i) (d * nf + j), ig_vol ig i j);
     (loc nl (L * nf + d * nf + i) (L * nf + d * nf + j), ig_vol ig i j)] | d <- iota 0 dim]).
  by apply: for_acc => d r _.
rewrite e2.
have -> : [seq [seq (loc nl (e.1.1 * nf + i) (e.1.2 * nf + j), e.2)
      | e <- [:: ((d, d), ig_vol ig i j); ((L + d, L + d)%N, ig_vol ig i j)]] | d <- iota 0 dim] =
   [seq [:: (loc nl (d * nf + i) (d * nf + j), ig_vol ig i j);
     (loc nl (L * nf + d * nf + i) (L * nf + d * nf + j), ig_vol ig i j)] | d <- iota 0 dim].
  by apply: eq_map => d /=; rewrite -!at_second.
by apply: for_acc => d r _ /=; rewrite -!at_second.
Qed.
Lemma bu_size_A : size A = (nl * nl)%N.
Proof. by rewrite bu_assembleE size_accumulate size_nseq. Qed.
Lemma buA_in i j e : e \in buA i j -> (e.1.1 < L + L)%N && (e.1.2 < L + L)%N.
Proof.
rewrite !mem_cat => /or3P[].
- by rewrite !inE => /eqP -> /=; lia.
- case/flattenP => l /mapP[d]; rewrite mem_iota add0n => /andP[_ hd] ->.
  by rewrite !inE => /orP[] /eqP -> /=; lia.
case/flattenP => l /mapP[d]; rewrite mem_iota add0n => /andP[_ hd] ->.
by rewrite !inE => /orP[|/orP[|/orP[|/orP[|/orP[|/orP[|/orP[|/orP[|/or4P[]]]]]]]]] /eqP -> /=; lia.
Qed.
Lemma buA_ll a b i j : (a < L)%N -> (b < L)%N -> contrib2 a b (buA i j) = contrib2 a b (duA i j).
Proof.
move=> ha hb; rewrite /buA /duA /= contrib2_cons !contrib2_cat !contrib2_loop xpair_eqE.
have eb k : (L + k == b)%N = false by lia.
have ea k : (L + k == a)%N = false by lia.
rewrite !eb /= ?andbF add0r; congr (_ + _); apply: eq_bigr => d _;
  by rewrite !contrib2_cons !contrib2_nil !xpair_eqE !eb ?ea /= ?andbF ?add0r.
Qed.
Lemma buA_rr a b i j : (a < L)%N -> (b < L)%N ->
  contrib2 (L + a)%N (L + b)%N (buA i j) = contrib2 a b (duA i j).
Proof.
move=> ha hb; rewrite /buA /duA /= contrib2_cons !contrib2_cat !contrib2_loop xpair_eqE.
have ea k : (k <= dim)%N -> (k == L + a)%N = false by lia.
rewrite !ea //= add0r; congr (_ + _); apply: eq_bigr => d _.
  have hd : (d <= dim)%N by have := ltn_ord d; lia.
  by rewrite !contrib2_cons !contrib2_nil !xpair_eqE !eqn_add2l !ea //= !add0r.
have hd : (d <= dim)%N by have := ltn_ord d; lia.
by rewrite !contrib2_cons !contrib2_nil !xpair_eqE !eqn_add2l !ea //= !add0r.
Qed.
Lemma buA_lr a b i j : (a < L)%N -> (b < L)%N ->
  contrib2 a (L + b)%N (buA i j) = if (a == dim) && (b == dim) then - ig_vol ig i j else 0.
Proof.
move=> ha hb; rewrite /buA /= contrib2_cons !contrib2_cat !contrib2_loop !xpair_eqE !eqn_add2l.
have eb k : (k <= dim)%N -> (k == L + b)%N = false by lia.
have ea k : (L + k == a)%N = false by lia.
rewrite !big1 ?addr0 => [|d _|d _]; first by rewrite ![_ == dim]eq_sym.
  have hd : (d <= dim)%N by have := ltn_ord d; lia.
  by rewrite !contrib2_cons contrib2_nil !xpair_eqE !eqn_add2l !eb // !ea // /= ?andbF ?add0r.
have hd : (d <= dim)%N by have := ltn_ord d; lia.
by rewrite !contrib2_cons contrib2_nil !xpair_eqE !eqn_add2l !eb // !ea // /= ?andbF ?add0r.
Qed.
Lemma buA_rl a b i j : (a < L)%N -> (b < L)%N -> contrib2 (L + a)%N b (buA i j) = 0.
Proof.
move=> ha hb; rewrite /buA /= contrib2_cons !contrib2_cat !contrib2_loop !xpair_eqE.
have ea k : (k <= dim)%N -> (k == L + a)%N = false by lia.
have eb k : (L + k == b)%N = false by lia.
rewrite !ea //= add0r !big1 ?addr0 // => d _.
  have hd : (d <= dim)%N by have := ltn_ord d; lia.
  by rewrite !contrib2_cons contrib2_nil !xpair_eqE !eqn_add2l !eb // !ea // /= ?andbF ?add0r.
have hd : (d <= dim)%N by have := ltn_ord d; lia.
by rewrite !contrib2_cons contrib2_nil !xpair_eqE !eqn_add2l !eb // !ea // /= ?andbF ?add0r.
Qed.
Lemma bu_block (X Y : 'I_(L + L)) (i j : 'I_nf) :
  nth 0 A (loc nl (X * nf + i) (Y * nf + j)) = biK H tau W X Y i j.
Proof.
rewrite bu_assembleE block_entry //; last by move=> x y e _ _ /buA_in.
have le (a : 'I_L) : (a <= dim)%N by have := ltn_ord a; lia.
case: (split_ordP X) => a ->; case: (split_ordP Y) => b ->; rewrite /biK ?split_l ?split_r.
- by rewrite /= buA_ll ?duA_contrib // mxE.
- by rewrite /= buA_lr //; case: ifP => _; rewrite !mxE.
- by rewrite /= buA_rl // mxE.
by rewrite /= buA_rr // duA_contrib // mxE.
Qed.

(** ** Right-hand side *)
Section Lambda.
Variable lambda : seq (seq F).
Notation lam := (lambda_at lambda).
Notation rhs := (bu_rhs_loop dim poly_deg ig tau lambda).
Notation part k := (assemble_rhs_loop dim poly_deg ig tau (k nb lambda)).
Definition buR i : seq (nat * F) := flatten [seq flatten [seq
   [:: (d, lam (2 * d + 0) j * ig_bp ig i j (2 * d + 0)); (dim, tau * lam (2 * d + 0) j * ig_bp ig i j (2 * d + 0));
       ((L + d)%N, lam (2 * d + 0) (nb + j) * ig_bp ig i j (2 * d + 0));
       ((L + dim)%N, tau * lam (2 * d + 0) (nb + j) * ig_bp ig i j (2 * d + 0));
       (d, - (lam (2 * d + 1) j * ig_bp ig i j (2 * d + 1))); (dim, tau * lam (2 * d + 1) j * ig_bp ig i j (2 * d + 1));
       ((L + d)%N, - (lam (2 * d + 1) (nb + j) * ig_bp ig i j (2 * d + 1)));
       ((L + dim)%N, tau * lam (2 * d + 1) (nb + j) * ig_bp ig i j (2 * d + 1))]
   | d <- iota 0 dim] | j <- iota 0 nb].
Lemma bu_rhsE : rhs = accumulate (zeros F nl 1)
  (flatten [seq [seq ((e.1 * nf + i)%N, e.2) | e <- buR i] | i <- iota 0 nf]).
Proof.
rewrite /bu_rhs_loop bu_nl bu_lap bu_nf.
apply: for_acc => i s _; rewrite /buR map_flatten -map_comp; apply: for_acc => j t _.
rewrite /= map_flatten -map_comp; apply: for_acc => d r _ /=.
by rewrite -!at_second.
Qed.
Lemma bu_size_rhs : size rhs = nl.
Proof. by rewrite bu_rhsE size_accumulate size_nseq muln1. Qed.
Lemma du_entry (l : seq (seq F)) k i : (k <= dim)%N -> (i < nf)%N ->
  nth 0 (assemble_rhs_loop dim poly_deg ig tau l) (k * nf + i) = \sum_(j < nb) \sum_(d < dim)
   contrib k [:: (d : nat, lambda_at l (2 * d + 0) j * ig_bp ig i j (2 * d + 0));
       (dim, tau * lambda_at l (2 * d + 0) j * ig_bp ig i j (2 * d + 0));
       (d : nat, - (lambda_at l (2 * d + 1) j * ig_bp ig i j (2 * d + 1)));
       (dim, tau * lambda_at l (2 * d + 1) j * ig_bp ig i j (2 * d + 1))].
Proof.
move=> hk hi.
have e : assemble_rhs_loop dim poly_deg ig tau l = accumulate (zeros F (L * nf) 1) (flatten [seq
    [seq ((e.1 * nf + x)%N, e.2) | e <- flatten [seq flatten [seq
    [:: (d, lambda_at l (2 * d + 0) j * ig_bp ig x j (2 * d + 0));
       (dim, tau * lambda_at l (2 * d + 0) j * ig_bp ig x j (2 * d + 0));
       (d, - (lambda_at l (2 * d + 1) j * ig_bp ig x j (2 * d + 1)));
       (dim, tau * lambda_at l (2 * d + 1) j * ig_bp ig x j (2 * d + 1))] | d <- iota 0 dim] | j <- iota 0 nb]] | x <- iota 0 nf]).
  apply: for_acc => x s _; rewrite map_flatten -map_comp; apply: for_acc => j t _.
  by rewrite /= map_flatten -map_comp; apply: for_acc.
rewrite e (@block_vec _ L nf (fun x => flatten [seq flatten [seq _ | d <- iota 0 dim] | j <- iota 0 nb])) //; last by lia.
by rewrite contrib_loop; apply: eq_bigr => j _; rewrite contrib_loop.
Qed.
Lemma bu_rhs_lo k i : (k <= dim)%N -> (i < nf)%N -> nth 0 rhs (k * nf + i) = nth 0 (part (@lower F)) (k * nf + i).
Proof.
move=> hk hi; rewrite bu_rhsE (@block_vec _ (L + L) nf) //; last by lia.
rewrite du_entry // /buR contrib_loop; apply: eq_bigr => j _; rewrite contrib_loop; apply: eq_bigr => d _.
have ek a : (L + a == k)%N = false by lia.
by rewrite !contrib_cons !contrib_nil !ek !add0r !lower_at.
Qed.
Lemma bu_rhs_hi k i : (k <= dim)%N -> (i < nf)%N ->
  nth 0 (second rhs) (k * nf + i) = nth 0 (part (@upper F)) (k * nf + i).
Proof.
move=> hk hi; rewrite nth_drop addnA at_second bu_rhsE (@block_vec _ (L + L) nf) //; last by lia.
rewrite du_entry // /buR contrib_loop; apply: eq_bigr => j _; rewrite contrib_loop; apply: eq_bigr => d _.
have ek a : (a <= dim)%N -> (a == L + k)%N = false by lia.
have hd : (d <= dim)%N by have := ltn_ord d; lia.
by rewrite !contrib_cons !contrib_nil !(ek _ hd) !(ek _ (leqnn dim)) !add0r !eqn_add2l !upper_at.
Qed.
End Lambda.

Lemma bu_lambda_okP (x : seq (seq F)) : bu_lambda_ok dim poly_deg x <-> is_trace (2 * dim) (2 * nb) x.
Proof. by split=> [/andP[/eqP h1 h2]|[h1 h2]]; [split | rewrite /bu_lambda_ok h1 eqxx]. Qed.

Lemma bu_solve lambda : gesv_correct gesv -> hdg_ok H -> 0 < tau -> is_trace (2 * dim) (2 * nb) lambda ->
  exists X, [/\ bu_solve_local_problem gesv dim poly_deg ig tau lambda = Ok X, size X = nl,
    loc_eq H tau (qpart nf (second X)) (upart nf dim (second X)) (tr nb (upper nb lambda))
  & loc_src H tau (qpart nf X) (upart nf dim X) (tr nb (lower nb lambda)) (fun=> 0) (W *m upart nf dim (second X))].
Proof.
move=> hg hok ht hl; rewrite /bu_solve_local_problem /bu_rhs (iffRL (bu_lambda_okP _) hl).
have hA (X Y : 'I_(L + L)) (i j : 'I_nf) : nth 0 A (loc nl (X * nf + i) (Y * nf + j)) = 1 * biK H tau W X Y i j.
  by rewrite mul1r bu_block.
have [X [h1 h2 [h3 h4] [h5 h6]]] := bi_solve hA hok ht (oner_neq0 F) hg bu_size_A (bu_size_rhs lambda).
exists X; split => //; first by move: h1; rewrite -bu_nl /obind => ->.
  split=> [d|].
    rewrite -/(op_q _ _ _ _) -[LHS]scale1r h5.
    by rewrite -(rhs_q poly_deg ig tau); apply/colP => i; rewrite !mxE bu_rhs_hi ?(ltnW (ltn_ord d)).
  rewrite -/(op_u _ _ _ _) -[LHS]scale1r h6.
  by rewrite -rhs_u; apply/colP => i; rewrite !mxE bu_rhs_hi.
split=> [d|].
  rewrite addr0 -/(op_q _ _ _ _) -[LHS]scale1r h3.
  by rewrite -(rhs_q poly_deg ig tau); apply/colP => i; rewrite !mxE bu_rhs_lo ?(ltnW (ltn_ord d)).
rewrite -/(op_u _ _ _ _); apply/eqP; rewrite -subr_eq -[X in X == _]scale1r h4; apply/eqP.
by rewrite -rhs_u; apply/colP => i; rewrite !mxE bu_rhs_lo.
Qed.

(** ** Boundary values *)
Section Bdr.
Variable X : seq F.
Notation zero2 := (nseq (2 * dim) (nseq (2 * nb) (0 : F))).
Lemma bu_entry_bdr (G : nat -> nat -> nat -> nat -> nat -> F) (t : seq (seq F)) (f : 'I_(2 * dim)) (s : bool) (j : 'I_nb) :
  t = acc2 zero2 (flatten [seq flatten [seq flatten [seq
    [:: ((2 * e + 0, y)%N, G x y e 0%N 0%N); ((2 * e + 0, nb + y)%N, G x y e 0%N 1%N);
        ((2 * e + 1, y)%N, G x y e 1%N 0%N); ((2 * e + 1, nb + y)%N, G x y e 1%N 1%N)] | e <- iota 0 dim]
    | y <- iota 0 nb] | x <- iota 0 nf]) ->
  lambda_at t f (s * nb + j) = \sum_(i < nf) G i j (f %/ 2)%N (f %% 2)%N s.
Proof.
move=> ->; have hj := ltn_ord j; have hf := ltn_ord f.
have ef : (f = 2 * (f %/ 2) + f %% 2 :> nat)%N by lia.
have hd : (f %/ 2 < dim)%N by lia.
have hm : (f %% 2 < 2)%N by lia.
rewrite -[lambda_at _ _ _]/(get2 _ _ _) (get2_acc _ (rect_nseq _ _ _)) // ?get2_nseq ?add0r; last by case: s => /=; lia.
rewrite contrib2_loop; apply: eq_bigr => i _; rewrite contrib2_loop (sum_ord1 (i := j)) => [|k hne].
  rewrite contrib2_loop (sum_ord1 (i := Ordinal hd)) => [|e hne].
    rewrite !contrib2_cons contrib2_nil !xpair_eqE /=.
    have -> : ((2 * (f %/ 2) + 0)%N == f) = (f %% 2 == 0)%N by lia.
    have -> : ((2 * (f %/ 2) + 1)%N == f) = (f %% 2 == 1)%N by lia.
    have -> : (j == s * nb + j :> nat)%N = ~~ s by case: s => /=; lia.
    have -> : (nb + j == s * nb + j :> nat)%N = s by case: s => /=; lia.
    by case: (f %% 2)%N hm => [|[|//]] _; case: s; rewrite /= ?add0r ?addr0.
  rewrite !contrib2_cons contrib2_nil !xpair_eqE; move: hne => /= /eqP hne.
  have -> : (2 * e + 0 == f)%N = false by lia.
  have -> : (2 * e + 1 == f)%N = false by lia.
  by rewrite /= !addr0.
rewrite contrib2_loop big1 // => e _; rewrite !contrib2_cons contrib2_nil !xpair_eqE; move: hne => /= /eqP hne.
have hk := ltn_ord k.
have -> : (k == s * nb + j :> nat)%N = false by case: s => /=; lia.
have -> : (nb + k == s * nb + j :> nat)%N = false by case: s => /=; lia.
by rewrite !andbF !addr0.
Qed.
Lemma bu_primalE : bu_primal dim poly_deg ig X = acc2 zero2 (flatten [seq flatten [seq flatten [seq
    [:: ((2 * e + 0, y)%N, nth 0 X (dim * nf + x) * ig_bp ig x y (2 * e + 0));
        ((2 * e + 0, nb + y)%N, nth 0 X (L * nf + dim * nf + x) * ig_bp ig x y (2 * e + 0));
        ((2 * e + 1, y)%N, nth 0 X (dim * nf + x) * ig_bp ig x y (2 * e + 1));
        ((2 * e + 1, nb + y)%N, nth 0 X (L * nf + dim * nf + x) * ig_bp ig x y (2 * e + 1))] | e <- iota 0 dim]
    | y <- iota 0 nb] | x <- iota 0 nf]).
Proof.
rewrite /bu_primal bu_lap bu_nf.
by apply: for_acc2 => i s _; apply: for_acc2 => j t _; apply: for_acc2.
Qed.
Lemma bu_dualE : bu_dual dim poly_deg ig X = acc2 zero2 (flatten [seq flatten [seq flatten [seq
    [:: ((2 * e + 0, y)%N, - (nth 0 X (e * nf + x) * ig_bp ig x y (2 * e + 0)));
        ((2 * e + 0, nb + y)%N, - (nth 0 X (L * nf + e * nf + x) * ig_bp ig x y (2 * e + 0)));
        ((2 * e + 1, y)%N, nth 0 X (e * nf + x) * ig_bp ig x y (2 * e + 1));
        ((2 * e + 1, nb + y)%N, nth 0 X (L * nf + e * nf + x) * ig_bp ig x y (2 * e + 1))] | e <- iota 0 dim]
    | y <- iota 0 nb] | x <- iota 0 nf]).
Proof.
rewrite /bu_dual bu_lap bu_nf.
by apply: for_acc2 => i s _; apply: for_acc2 => j t _; apply: for_acc2.
Qed.
Definition half (s : bool) := if s then second X else X.
Lemma half_at s k : nth 0 (half s) k = nth 0 X (s * (L * nf) + k).
Proof. by case: s => /=; rewrite ?nth_drop ?mul1n. Qed.
Lemma bu_primal_tr (s : bool) (f : 'I_(2 * dim)) (j : 'I_nb) :
  lambda_at (bu_primal dim poly_deg ig X) f (s * nb + j) = ((hE H f)^T *m upart nf dim (half s)) j 0.
Proof.
pose G (x y e t s : nat) := nth 0 X (s * (L * nf) + (dim * nf + x)) * ig_bp ig x y (2 * e + t).
have hf := ltn_ord f; have ef : (f = 2 * (f %/ 2) + f %% 2 :> nat)%N by lia.
rewrite (@bu_entry_bdr G) ?bu_primalE; last first.
  congr acc2; congr flatten; apply: eq_map => x; congr flatten; apply: eq_map => y; congr flatten; apply: eq_map => e.
  by rewrite /G /= !mul0n !mul1n !add0n !addnA.
rewrite mxE; apply: eq_bigr => i _; rewrite /G !mxE -ef half_at; exact: mulrC.
Qed.
Lemma bu_dual_tr (s : bool) (f : 'I_(2 * dim)) (j : 'I_nb) :
  lambda_at (bu_dual dim poly_deg ig X) f (s * nb + j) =
  (\sum_d hnu H f d *: ((hE H f)^T *m qpart nf (half s) d)) j 0.
Proof.
pose G (x y e t s : nat) := (if t == 0%N then -1 else 1) * (nth 0 X (s * (L * nf) + (e * nf + x)) * ig_bp ig x y (2 * e + t)).
have hf := ltn_ord f; have ef : (f = 2 * (f %/ 2) + f %% 2 :> nat)%N by lia.
have hd : (f %/ 2 < dim)%N by lia.
rewrite (@bu_entry_bdr G) ?bu_dualE; last first.
  congr acc2; congr flatten; apply: eq_map => x; congr flatten; apply: eq_map => y; congr flatten; apply: eq_map => e.
  by rewrite /G /= !mulN1r !mul1r !mul0n !mul1n !add0n !addnA.
rewrite summxE (sum_ord1 (i := Ordinal hd)) => [|d hne].
  rewrite !mxE mulr_sumr /=; apply: eq_bigr => i _.
  rewrite !mxE /G /unit_normal eqxx half_at -ef modn2; case: (odd f) => /=; congr (_ * _); exact: mulrC.
by rewrite mxE /= /unit_normal (negbTE hne) mul0r.
Qed.
End Bdr.

Lemma bu_flux_ok x out : gesv_correct gesv -> hdg_ok H -> 0 < tau ->
  is_trace (2 * dim) (2 * nb) x -> is_trace (2 * dim) (2 * nb) out ->
  exists y q u r w, [/\ bu_trace_to_flux gesv dim poly_deg ig tau x out = Ok y, is_trace (2 * dim) (2 * nb) y,
    loc_eq H tau r w (tr nb (upper nb x)) /\ loc_src H tau q u (tr nb (lower nb x)) (fun=> 0) (W *m w),
    forall f : 'I_(2 * dim), tr nb (lower nb y) f = num_flux H tau q u (tr nb (lower nb x)) f
  & forall f : 'I_(2 * dim), tr nb (upper nb y) f = num_flux H tau r w (tr nb (upper nb x)) f].
Proof.
move=> hg hok ht hi ho; have [so /allP ao] := ho.
have [X [hX sX hl1 hl2]] := bu_solve hg hok ht hi.
rewrite /bu_trace_to_flux !(iffRL (bu_lambda_okP _)) // hX /=.
pose G i j := nth 0 (nth [::] (bu_dual dim poly_deg ig X) i) j +
  tau * (nth 0 (nth [::] (bu_primal dim poly_deg ig X) i) j - lambda_at x i j).
exists (mkseq (fun f => mkseq (G f) (2 * nb)) (2 * dim)), (qpart nf X), (upart nf dim X),
  (qpart nf (second X)), (upart nf dim (second X)).
have hnum (s : bool) (f : 'I_(2 * dim)) (j : 'I_nb) (z : 'cV[F]_nb) : z j 0 = lambda_at x f (s * nb + j) ->
    G f (s * nb + j)%N = (\sum_d hnu H f d *: ((hE H f)^T *m qpart nf (half X s) d) +
      tau *: ((hE H f)^T *m upart nf dim (half X s)) - (tau * ha H f) *: z) j 0.
  move=> hz; rewrite /G -![nth 0 (nth [::] _ _) _]/(lambda_at _ _ _) bu_dual_tr bu_primal_tr -hz mulr1.
  have e (a b : 'cV[F]_nb) : a j 0 + tau * (b j 0 - z j 0) = (a + tau *: b - tau *: z) j 0 by rewrite !mxE mulrBr addrA.
  exact: e.
split => //.
- congr Ok; rewrite so; apply: (write_all G 0 so) => f hf; apply/eqP/ao/mem_nth.
  by rewrite so.
- by split; [exact: size_mkseq | apply/allP => l /mapP[f _ ->]; rewrite size_mkseq].
- move=> f; apply/colP => j; have hj := ltn_ord j; rewrite mxE -/(lambda_at _ _ _) lower_at // /lambda_at.
  rewrite (nth_mkseq [::]) ?ltn_ord // nth_mkseq; last by lia.
  rewrite -[j : nat]/(false * nb + j)%N (hnum false f j (tr nb (lower nb x) f)) //.
  by rewrite mxE -/(lambda_at _ _ _) lower_at.
move=> f; apply/colP => j; have hj := ltn_ord j; rewrite mxE -/(lambda_at _ _ _) upper_at /lambda_at.
rewrite (nth_mkseq [::]) ?ltn_ord // nth_mkseq; last by lia.
have := hnum true f j (tr nb (upper nb x) f); rewrite mul1n => -> //.
by rewrite mxE -/(lambda_at _ _ _) upper_at.
Qed.
End BilaplacianUniform.
