(** Proofs about M_Bilaplacian: from the arrays to the coupled local problems. *)
From mathcomp Require Import all_ssreflect all_algebra zify ring.
From Verif Require Import M_Base L_Base M_Index L_Index M_DenseLA S_DenseLA L_DenseLA M_Lapack S_Lapack L_Lapack.
From Verif Require Import S_Hdg L_Hdg S_Tpp S_LocalSolver M_DiffusionUniform M_Diffusion S_Diffusion.
From Verif Require Import L_LocalBase L_LocalBlock L_LocalLink L_HdgSrc L_DiffusionUniform L_Diffusion L_BlockLink.
From Verif Require Import M_Bilaplacian S_Bilaplacian L_BiLink.
Set Implicit Arguments. Unset Strict Implicit. Unset Printing Implicit Defensive.
Import Order.TTheory GRing.Theory Num.Theory.
Local Open Scope ring_scope.

Section Halves.
Variable F : realFieldType.
Variable nb : nat.
Implicit Types x : seq (seq F).
Lemma lower_at x f j : (j < nb)%N -> lambda_at (lower nb x) f j = lambda_at x f j.
Proof.
move=> hj; rewrite /lambda_at; case: (ltnP f (size x)) => hf.
  by rewrite (nth_map [::]) // nth_take.
by rewrite !(nth_default [::]) ?size_map // !nth_nil.
Qed.
Lemma upper_at x f j : lambda_at (upper nb x) f j = lambda_at x f (nb + j).
Proof.
rewrite /lambda_at; case: (ltnP f (size x)) => hf; first by rewrite (nth_map [::]) // nth_drop.
by rewrite !(nth_default [::]) ?size_map // !nth_nil.
Qed.
Lemma lower_trace nF x : is_trace nF (2 * nb) x -> is_trace nF nb (lower nb x).
Proof.
move=> [h1 /allP h2]; split; rewrite ?size_map //; apply/allP => l /mapP[k /h2/eqP hk ->].
by rewrite size_take hk; apply/eqP; case: ifP => //; lia.
Qed.
Lemma upper_trace nF x : is_trace nF (2 * nb) x -> is_trace nF nb (upper nb x).
Proof.
move=> [h1 /allP h2]; split; rewrite ?size_map //; apply/allP => l /mapP[k /h2/eqP hk ->].
by rewrite size_drop hk; apply/eqP; lia.
Qed.
Lemma halves_ext nF x y : is_trace nF (2 * nb) x -> is_trace nF (2 * nb) y ->
  (forall f : 'I_nF, tr nb (lower nb x) f = tr nb (lower nb y) f :> 'cV[F]_nb) ->
  (forall f : 'I_nF, tr nb (upper nb x) f = tr nb (upper nb y) f :> 'cV[F]_nb) -> x = y.
Proof.
move=> hx hy hl hu.
have el := trace_ext (lower_trace hx) (lower_trace hy) hl.
have eu := trace_ext (upper_trace hx) (upper_trace hy) hu.
case: hx hy => [sx ax] [sy ay]; apply: (@eq_from_nth _ [::]); rewrite ?sx ?sy // => f hf.
rewrite -[LHS](cat_take_drop nb) -[RHS](cat_take_drop nb).
have := congr1 (nth [::] ^~ f) el; rewrite !(nth_map [::]) ?sx ?sy // => ->.
by have := congr1 (nth [::] ^~ f) eu; rewrite !(nth_map [::]) ?sx ?sy // => ->.
Qed.
End Halves.

(** Loops that overwrite parts of a row. *)
Section Rows.
Variable T : Type.
Implicit Types (out : seq (seq T)) (r : seq T).
Lemma row_loop n i off (g : nat -> T) out : (i < size out)%N ->
  for_ n (fun j out => upd2 out i (off + j) (g j)) out =
  upd out i (for_ n (fun j r => upd r (off + j) (g j)) (nth [::] out i)).
Proof.
move=> hi; elim: n => [|n IH]; first by rewrite upd_id.
by rewrite !for_S IH /upd2 nth_upd eqxx hi upd_upd.
Qed.
Lemma nth_row (x0 : T) n off (g : nat -> T) r k : (off + n <= size r)%N ->
  nth x0 (for_ n (fun j r => upd r (off + j) (g j)) r) k =
  if (off <= k < off + n)%N then g (k - off)%N else nth x0 r k.
Proof.
elim: n => [|n IH] hn; first by rewrite addn0; case: ifP => //; lia.
have hs : size (for_ n (fun j r => upd r (off + j) (g j)) r) = size r.
  by apply: (@for_inv _ (fun _ o => size o = size r)) => // i o _ ho; rewrite size_upd.
rewrite for_S nth_upd hs IH; last by lia.
case: eqP => [->|hne] /=.
  have -> : (off + n < size r)%N = true by lia.
  have -> : (off <= off + n < off + n.+1)%N = true by lia.
  by rewrite addKn.
by rewrite (_ : (off <= k < off + n.+1)%N = (off <= k < off + n)%N) //; lia.
Qed.
Lemma size_row n off (g : nat -> T) r : size (for_ n (fun j r => upd r (off + j) (g j)) r) = size r.
Proof. by apply: (@for_inv _ (fun _ o => size o = size r)) => // i o _ ho; rewrite size_upd. Qed.
Lemma rows_loop (body : nat -> seq (seq T) -> seq (seq T)) (R : nat -> seq T -> seq T) out :
  (forall i o, (i < size out)%N -> size o = size out -> body i o = upd o i (R i (nth [::] o i))) ->
  for_ (size out) body out = mkseq (fun i => R i (nth [::] out i)) (size out).
Proof.
move=> hb.
have := @for_inv _ (fun i o => size o = size out /\ forall k, nth [::] o k =
  if (k < i)%N then R k (nth [::] out k) else nth [::] out k) (size out) body out.
case; first by [].
- move=> i o hi [so ho]; rewrite hb //; split; rewrite ?size_upd // => k.
  rewrite nth_upd so hi andbT; case: eqP => [->|hne]; first by rewrite ltnSn ho ltnn.
  by rewrite ho (_ : (k < i.+1)%N = (k < i)%N) //; lia.
move=> so ho; apply: (@eq_from_nth _ [::]); rewrite ?size_mkseq // so => k hk.
by rewrite ho hk nth_mkseq.
Qed.
End Rows.

Section Bilaplacian.
Variable F : realFieldType.
Variable gesv : nat -> nat -> seq F -> seq F -> sv_result F.
Variables (dim poly_deg : nat) (dirs laps : seq nat) (tau : F) (P : bl_data F).
Hypothesis dim0 : (0 < dim)%N.
Notation D := (bl_df P).
Notation nf := (n_shape_fct dim poly_deg).
Notation nb := (n_shape_bdr dim poly_deg).
Notation L := (dim + 1)%N.
Notation nl := ((L + L) * nf)%N.
Notation A := (bl_assemble_loc_matrix dim poly_deg tau D).
Notation second X := (drop (L * nf) X).

Lemma bl_nf : bl_shape_fct dim poly_deg = nf.
Proof. by rewrite /bl_shape_fct hc_powE n_shape_fctE. Qed.
Lemma bl_nb : bl_shape_bdr dim poly_deg = nb.
Proof. by []. Qed.
Lemma bl_nl : bl_loc_dofs dim poly_deg = nl.
Proof. by rewrite /bl_loc_dofs bl_nf; congr (_ * _)%N; lia. Qed.
Lemma bl_lap : bl_dofs_lap dim poly_deg = (L * nf)%N.
Proof.
have -> : bl_dofs_lap dim poly_deg = ((2 * (L * nf)) %/ 2)%N by rewrite /bl_dofs_lap /bl_loc_dofs bl_nf mulnA.
by rewrite mulKn.
Qed.
Lemma bl_pos k i : (k < L + L)%N -> (i < nf)%N -> (k * nf + i < nl)%N.
Proof. by move=> hk hi; apply: block_lt. Qed.
Lemma at_second k i : (L * nf + k * nf + i = (L + k) * nf + i)%N.
Proof. by rewrite [in RHS]mulnDl. Qed.

(** ** The matrix *)
Definition blA i j : seq (nat * nat * F) :=
  [:: ((dim, L + dim)%N, - df_vol D i j); ((dim, dim), tau * (df_face_loop dim D i j).1);
      ((L + dim, L + dim)%N, tau * (df_face_loop dim D i j).1)] ++
  flatten [seq [:: ((d, d), df_mass D i j); ((L + d, L + d)%N, df_mass D i j);
     ((dim, d), - df_grad D i j d); ((d, dim), - df_grad D i j d);
     ((L + dim, L + d)%N, - df_grad D i j d); ((L + d, L + dim)%N, - df_grad D i j d);
     ((dim, d), nth 0 (df_face_loop dim D i j).2 d);
     ((L + dim, L + d)%N, nth 0 (df_face_loop dim D i j).2 d)] | d <- iota 0 dim].
Lemma bl_assembleE : A = accumulate (zeros F nl nl) (flatten [seq flatten [seq
   [seq (loc nl (e.1.1 * nf + i) (e.1.2 * nf + j), e.2) | e <- blA i j]
    | j <- iota 0 nf] | i <- iota 0 nf]).
Proof.
rewrite /bl_assemble_loc_matrix bl_nl bl_lap bl_nf.
apply: for_acc => i s _; apply: for_acc => j t _; rewrite /blA map_cat map_flatten -map_comp.
rewrite accumulate_cat /= -!at_second; apply: for_acc => d r _ /=.
by rewrite -!at_second.
Qed.
Lemma bl_size_A : size A = (nl * nl)%N.
Proof. by rewrite bl_assembleE size_accumulate size_nseq. Qed.
Lemma blA_in i j e : e \in blA i j -> (e.1.1 < L + L)%N && (e.1.2 < L + L)%N.
Proof.
rewrite mem_cat => /orP[|].
  by rewrite !inE => /or3P[] /eqP -> /=; lia.
case/flattenP => l /mapP[d]; rewrite mem_iota add0n => /andP[_ hd] ->.
by rewrite !inE => /orP[|/orP[|/orP[|/orP[|/or4P[]]]]] /eqP -> /=; lia.
Qed.

Notation H := (hdg_of nf nb dim (2 * dim) (df_mass D) (df_grad D) (df_bp D) (df_bb D)
  (df_normal D) (df_area D)).
Notation W := (\matrix_(i, j) df_vol D i j : 'M[F]_nf).
Notation D1 := (w_problem P).

Lemma dfA_contrib a b (i j : 'I_nf) : (a <= dim)%N -> (b <= dim)%N ->
  contrib2 a b (dfA dim tau D1 i j) = block H tau a b i j.
Proof.
move=> ha hb; have := @df_block F dim poly_deg tau D1 a b i j ha hb.
rewrite df_assembleE block_entry ?addn1 ?ltnS //.
by move=> x y e _ _ /dfA_in; rewrite addn1.
Qed.
Lemma blA_ll a b i j : (a < L)%N -> (b < L)%N -> contrib2 a b (blA i j) = contrib2 a b (dfA dim tau D1 i j).
Proof.
move=> ha hb; rewrite /blA /dfA /= !contrib2_cons !contrib2_loop !xpair_eqE.
have eb k : (L + k == b)%N = false by lia.
have ea k : (L + k == a)%N = false by lia.
rewrite !eb !ea /= ?andbF ?add0r; congr (_ + _); apply: eq_bigr => d _.
by rewrite !contrib2_cons !contrib2_nil !xpair_eqE !eb !ea /= ?andbF ?add0r.
Qed.
Lemma blA_rr a b i j : (a < L)%N -> (b < L)%N ->
  contrib2 (L + a)%N (L + b)%N (blA i j) = contrib2 a b (dfA dim tau D1 i j).
Proof.
move=> ha hb; rewrite /blA /dfA /= !contrib2_cons !contrib2_loop !xpair_eqE !eqn_add2l.
have eb k : (k <= dim)%N -> (k == L + b)%N = false by lia.
have ea k : (k <= dim)%N -> (k == L + a)%N = false by lia.
rewrite !eb // !ea // /= !add0r; congr (_ + _); apply: eq_bigr => d _.
have hd : (d <= dim)%N by have := ltn_ord d; lia.
by rewrite !contrib2_cons !contrib2_nil !xpair_eqE !eqn_add2l !eb // !ea // /= !add0r.
Qed.
Lemma blA_lr a b i j : (a < L)%N -> (b < L)%N ->
  contrib2 a (L + b)%N (blA i j) = if (a == dim) && (b == dim) then - df_vol D i j else 0.
Proof.
move=> ha hb; rewrite /blA /= !contrib2_cons !contrib2_loop !xpair_eqE !eqn_add2l.
have eb k : (k <= dim)%N -> (k == L + b)%N = false by lia.
have ea k : (L + k == a)%N = false by lia.
rewrite !eb // !ea /= ?andbF ?add0r big1 ?addr0 => [|d _]; first by rewrite ![_ == dim]eq_sym.
have hd : (d <= dim)%N by have := ltn_ord d; lia.
by rewrite !contrib2_cons contrib2_nil !xpair_eqE !eqn_add2l !eb // !ea // /= ?andbF ?add0r.
Qed.
Lemma blA_rl a b i j : (a < L)%N -> (b < L)%N -> contrib2 (L + a)%N b (blA i j) = 0.
Proof.
move=> ha hb; rewrite /blA /= !contrib2_cons !contrib2_loop !xpair_eqE !eqn_add2l.
have ea k : (k <= dim)%N -> (k == L + a)%N = false by lia.
have eb k : (L + k == b)%N = false by lia.
rewrite !eb // !ea //= ?andbF ?add0r big1 // => d _.
have hd : (d <= dim)%N by have := ltn_ord d; lia.
by rewrite !contrib2_cons contrib2_nil !xpair_eqE !eqn_add2l !eb // !ea // /= ?andbF ?add0r.
Qed.
Lemma bl_block (X Y : 'I_(L + L)) (i j : 'I_nf) :
  nth 0 A (loc nl (X * nf + i) (Y * nf + j)) = biK H tau W X Y i j.
Proof.
rewrite bl_assembleE block_entry //; last by move=> x y e _ _ /blA_in.
have le (a : 'I_L) : (a <= dim)%N by have := ltn_ord a; lia.
case: (split_ordP X) => a ->; case: (split_ordP Y) => b ->; rewrite /biK ?split_l ?split_r.
- by rewrite /= blA_ll ?dfA_contrib // mxE.
- by rewrite /= blA_lr //; case: ifP => _; rewrite !mxE.
- by rewrite /= blA_rl // mxE.
by rewrite /= blA_rr // dfA_contrib // mxE.
Qed.


(** ** Right-hand sides *)
Section Lambda.
Variable lambda : seq (seq F).
Notation lam := (lambda_at lambda).
Notation rhs := (bl_rhs_lambda_loop dim poly_deg tau D lambda).
Notation part k := (df_rhs_lambda_loop dim poly_deg tau D1 (k nb lambda)).
Definition blR i : seq (nat * F) := flatten [seq flatten [seq
   [:: (dim, tau * lam f j * df_bp D i j f); ((L + dim)%N, tau * lam f (nb + j)%N * df_bp D i j f)] ++
   flatten [seq [:: (d, - (df_normal D f d * lam f j * df_bp D i j f));
                    ((L + d)%N, - (df_normal D f d * lam f (nb + j)%N * df_bp D i j f))] | d <- iota 0 dim]
   | f <- iota 0 (2 * dim)] | j <- iota 0 nb].
Lemma bl_rhsE : rhs = accumulate (zeros F nl 1)
  (flatten [seq [seq ((e.1 * nf + i)%N, e.2) | e <- blR i] | i <- iota 0 nf]).
Proof.
rewrite /bl_rhs_lambda_loop bl_nl bl_lap bl_nf.
apply: for_acc => i s _; rewrite /blR map_flatten -map_comp; apply: for_acc => j t _.
rewrite /= map_flatten -map_comp; apply: for_acc => f r _ /=.
rewrite map_flatten -map_comp -at_second; apply: for_acc => d k _ /=.
by rewrite -at_second.
Qed.
Lemma bl_size_rhs : size rhs = nl.
Proof. by rewrite bl_rhsE size_accumulate size_nseq muln1. Qed.
Lemma bl_rhs_lo k i : (k <= dim)%N -> (i < nf)%N -> nth 0 rhs (k * nf + i) = nth 0 (part (@lower F)) (k * nf + i).
Proof.
move=> hk hi; rewrite bl_rhsE (@block_vec _ (L + L) nf) //; last by lia.
rewrite df_rhsE (@block_vec _ L nf) //; last by lia.
rewrite /blR /dfR !contrib_loop; apply: eq_bigr => j _; rewrite !contrib_loop; apply: eq_bigr => f _.
rewrite contrib_cat !contrib_cons contrib_nil contrib_loop.
have ek a : (L + a == k)%N = false by lia.
rewrite ek !addr0 lower_at //; congr (_ + _).
have -> : [seq (d, - (df_normal D f d * lam f j * df_bp D i j f)) | d <- iota 0 dim] =
   flatten [seq [:: (d, - (df_normal D f d * lam f j * df_bp D i j f))] | d <- iota 0 dim].
  by elim: (iota 0 dim) => //= d l ->.
by rewrite contrib_loop; apply: eq_bigr => d _; rewrite !contrib_cons ek contrib_nil add0r.
Qed.
Lemma bl_rhs_hi k i : (k <= dim)%N -> (i < nf)%N ->
  nth 0 (second rhs) (k * nf + i) = nth 0 (part (@upper F)) (k * nf + i).
Proof.
move=> hk hi; rewrite nth_drop addnA at_second bl_rhsE (@block_vec _ (L + L) nf) //; last by lia.
rewrite df_rhsE (@block_vec _ L nf) //; last by lia.
rewrite /blR /dfR !contrib_loop; apply: eq_bigr => j _; rewrite !contrib_loop; apply: eq_bigr => f _.
rewrite contrib_cat !contrib_cons contrib_nil contrib_loop.
have ek a : (a <= dim)%N -> (a == L + k)%N = false by lia.
rewrite ek // eqn_add2l addr0 add0r upper_at; congr (_ + _).
have -> : [seq (d, - (df_normal D f d * lam f (nb + j)%N * df_bp D i j f)) | d <- iota 0 dim] =
   flatten [seq [:: (d, - (df_normal D f d * lam f (nb + j)%N * df_bp D i j f))] | d <- iota 0 dim].
  by elim: (iota 0 dim) => //= d l ->.
rewrite contrib_loop; apply: eq_bigr => d _.
by rewrite !contrib_cons ek ?contrib_nil ?add0r ?eqn_add2l //; have := ltn_ord d; lia.
Qed.
End Lambda.

Section Global.
Notation rhs := (bl_rhs_global dim poly_deg dirs laps tau P).
Notation mask := (face_dirichlet dirs D).
Notation mask2 := (face_dirichlet laps D).
Definition blG i : seq (nat * F) :=
  ((L + dim)%N, df_src D i) :: flatten [seq
     (if mask f then (dim, tau * df_dirval D i f) ::
        flatten [seq [:: (d, - (df_normal D f d * df_dirval D i f))] | d <- iota 0 dim] else [::]) ++
     (if mask2 f then ((L + dim)%N, tau * bl_dirlap P i f) ::
        flatten [seq [:: ((L + d)%N, - (df_normal D f d * bl_dirlap P i f))] | d <- iota 0 dim] else [::])
     | f <- iota 0 (2 * dim)].
Lemma bl_globalE : rhs = accumulate (zeros F nl 1)
  (flatten [seq [seq ((e.1 * nf + i)%N, e.2) | e <- blG i] | i <- iota 0 nf]).
Proof.
rewrite /bl_rhs_global bl_nl bl_lap bl_nf.
apply: for_acc_hist => i hi s; rewrite /blG map_cons -cat1s accumulate_cat at_second.
have hu : upd s ((L + dim) * nf + i) (df_src D i) = accumulate s [:: (((L + dim) * nf + i)%N, df_src D i)].
  rewrite -add_at_accumulate /add_at; congr upd.
  have hs : ((L + dim) * nf + i < size (zeros F nl 1))%N by rewrite size_nseq muln1 bl_pos //; lia.
  rewrite nth_contrib // nth_nseq if_same add0r contrib_loop big1 ?add0r // => k _.
  rewrite /contrib big_map big1 // => e /=; rewrite block_inj //; last by have := ltn_ord k; lia.
  by have := ltn_ord k => hk /andP[_ /eqP]; lia.
rewrite [X in for_ _ _ X]hu map_flatten -map_comp; apply: for_acc => f r _ /=.
rewrite -[mask f]/(bl_dirichlet dirs D f) -[mask2 f]/(bl_laplacian laps D f) map_cat accumulate_cat.
have -> : (if bl_dirichlet dirs D f then for_ dim (fun d r => add_at r (d * nf + i) (- (df_normal D f d * df_dirval D i f)))
             (add_at r (dim * nf + i) (tau * df_dirval D i f)) else r) =
   accumulate r [seq ((e.1 * nf + i)%N, e.2) | e <- if bl_dirichlet dirs D f then (dim, tau * df_dirval D i f) ::
        flatten [seq [:: (d, - (df_normal D f d * df_dirval D i f))] | d <- iota 0 dim] else [::]].
  by case: ifP => //= _; rewrite map_flatten -map_comp; apply: for_acc.
case: (bl_laplacian laps D f) => //=; rewrite map_flatten -map_comp; apply: for_acc => d k _ /=.
by rewrite -at_second.
Qed.
Lemma bl_size_global : size rhs = nl.
Proof. by rewrite bl_globalE size_accumulate size_nseq muln1. Qed.
Lemma bl_global_lo k i : (k <= dim)%N -> (i < nf)%N ->
  nth 0 rhs (k * nf + i) = nth 0 (df_rhs_global dim poly_deg dirs tau (u_problem P)) (k * nf + i).
Proof.
move=> hk hi; rewrite bl_globalE (@block_vec _ (L + L) nf) //; last by lia.
rewrite df_globalE (@block_vec _ L nf) //; last by lia.
have ek a : (L + a == k)%N = false by lia.
rewrite /blG /dfG !contrib_cons ek /= if_same !contrib_loop; congr (_ + _); apply: eq_bigr => f _.
rewrite contrib_cat [X in _ + X](_ : _ = 0) ?addr0; last first.
  case: ifP => _; rewrite ?contrib_cons ?ek ?contrib_loop ?contrib_nil // big1 ?addr0 // => d _.
  by rewrite contrib_cons ek contrib_nil addr0.
rewrite -[face_dirichlet dirs (u_problem P) f]/(mask f); case: ifP => // _; rewrite !contrib_cons; congr (_ + _).
by congr contrib; elim: (iota 0 dim) => //= d l ->.
Qed.
Lemma bl_global_hi k i : (k <= dim)%N -> (i < nf)%N ->
  nth 0 (second rhs) (k * nf + i) = nth 0 (df_rhs_global dim poly_deg laps tau (w_problem P)) (k * nf + i).
Proof.
move=> hk hi; rewrite nth_drop addnA at_second bl_globalE (@block_vec _ (L + L) nf) //; last by lia.
rewrite df_globalE (@block_vec _ L nf) //; last by lia.
have ek a : (a <= dim)%N -> (a == L + k)%N = false by lia.
rewrite /blG /dfG !contrib_cons eqn_add2l !contrib_loop; congr (_ + _); apply: eq_bigr => f _.
rewrite contrib_cat [X in X + _](_ : _ = 0) ?add0r; last first.
  case: ifP => _; rewrite ?contrib_cons ?ek ?contrib_loop ?contrib_nil // big1 ?addr0 // => d _.
  by rewrite contrib_cons ek ?contrib_nil ?addr0 //; have := ltn_ord d; lia.
rewrite -[face_dirichlet laps (w_problem P) f]/(mask2 f); case: ifP => _; last by rewrite !contrib_nil.
rewrite !contrib_cons eqn_add2l; congr (_ + _).
have -> : [seq (d, - (df_normal D f d * bl_dirlap P i f)) | d <- iota 0 dim] =
   flatten [seq [:: (d, - (df_normal D f d * bl_dirlap P i f))] | d <- iota 0 dim].
  by elim: (iota 0 dim) => //= d l ->.
by rewrite !contrib_loop; apply: eq_bigr => d _; rewrite !contrib_cons eqn_add2l !contrib_nil.
Qed.
End Global.

Section Coeffs.
Variable coeffs : seq F.
Notation rhs := (bl_rhs_coeffs dim poly_deg D coeffs).
Lemma bl_coeffsE : rhs = accumulate (zeros F nl 1) (flatten [seq [seq ((e.1 * nf + i)%N, e.2) | e <-
   [seq ((L + dim)%N, nth 0 coeffs (dim * nf + j) * df_mass D i j) | j <- iota 0 nf]] | i <- iota 0 nf]).
Proof.
rewrite /bl_rhs_coeffs -/(bl_dofs_lap dim poly_deg) bl_nl bl_lap bl_nf.
apply: for_acc => i s _; rewrite -map_comp at_second.
rewrite (for_acc (evs := fun j => [:: (((L + dim) * nf + i)%N, nth 0 coeffs (dim * nf + j) * df_mass D i j)])) //.
congr (accumulate _ _); by elim: (iota 0 nf) => //= d l ->.
Qed.
Lemma bl_size_coeffs : size rhs = nl.
Proof. by rewrite bl_coeffsE size_accumulate size_nseq muln1. Qed.
Lemma bl_coeffs_lo k i : (k <= dim)%N -> (i < nf)%N -> nth 0 rhs (k * nf + i) = 0.
Proof.
move=> hk hi; rewrite bl_coeffsE (@block_vec _ (L + L) nf (fun i => [seq ((L + dim)%N, nth 0 coeffs (dim * nf + j) * df_mass D i j) | j <- iota 0 nf])) //; last by lia.
by rewrite /contrib big_map big1 // => j /=; lia.
Qed.
Lemma bl_coeffs_hi k i : (k <= dim)%N -> (i < nf)%N ->
  nth 0 (second rhs) (k * nf + i) = nth 0 (df_rhs_coeffs dim poly_deg D1 coeffs) (k * nf + i).
Proof.
move=> hk hi; rewrite nth_drop addnA at_second bl_coeffsE.
rewrite (@block_vec _ (L + L) nf (fun i => [seq ((L + dim)%N, nth 0 coeffs (dim * nf + j) * df_mass D i j) | j <- iota 0 nf])) //; last by lia.
rewrite df_coeffsE (@block_vec _ L nf (fun i => [seq (dim, nth 0 coeffs (dim * nf + j) * df_mass D i j) | j <- iota 0 nf])) //; last by lia.
by rewrite /contrib !big_map /=; apply: eq_bigl => j; rewrite eqn_add2l.
Qed.
End Coeffs.

Lemma part_ext (r s : seq F) : (forall k i, (k <= dim)%N -> (i < nf)%N -> nth 0 r (k * nf + i) = nth 0 s (k * nf + i)) ->
  (forall d : 'I_dim, qpart nf r d = qpart nf s d :> 'cV[F]_nf) /\ upart nf dim r = upart nf dim s :> 'cV[F]_nf.
Proof.
move=> h; split=> [d|]; apply/colP => i; rewrite !mxE h //; exact: ltnW.
Qed.

(** ** Boundary values *)
Section Bdr.
Variable X : seq F.
Notation zero2 := (nseq (2 * dim) (nseq (2 * nb) (0 : F))).
Lemma bl_primalE : bl_primal dim poly_deg D X = acc2 zero2 (flatten [seq flatten [seq flatten [seq
  [:: ((f, nb + j)%N, nth 0 X (dim * nf + i) * df_bp D i j f); ((f, j), nth 0 X (L * nf + dim * nf + i) * df_bp D i j f)]
  | f <- iota 0 (2 * dim)] | j <- iota 0 nb] | i <- iota 0 nf]).
Proof.
rewrite /bl_primal bl_lap bl_nf.
by apply: for_acc2 => i s _; apply: for_acc2 => j t _; apply: for_acc2.
Qed.
Lemma bl_dualE : bl_dual dim poly_deg D X = acc2 zero2 (flatten [seq flatten [seq flatten [seq flatten [seq
  [:: ((f, nb + j)%N, df_normal D f d * df_bp D i j f * nth 0 X (d * nf + i));
      ((f, j), df_normal D f d * df_bp D i j f * nth 0 X (L * nf + d * nf + i))]
  | d <- iota 0 dim] | f <- iota 0 (2 * dim)] | j <- iota 0 nb] | i <- iota 0 nf]).
Proof.
rewrite /bl_dual bl_lap bl_nf.
by apply: for_acc2 => i s _; apply: for_acc2 => j t _; apply: for_acc2 => f r _; apply: for_acc2.
Qed.
Lemma bl_primal_lo (f : 'I_(2 * dim)) (j : 'I_nb) :
  lambda_at (bl_primal dim poly_deg D X) f j = ((hE H f)^T *m upart nf dim (second X)) j 0.
Proof.
rewrite bl_primalE -[lambda_at _ _ _]/(get2 _ _ _) (get2_acc _ (rect_nseq _ _ _)) // ?get2_nseq ?add0r; last by have := ltn_ord j; lia.
rewrite contrib2_loop mxE; apply: eq_bigr => i _; rewrite contrib2_loop (sum_ord1 (i := j)) => [|k hne].
  rewrite contrib2_loop (sum_ord1 (i := f)) => [|g hne].
    rewrite !contrib2_cons contrib2_nil eqxx addr0 !mxE nth_drop addnA xpair_eqE.
    by rewrite (_ : (nb + j == j)%N = false) ?andbF ?add0r 1?[RHS]mulrC //; have := ltn_ord j; lia.
  by rewrite !contrib2_cons contrib2_nil !xpair_eqE (negbTE hne) !addr0.
rewrite contrib2_loop big1 // => g _; rewrite !contrib2_cons contrib2_nil !xpair_eqE (negbTE hne) andbF.
by rewrite (_ : (nb + k == j)%N = false) ?andbF ?addr0 //; have := ltn_ord j; lia.
Qed.
Lemma bl_primal_hi (f : 'I_(2 * dim)) (j : 'I_nb) :
  lambda_at (bl_primal dim poly_deg D X) f (nb + j) = ((hE H f)^T *m upart nf dim X) j 0.
Proof.
rewrite bl_primalE -[lambda_at _ _ _]/(get2 _ _ _) (get2_acc _ (rect_nseq _ _ _)) // ?get2_nseq ?add0r; last by have := ltn_ord j; lia.
rewrite contrib2_loop mxE; apply: eq_bigr => i _; rewrite contrib2_loop (sum_ord1 (i := j)) => [|k hne].
  rewrite contrib2_loop (sum_ord1 (i := f)) => [|g hne].
    rewrite !contrib2_cons contrib2_nil eqxx addr0 !mxE xpair_eqE.
    by rewrite (_ : (j == nb + j :> nat)%N = false) ?andbF ?addr0 1?[RHS]mulrC //; have := ltn_ord j; lia.
  by rewrite !contrib2_cons contrib2_nil !xpair_eqE (negbTE hne) !addr0.
rewrite contrib2_loop big1 // => g _; rewrite !contrib2_cons contrib2_nil !xpair_eqE eqn_add2l (negbTE hne) andbF.
by rewrite (_ : (k == nb + j :> nat)%N = false) ?andbF ?addr0 //; have := ltn_ord k; lia.
Qed.
Lemma bl_dual_lo (f : 'I_(2 * dim)) (j : 'I_nb) :
  lambda_at (bl_dual dim poly_deg D X) f j = (\sum_d hnu H f d *: ((hE H f)^T *m qpart nf (second X) d)) j 0.
Proof.
rewrite bl_dualE -[lambda_at _ _ _]/(get2 _ _ _) (get2_acc _ (rect_nseq _ _ _)) // ?get2_nseq ?add0r; last by have := ltn_ord j; lia.
rewrite contrib2_loop summxE.
under [RHS]eq_bigr => d _ do rewrite !mxE mulr_sumr.
rewrite [RHS]exchange_big; apply: eq_bigr => i _; rewrite contrib2_loop (sum_ord1 (i := j)) => [|k hne].
  rewrite contrib2_loop (sum_ord1 (i := f)) => [|g hne].
    rewrite contrib2_loop; apply: eq_bigr => d _.
    rewrite !contrib2_cons contrib2_nil eqxx addr0 !mxE nth_drop addnA mulrA xpair_eqE.
    by rewrite (_ : (nb + j == j)%N = false) ?andbF ?add0r //; have := ltn_ord j; lia.
  rewrite contrib2_loop big1 // => d _.
  by rewrite !contrib2_cons contrib2_nil !xpair_eqE (negbTE hne) !addr0.
rewrite contrib2_loop big1 // => g _; rewrite contrib2_loop big1 // => d _.
rewrite !contrib2_cons contrib2_nil !xpair_eqE (negbTE hne) andbF.
by rewrite (_ : (nb + k == j)%N = false) ?andbF ?addr0 //; have := ltn_ord j; lia.
Qed.
Lemma bl_dual_hi (f : 'I_(2 * dim)) (j : 'I_nb) :
  lambda_at (bl_dual dim poly_deg D X) f (nb + j) = (\sum_d hnu H f d *: ((hE H f)^T *m qpart nf X d)) j 0.
Proof.
rewrite bl_dualE -[lambda_at _ _ _]/(get2 _ _ _) (get2_acc _ (rect_nseq _ _ _)) // ?get2_nseq ?add0r; last by have := ltn_ord j; lia.
rewrite contrib2_loop summxE.
under [RHS]eq_bigr => d _ do rewrite !mxE mulr_sumr.
rewrite [RHS]exchange_big; apply: eq_bigr => i _; rewrite contrib2_loop (sum_ord1 (i := j)) => [|k hne].
  rewrite contrib2_loop (sum_ord1 (i := f)) => [|g hne].
    rewrite contrib2_loop; apply: eq_bigr => d _.
    rewrite !contrib2_cons contrib2_nil eqxx addr0 !mxE mulrA xpair_eqE.
    by rewrite (_ : (j == nb + j :> nat)%N = false) ?andbF ?addr0 //; have := ltn_ord j; lia.
  rewrite contrib2_loop big1 // => d _.
  by rewrite !contrib2_cons contrib2_nil !xpair_eqE (negbTE hne) !addr0.
rewrite contrib2_loop big1 // => g _; rewrite contrib2_loop big1 // => d _.
rewrite !contrib2_cons contrib2_nil !xpair_eqE eqn_add2l (negbTE hne) andbF.
by rewrite (_ : (k == nb + j :> nat)%N = false) ?andbF ?addr0 //; have := ltn_ord k; lia.
Qed.
End Bdr.

Notation mask := (face_dirichlet dirs D).
Notation mask2 := (face_dirichlet laps D).
Lemma bl_writeE (G : nat -> nat -> F) out : is_trace (2 * dim) (2 * nb) out ->
  bl_write dirs laps D G out = mkseq (fun f => mkseq (fun j =>
    if (if (j < nb)%N then mask f else mask2 f) then 0 else G f j) (2 * nb)) (2 * dim).
Proof.
move=> [so /allP ao]; rewrite /bl_write.
pose zero1 f (r : seq F) := if mask f then for_ (size r %/ 2) (fun j r => upd r (0 + j) 0) r else r.
pose zero2 f (r : seq F) := if mask2 f then for_ (size r - size r %/ 2) (fun j r => upd r (size r %/ 2 + j) 0) r else r.
have e2 f r : zero2 f r = if mask2 f then for_ (size r - size r %/ 2) (fun j s => upd s (size r %/ 2 + j) 0) r else r.
  rewrite /zero2; case: ifP => // _.
  have : forall n, for_ n (fun j s => upd s (size s %/ 2 + j) 0) r = for_ n (fun j s => upd s (size r %/ 2 + j) 0) r.
    by elim=> [//|n IH]; rewrite !for_S IH size_row.
  exact.
rewrite (@rows_loop _ _ (fun f r => zero2 f (zero1 f (for_ (size r) (fun j r => upd r (0 + j) (G f j)) r)))); last first.
  move=> i o hi ho; rewrite e2.
  have l0 n (g : nat -> F) q : (i < size q)%N -> for_ n (fun j out => upd2 out i j (g j)) q =
     upd q i (for_ n (fun j r => upd r (0 + j) (g j)) (nth [::] q i)).
    by move=> hq; rewrite -row_loop.
  rewrite l0 ?ho // -/(bl_dirichlet dirs D i) -/(bl_laplacian laps D i).
  set o1 := upd o i _.
  have s1 : (i < size o1)%N by rewrite size_upd ho.
  have n1 : nth [::] o1 i = for_ (size (nth [::] o i)) (fun j r => upd r (0 + j) (G i j)) (nth [::] o i).
    by rewrite nth_upd eqxx ho hi.
  set o2 := if bl_dirichlet dirs D i then _ else _.
  have e : o2 = upd o1 i (zero1 i (nth [::] o1 i)).
    rewrite /o2 /zero1 -[mask i]/(bl_dirichlet dirs D i); case: ifP => _; last by rewrite upd_id.
    by rewrite l0.
  have s2 : (i < size o2)%N by rewrite e size_upd.
  have n2 : nth [::] o2 i = zero1 i (nth [::] o1 i) by rewrite e nth_upd eqxx s1.
  rewrite -n1 -n2 -[mask2 i]/(bl_laplacian laps D i); case: ifP => _.
    by rewrite row_loop //; move: (for_ _ _ _) => v; rewrite e upd_upd /o1 upd_upd.
  by rewrite n2 e /o1 upd_upd.
rewrite so; apply: (@eq_from_nth _ [::]); rewrite ?size_mkseq // => f hf; rewrite !nth_mkseq //.
have sr : size (nth [::] out f) = (2 * nb)%N by apply/eqP/ao/mem_nth; rewrite so.
have s1 r : size (zero1 f r) = size r by rewrite /zero1; case: ifP => _; rewrite ?size_row.
have s2 r : size (zero2 f r) = size r by rewrite e2; case: ifP => _; rewrite ?size_row.
apply: (@eq_from_nth _ 0); rewrite ?size_mkseq ?s2 ?s1 ?size_row ?sr // => j hj.
rewrite nth_mkseq // e2 s1 size_row sr.
have h2 : ((2 * nb) %/ 2 = nb)%N by rewrite mulKn.
have n0 : nth 0 (for_ (2 * nb) (fun j r => upd r (0 + j) (G f j)) (nth [::] out f)) j = G f j.
  by rewrite nth_row ?sr // add0n leq0n hj subn0.
have n1 : nth 0 (zero1 f (for_ (2 * nb) (fun j r => upd r (0 + j) (G f j)) (nth [::] out f))) j =
    if mask f && (j < nb)%N then 0 else G f j.
  rewrite /zero1; case: ifP => _ /=; last exact: n0.
  by rewrite nth_row size_row sr h2 ?add0n ?leq0n //= ?n0 //; lia.
case: (mask2 f); rewrite ?nth_row ?s1 ?size_row ?sr ?h2 ?n1; try lia.
  case: (ltnP j nb) => hjn /=; first by rewrite andbT.
  by rewrite (_ : (j < nb + (2 * nb - nb))%N = true) //; lia.
by case: (ltnP j nb) => hjn; rewrite ?andbT ?andbF.
Qed.
Lemma bl_write_tr (G : nat -> nat -> F) (V1 V2 : 'I_(2 * dim) -> 'cV[F]_nb) out :
  is_trace (2 * dim) (2 * nb) out ->
  (forall (f : 'I_(2 * dim)) (j : 'I_nb), G f j = V1 f j 0) ->
  (forall (f : 'I_(2 * dim)) (j : 'I_nb), G f (nb + j)%N = V2 f j 0) ->
  [/\ is_trace (2 * dim) (2 * nb) (bl_write dirs laps D G out),
      forall f : 'I_(2 * dim), tr nb (lower nb (bl_write dirs laps D G out)) f = if mask f then 0 else V1 f :> 'cV[F]_nb
    & forall f : 'I_(2 * dim), tr nb (upper nb (bl_write dirs laps D G out)) f = if mask2 f then 0 else V2 f :> 'cV[F]_nb].
Proof.
move=> ho h1 h2; rewrite bl_writeE //; split.
- by split; [exact: size_mkseq | apply/allP => l /mapP[f _ ->]; rewrite size_mkseq].
- move=> f; apply/colP => j; have hj := ltn_ord j; rewrite mxE -/(lambda_at _ _ _) lower_at // /lambda_at.
  rewrite (nth_mkseq [::]) // nth_mkseq ?hj; last by lia.
  by case: ifP => _; rewrite ?h1 // mxE.
move=> f; apply/colP => j; have hj := ltn_ord j; rewrite mxE -/(lambda_at _ _ _) upper_at // /lambda_at.
rewrite (nth_mkseq [::]) // nth_mkseq; last by lia.
rewrite (_ : (nb + j < nb)%N = false); last by lia.
by case: ifP => _; rewrite ?h2 // mxE.
Qed.

End Bilaplacian.
