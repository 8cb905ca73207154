(** Proofs about M_Lapack. *)
From mathcomp Require Import all_ssreflect all_algebra zify ring.
From Verif Require Import M_Base L_Base M_DenseLA S_DenseLA L_DenseLA M_Lapack S_Lapack.
Set Implicit Arguments. Unset Strict Implicit. Unset Printing Implicit Defensive.
Import Order.TTheory GRing.Theory Num.Theory.
Local Open Scope ring_scope.

(** Invariant rule for loops whose bodies may fail. *)
Lemma foro_inv (S : Type) n (body : nat -> S -> outcome S) s (P : nat -> S -> Prop) :
  P 0%N s ->
  (forall i s, (i < n)%N -> P i s -> exists s', body i s = Ok s' /\ P i.+1 s') ->
  exists s', foro n body s = Ok s' /\ P n s'.
Proof.
move=> h0 hS; rewrite /foro.
suff H m b s0 : (b + m <= n)%N -> P b s0 ->
    exists s', foldo body s0 (iota b m) = Ok s' /\ P (b + m)%N s'.
  by have := H n 0%N s; apply.
elim: m b s0 => [|m IH] b s0 hb hP; first by exists s0; rewrite addn0.
have [|s1 [e1 h1]] := hS b s0 _ hP; first by lia.
by rewrite /= e1 /=; have [|s2 [e2 h2]] := IH b.+1 s1 _ h1; [lia|exists s2; rewrite addnS -addSn].
Qed.

Lemma storeE (T : Type) (x0 : T) s i v : (i < size s)%N ->
  exists s', [/\ store s i v = Ok s', size s' = size s &
                 forall k, nth x0 s' k = if k == i then v else nth x0 s k].
Proof.
move=> hi; rewrite /store hi; exists (set_nth v s i v); split => //.
  by rewrite size_set_nth; apply/maxn_idPr.
move=> k; case: (ltnP k (size s)) => hk.
  rewrite (set_nth_default v x0) ?size_set_nth ?leq_max ?hk ?orbT // nth_set_nth /=.
  by case: eqP => // _; apply: set_nth_default.
rewrite !nth_default // ?size_set_nth ?(maxn_idPr hi) //.
by case: eqP => // e; move: hk hi; rewrite e; lia.
Qed.

Lemma upd_id (T : Type) (x0 : T) s i : upd s i (nth x0 s i) = s.
Proof.
rewrite /upd; case: ifP => // hi; apply: (@eq_from_nth _ x0).
  by rewrite size_set_nth; apply/maxn_idPr.
move=> k hk; rewrite (set_nth_default (nth x0 s i)) // nth_set_nth /=; case: eqP => [->//|_].
by apply: set_nth_default; move: hk; rewrite size_set_nth (maxn_idPr hi).
Qed.

(** det (1 + u v^T) = 1 + v^T u *)
Lemma det_rank1 (R : comRingType) n (u v : 'cV[R]_n) :
  \det (1%:M + u *m v^T) = 1 + (v^T *m u) 0 0.
Proof.
have E : block_mx 1%:M 0 v^T 1%:M *m block_mx (1%:M + u *m v^T) u 0 (1%:M : 'M_1)
       *m block_mx 1%:M 0 (- v^T) 1%:M = block_mx 1%:M u 0 (1%:M + v^T *m u).
  rewrite !mulmx_block !(mul1mx, mulmx1, mul0mx, mulmx0, addr0, add0r, mulmxN, mulmxDr, mulmxDl).
  by rewrite !mulmxA addrK -opprD [_ *m _ *m _ + _]addrC subrr addrC.
have := congr1 determinant E.
rewrite !det_mulmx det_ublock !det_lblock det_ublock !det1 !mulr1 !mul1r => ->.
by rewrite det_mx11 !mxE.
Qed.

Lemma size_dyadic (R : ringType) nr nc (l r : seq R) :
  size (dyadic_product nr nc l r) = (nr * nc)%N.
Proof.
rewrite /dyadic_product /mset.
by rewrite (size_for2_assign 0 nr (fun i j => loc nr i j) (fun i j _ => nth 0 l i * nth 0 r j)) size_filled.
Qed.

Section Q.
Variable F : realFieldType.
Implicit Types (nr nc n rank : nat) (h tau : seq F).

Lemma mx_house_vec nr h i : mx_of nr 1 (house_vec nr h i) = refl_vec nr h i.
Proof.
apply/matrixP => j k; rewrite [k]ord1 !mxE mul0n add0n.
rewrite /house_vec (@nth_for_assign_in _ 0 nr id
  (fun j _ => if (j < i)%N then 0 else if j == i then 1 else nth 0 h (i * nr + j))) //.
by rewrite size_filled muln1.
Qed.

Lemma mx_get_q nr rank h tau :
  mx_of nr nr (get_q nr rank h tau) = refl_prod nr h tau rank.
Proof.
rewrite /get_q; elim: rank => [|rank IH]; first by rewrite for_0 mx_unit.
rewrite for_S mx_mat_mul IH /=; congr (_ *m _).
rewrite mx_mat_sub; last first.
  by rewrite /is_mat /diagonal /mset size_for_assign size_filled.
rewrite mx_unit mx_muls_comm; last first.
  exact: size_dyadic.
by rewrite mx_dyadic mx_house_vec.
Qed.

Definition refl_ok nr h tau i :=
  tau`_i = 0 \/ tau`_i * ((refl_vec nr h i)^T *m refl_vec nr h i) 0 0 = 2%:R.

Lemma reflector_orth nr h tau i : refl_ok nr h tau i ->
  (reflector nr h tau i)^T *m reflector nr h tau i = 1%:M.
Proof.
rewrite /refl_ok /reflector; set v := refl_vec nr h i; set t := tau`_i.
have -> : (1%:M - t *: (v *m v^T))^T = 1%:M - t *: (v *m v^T).
  by rewrite linearB /= trmx1 linearZ /= trmx_mul trmxK.
have PP : (v *m v^T) *m (v *m v^T) = (v^T *m v) 0 0 *: (v *m v^T).
  by rewrite mulmxA -(mulmxA v) {1}[v^T *m v]mx11_scalar mul_mx_scalar -scalemxAl.
rewrite mulmxBl mul1mx mulmxBr mulmx1 -scalemxAl -scalemxAr PP !scalerA.
case=> [->|e]; first by rewrite !mul0r !scale0r !subr0.
rewrite -mulrA e mulr_natr -scalerMnl mulr2n.
by rewrite opprB addrK subrK.
Qed.

Lemma refl_prod_orth nr h tau k : (forall i, (i < k)%N -> refl_ok nr h tau i) ->
  (refl_prod nr h tau k)^T *m refl_prod nr h tau k = 1%:M.
Proof.
elim: k => [|k IH] hk /=; first by rewrite trmx1 mul1mx.
rewrite trmx_mul mulmxA -(mulmxA (reflector _ _ _ _)^T) IH ?mulmx1 ?reflector_orth //.
- exact: hk.
- by move=> i hi; apply: hk; lia.
Qed.

Lemma det_reflector nr h tau i : refl_ok nr h tau i ->
  \det (reflector nr h tau i) = (-1) ^+ (tau`_i != 0).
Proof.
rewrite /refl_ok /reflector => hok.
rewrite -scaleNr scalemxAl det_rank1 -scalemxAr mxE.
case: hok => [->|]; first by rewrite eqxx oppr0 mul0r addr0 expr0.
case: eqP => [->|_ e]; first by rewrite mul0r => /esym/eqP; rewrite pnatr_eq0.
by rewrite mulNr e expr1 mulr2n opprD addrA subrr sub0r.
Qed.

Lemma det_refl_prod nr h tau k : (forall i, (i < k)%N -> refl_ok nr h tau i) ->
  \det (refl_prod nr h tau k) = (-1) ^+ count (fun i => tau`_i != 0) (iota 0 k).
Proof.
elim: k => [|k IH] hk; first by rewrite /= det1.
rewrite [refl_prod _ _ _ _]/= det_mulmx IH ?det_reflector; last 2 first.
- by apply: hk.
- by move=> i hi; apply: hk; lia.
by rewrite -addn1 iotaD count_cat /= add0n addn0 exprD.
Qed.

(** in-place R *)
Lemma mx_get_r_in_place nr nc h : is_mat nr nc h ->
  mx_of nr nc (get_r_in_place nr nc h) = upper_part nr nc h.
Proof.
move=> hh.
have -> : get_r_in_place nr nc h = for_ nc (fun i m => for_ nr (fun j m =>
    upd m (loc nr j i) (if (i < j)%N then 0 else nth 0 m (loc nr j i))) m) h.
  by apply: eq_for => i m _; apply: eq_for => j m' _; case: ifP => // _; rewrite upd_id.
apply/matrixP => i j; rewrite mx_ofE mxE /mget.
rewrite (@nth_for2_assign_in _ 0 nr (fun i j => loc nr i j) (fun i j x => if (j < i)%N then 0 else x)) //.
- by rewrite mxE -/(loc _ _ _); case: ltnP.
- by move=> a b a' b' ha hb ha' hb' e; apply: (loc_inj ha ha' e).
- by rewrite hh loc_lt.
Qed.
End Q.

Section R.
Variable F : realFieldType.
Implicit Types (nr nc n rank : nat) (h tau r : seq F).

Definition rinv nr nc h r0 k l (m : seq F) : Prop :=
  size m = (nc * nc)%N /\ forall a c, (a < nc)%N -> (c < nc)%N ->
  ((a <= c)%N -> (c < k)%N \/ (c = k /\ (a < l)%N) -> nth 0 m (loc nc a c) = nth 0 h (loc nr a c)) /\
  ((c < a)%N -> nth 0 m (loc nc a c) = 0 \/ (nth 0 m (loc nc a c) = nth 0 r0 (loc nc a c) /\
     forall i j, (i < k)%N \/ (i = k /\ (j < l)%N) -> (i < j < nc)%N -> loc nr j i != loc nc a c)).

Lemma get_r_ok nr nc h r0 : (nc <= nr)%N -> size r0 = (nc * nc)%N -> r_fits nr nc ->
  exists r, get_r nr nc h r0 = Ok r /\ rinv nr nc h r0 nc 0 r.
Proof.
move=> hnc hr0 hf; rewrite /get_r.
apply: (@foro_inv _ _ _ _ (fun k => rinv nr nc h r0 k 0)).
  split => // a c ha hc; split => [_ [|[_]]//|hac]; right; split => // i j [|[_]] //.
move=> k m hk hm.
have [m' [-> hm']] : exists m', foro nc (fun j r => if (k < j)%N then store r (k * nr + j) 0
    else store r (k * nc + j) (nth 0 h (k * nr + j))) m = Ok m' /\ rinv nr nc h r0 k nc m'.
  apply: foro_inv => // l s hl [hs H]; case: ltnP => hkl.
    have hlt : (k * nr + l < size s)%N.
      have h1 : (k * nr <= (nc - 2) * nr)%N by rewrite leq_mul2r; apply/orP; right; lia.
      by move: hf; rewrite /r_fits hs; lia.
    have [s' [-> hs' hn]] := storeE 0 0 hlt.
    exists s'; split => //; split; first by rewrite hs'.
    move=> a c ha hc; have [Hu Hl] := H a c ha hc; split.
    - move=> hac hck; rewrite hn.
      have hne : loc nc a c == (k * nr + l)%N = false.
        apply/negbTE/eqP; rewrite /loc => e.
        have hkk : (k * nc <= k * nr)%N by rewrite leq_mul2l hnc orbT.
        case: hck => [hck|[hck _]]; last by subst c; lia.
        have : (c.+1 * nc <= k * nc)%N by rewrite leq_mul2r hck orbT.
        by rewrite mulSn; lia.
      by rewrite hne; apply: Hu => //; case: hck => [|[hck]]; [left|right; split => //; lia].
    - move=> hac; rewrite hn; case: eqP => [_|/eqP hne]; first by left.
      case: (Hl hac) => [|[e1 e2]]; first by left.
      right; split => // i j hij hj; case: hij => [hik|[hik hjl]]; first by apply: e2 => //; left.
      have [e|hjl'] := eqVneq j l; last by apply: e2 => //; right; split => //; lia.
      by subst i j; rewrite /loc eq_sym.
  have hlt : (k * nc + l < size s)%N by rewrite hs; have := @loc_lt nc nc l k hl hk; rewrite /loc.
  have [s' [-> hs' hn]] := storeE 0 (nth 0 h (k * nr + l)) hlt.
  exists s'; split => //; split; first by rewrite hs'.
  move=> a c ha hc; have [Hu Hl] := H a c ha hc; split.
  - move=> hac hck; rewrite hn -/(loc nc l k) loc_eq //; case: andP => [[/eqP -> /eqP ->]//|hne].
    apply: Hu => //; case: hck => [|[e hal]]; [by left|right; split => //].
    have [e'|] := eqVneq a l; last by lia.
    by subst; case: hne; rewrite !eqxx.
  - move=> hac; rewrite hn -/(loc nc l k) loc_eq //; case: andP => [[/eqP e1 /eqP e2]|_]; first by lia.
    case: (Hl hac) => [|[e1 e2]]; first by left.
    right; split => // i j hij hj; case: hij => [hik|[hik hjl]]; first by apply: e2 => //; left.
    by apply: e2 => //; right; split => //; lia.
exists m'; split => //; case: hm' => hs H; split => // a c ha hc; have [Hu Hl] := H a c ha hc; split.
- move=> hac [hck|[_]] //; apply: Hu => //.
  by lia.
- move=> hac; case: (Hl hac) => [|[e1 e2]]; first by left.
  right; split => // i j [hik|[_]] // hj; apply: e2 => //.
  by lia.
Qed.

(** Out-of-range store. *)
Lemma foro_ub (S : Type) (n : nat) (body : nat -> S -> outcome S) s (P : S -> Prop) i :
  P s -> (forall i s, P s -> body i s = UB \/ exists2 s', body i s = Ok s' & P s') ->
  (i < n)%N -> (forall s, P s -> body i s = UB) -> foro n body s = UB.
Proof.
move=> hs hb hi hub; rewrite /foro.
have : i \in iota 0 n by rewrite mem_iota.
elim: (iota 0 n) s hs => //= j l IH s hs; rewrite inE => /orP[/eqP <-|hil].
  by rewrite hub.
by case: (hb j s hs) => [->//|[s' -> hs' /=]]; apply: IH.
Qed.

Lemma get_r_ub nr nc h r0 : (nc <= nr)%N -> size r0 = (nc * nc)%N -> ~~ r_fits nr nc ->
  get_r nr nc h r0 = UB.
Proof.
move=> hnc hr0; rewrite /r_fits negb_or -!leqNgt => /andP[h2 hbig].
have hst : forall (r : seq F) p v, size r = (nc * nc)%N ->
    store r p v = UB \/ exists2 r', store r p v = Ok r' & size r' = (nc * nc)%N.
  move=> r p v hr; case: (ltnP p (size r)) => hp; last by left; rewrite /store ltnNge hp.
  by right; have [s' [-> e _]] := storeE 0 v hp; exists s' => //; rewrite e.
have hin : forall i r, size r = (nc * nc)%N -> forall n,
   foro n (fun j r => if (i < j)%N then store r (i * nr + j) 0
    else store r (i * nc + j) (nth 0 h (i * nr + j))) r = UB \/ exists2 s', foro n (fun j r => if (i < j)%N then store r (i * nr + j) 0
    else store r (i * nc + j) (nth 0 h (i * nr + j))) r = Ok s' & size s' = (nc * nc)%N.
  move=> i r hr n; rewrite /foro; elim: (iota 0 n) r hr => [|j l IH] r hr /=; first by right; exists r.
  case: ifP => _.
    by case: (hst r (i * nr + j)%N 0 hr) => [->|[r' -> hr']] /=; [left|apply: IH].
  by case: (hst r (i * nc + j)%N (nth 0 h (i * nr + j)) hr) => [->|[r' -> hr']] /=; [left|apply: IH].
rewrite /get_r; apply: (@foro_ub _ _ _ _ (fun r => size r = (nc * nc)%N) (nc - 2)) => //.
- by move=> i r hr; apply: hin.
- by lia.
move=> r hr; apply: (@foro_ub _ _ _ _ (fun r => size r = (nc * nc)%N) (nc - 1)) => //.
- by move=> j s hs; case: ifP => _; apply: hst.
- by lia.
move=> s hs; have -> : (nc - 2 < nc - 1)%N by lia.
by rewrite /store hs ltnNge hbig.
Qed.
End R.

Section Signs.
Variable F : realFieldType.
Implicit Types (nr nc n rank : nat) (h tau r f : seq F).

Lemma get_r_clean nr nc h r0 : (nc <= nr)%N -> is_mat nc nc r0 -> r_fits nr nc -> r_clean nr nc r0 ->
  exists r, [/\ get_r nr nc h r0 = Ok r, is_mat nc nc r &
    mx_of nc nc r = \matrix_(i, j) (if (i <= j)%N then nth 0 h (j * nr + i) else 0)].
Proof.
move=> hnc hr0 hf hc; have [r [-> [hs H]]] := get_r_ok h hnc hr0 hf.
exists r; split => //; apply/matrixP => i j; rewrite !mxE -/(loc nc i j) -/(loc nr i j).
have [Hu Hl] := H i j (ltn_ord i) (ltn_ord j); case: leqP => hij; first by apply: Hu => //; left.
case: (Hl hij) => [//|[-> hne]]; case: hc => [e|h2|h0].
- by have := hne j i (or_introl (ltn_ord j)); rewrite hij ltn_ord e eqxx => /(_ isT).
- have [e1 e2] : i = 1%N :> nat /\ j = 0%N :> nat by have := ltn_ord i; lia.
  have h1 : (1 < nc)%N by rewrite -e1 ltn_ord.
  by have := hne 0%N 1%N (or_introl (ltn_trans (ltn0Sn 0) h1)); rewrite h1 e1 e2 /loc !mul0n eqxx => /(_ isT).
- by have := h0 i j hij; rewrite mxE.
Qed.

Lemma flip_loop (neg : nat -> bool) b m f sw : (b + m <= size f)%N ->
  let res := foldl (fun st i => if neg i then (upd st.1 i (nth 0 st.1 i * -1), ~~ st.2) else st)
                   (f, sw) (iota b m) in
  [/\ size res.1 = size f,
      forall i, nth 0 res.1 i = nth 0 f i * (-1) ^+ ((b <= i < b + m)%N && neg i)
    & res.2 = sw (+) odd (count neg (iota b m))].
Proof.
elim: m b f sw => [|m IH] b f sw hs /=.
  split => //; last by rewrite addbF.
  move=> i; have -> : (b <= i < b + 0)%N = false by lia.
  by rewrite mulr1.
case: ifP => hb.
  have [|h1 h2 h3] := IH b.+1 (upd f b (nth 0 f b * -1)) (~~ sw); first by rewrite size_upd; lia.
  split; first by rewrite h1 size_upd.
  - move=> i; rewrite h2 nth_upd; have -> : (b < size f)%N by lia.
    rewrite andbT addSnnS; case: eqVneq => [->|hne].
      by rewrite ltnn /= mulr1 leqnn hb addnS ltnS leq_addr.
    by have -> : (b < i)%N = (b <= i)%N by lia.
  - by rewrite h3 add1n /= addbN addNb.
have [|h1 h2 h3] := IH b.+1 f sw; first by lia.
split => // i; rewrite h2 addSnnS; case: (eqVneq i b) => [->|hne]; first by rewrite hb !andbF.
by have -> : (b < i)%N = (b <= i)%N by lia.
Qed.

(** The sign of row / column i. *)
Definition sgn_of nr nc r (i : nat) : bool :=
  (odd nr && (i == (if nc == nr then 0%N else (nr - 1)%N)))
  (+) ((1 <= i < nc)%N && (mget nc r i i < 0))
  (+) ((i == 0%N) && odd (count (fun i => mget nc r i i < 0) (iota 1 (nc - 1)))).

Lemma qr_factorsE nr nc r : (0 < nc <= nr)%N ->
  size (qr_factors nr nc r) = nr /\
  forall i, (i < nr)%N -> nth 0 (qr_factors nr nc r) i = (-1) ^+ sgn_of nr nc r i.
Proof.
move=> hnc; rewrite /qr_factors modn2 eqb1.
set p := (if nc == nr then _ else _).
set f1 := (if odd nr then _ else _).
have hp : (p < nr)%N by rewrite /p; case: ifP; lia.
have [s1 e1] : size f1 = nr /\ forall i, (i < nr)%N -> nth 0 f1 i = (-1) ^+ (odd nr && (i == p)).
  rewrite /f1; case: ifP => _; last first.
    by rewrite size_filled muln1; split => // i hi; rewrite nth_nseq muln1 hi.
  rewrite size_upd size_filled muln1; split => // i hi; rewrite nth_upd size_filled !nth_nseq muln1 hp hi.
  by case: eqP => // _; rewrite mul1r expr1.
have [|s2 e2 e3] := @flip_loop (fun i => mget nc r i i < 0) 1 (nc - 1) f1 false; first by lia.
move: s2 e2 e3; case: (foldl _ _ _) => f2 sw /= s2 e2 e3.
have hr : (1 + (nc - 1))%N = nc by lia.
rewrite hr in e2.
have hn0 : (0 < nr)%N by lia.
case: ifP => hsw; rewrite ?size_upd s2 s1; split => // i hi; rewrite /sgn_of -/p -e3 hsw.
  rewrite nth_upd s2 s1 hn0 !andbT; case: (eqVneq i 0%N) => [->|_].
    by rewrite e2 e1 //= mulr1 addbF addbT signrN mulrN1.
  by rewrite addbF signr_addb e2 e1.
by rewrite andbF addbF signr_addb e2 e1.
Qed.

Lemma prod_signs (n : nat) (b : nat -> bool) :
  \prod_(i < n) (-1) ^+ b i = (-1 : F) ^+ count b (iota 0 n).
Proof.
elim: n => [|n IH]; first by rewrite big_ord0.
by rewrite big_ord_recr IH -[in RHS]addn1 iotaD count_cat exprD /= addn0.
Qed.

Lemma odd_count_addb (a b : nat -> bool) l :
  odd (count (fun i => a i (+) b i) l) = odd (count a l) (+) odd (count b l).
Proof.
elim: l => //= i l IH; rewrite !oddD IH !oddb.
by rewrite -!addbA; congr (_ (+) _); rewrite [RHS]addbCA.
Qed.

Lemma count_one n p (q : bool) : (p < n)%N -> odd (count (fun i => q && (i == p)) (iota 0 n)) = q.
Proof.
move=> hp; case: q => /=; last by rewrite count_pred0.
by rewrite -/(pred1 p) -/(count_mem p _) count_uniq_mem ?iota_uniq // mem_iota hp.
Qed.

Lemma prod_factors nr nc r : (0 < nc <= nr)%N ->
  \prod_(i < nr) nth 0 (qr_factors nr nc r) i = (-1) ^+ odd nr.
Proof.
move=> hnc; have [_ E] := qr_factorsE r hnc.
rewrite (eq_bigr (fun i : 'I_nr => (-1) ^+ sgn_of nr nc r i)); last by move=> i _; apply: E.
rewrite prod_signs -signr_odd; congr (_ ^+ nat_of_bool _).
rewrite /sgn_of odd_count_addb odd_count_addb count_one; last by case: ifP; lia.
set q := odd (count _ (iota 1 (nc - 1))).
have -> : odd (count (fun i => (i == 0%N) && q) (iota 0 nr)) = q.
  rewrite (eq_count (a2 := fun i => q && (i == 0%N))); last by move=> i; rewrite andbC.
  by rewrite count_one //; lia.
suff -> : odd (count (fun i => (1 <= i < nc)%N && (mget nc r i i < 0)) (iota 0 nr)) = q.
  by rewrite -addbA addbb addbF.
congr odd; have -> : nr = (1 + (nc - 1) + (nr - nc))%N by lia.
rewrite !iotaD !count_cat /= !add0n ?addn0.
have -> : count (fun i => (0 < i < nc)%N && (mget nc r i i < 0)) (iota (1 + (nc - 1)) (nr - nc)) = 0%N.
  by apply/eqP; rewrite -leqn0 leqNgt -has_count; apply/hasPn => i; rewrite mem_iota; lia.
by rewrite addn0; apply: eq_in_count => i; rewrite mem_iota => hi; have -> : (0 < i < nc)%N by lia.
Qed.

Lemma for_id (S : Type) (n : nat) (s : S) (body : nat -> S -> S) :
  (forall i, body i s = s) -> for_ n body s = s.
Proof. by move=> h; elim: n => [//|n IH]; rewrite for_S IH. Qed.

Lemma scale_qE nr f Q : is_mat nr nr Q -> (forall i, (i < nr)%N -> f`_i = 1 \/ f`_i = -1) ->
  mx_of nr nr (scale_q nr f Q) = mx_of nr nr Q *m diag_mx (\row_i f`_i).
Proof.
move=> hQ hf; rewrite mul_mx_diag.
have -> : scale_q nr f Q = for_ nr (fun i q => for_ nr (fun j q =>
   upd q (loc nr j i) (if f`_i < 0 then nth 0 q (loc nr j i) * f`_i else nth 0 q (loc nr j i))) q) Q.
  apply: eq_for => i q _; case: ifP => // _; rewrite for_id // => j; exact: upd_id.
apply/matrixP => j i; rewrite mx_ofE mxE /mget.
rewrite (@nth_for2_assign_in _ 0 nr (fun j i => loc nr j i) (fun j i x => if f`_i < 0 then x * f`_i else x)) //.
- rewrite !mxE -/(loc _ _ _); case: (hf i (ltn_ord i)) => ->; last by rewrite ltrN10.
  by rewrite ltr10 mulr1.
- by move=> a b a' b' ha hb ha' hb' e; apply: (loc_inj ha ha' e).
- by rewrite hQ loc_lt.
Qed.

Lemma size_scale_r nc f r : size (scale_r nc f r) = size r.
Proof.
rewrite /scale_r; apply: (@for_inv _ (fun _ m => size m = size r)) => // i m _ <-.
case: ifP => // _; apply: (@for_inv _ (fun _ m' => size m' = size m)) => // j m' _ <-.
by rewrite size_upd.
Qed.

Lemma scale_rE nc f r i j : is_mat nc nc r -> (forall i, (i < nc)%N -> f`_i = 1 \/ f`_i = -1) ->
  (i < nc)%N -> (j < nc)%N -> mget nc (scale_r nc f r) i j = f`_i * mget nc r i j.
Proof.
move=> hr hf hi hj.
have -> : scale_r nc f r = for_ nc (fun i q => for_ nc (fun j q =>
   upd q (loc nc i j) (if f`_i < 0 then nth 0 q (loc nc i j) * f`_i else nth 0 q (loc nc i j))) q) r.
  apply: eq_for => k q _; case: ifP => // _; rewrite for_id // => l; exact: upd_id.
rewrite /mget (@nth_for2_assign_in _ 0 nc (fun j i => loc nc i j) (fun j i x => if f`_i < 0 then x * f`_i else x)) //.
- case: (hf i hi) => ->; last by rewrite ltrN10 mulrC.
  by rewrite ltr10 mul1r.
- by move=> a b a' b' ha hb ha' hb' e; have [-> ->] := loc_inj hb hb' e.
- by rewrite hr loc_lt.
Qed.
End Signs.

Section Main.
Variable F : realFieldType.
Implicit Types (nr nc n rank : nat) (A h tau r f : seq F).
Variable geqr2 : nat -> nat -> seq F -> qr_result F.

Lemma sgn_cases (b : bool) : ((-1) ^+ b = 1 :> F) \/ ((-1) ^+ b = -1 :> F).
Proof. by case: b; [right|left]. Qed.

Lemma size_get_q nr rank h tau : size (get_q nr rank h tau) = (nr * nr)%N.
Proof.
rewrite /get_q; case: rank => [|k]; last by rewrite for_S size_mat_mul.
by rewrite for_0 /diagonal /mset size_for_assign size_filled.
Qed.

Lemma orth_diag_sign nr (D : 'rV[F]_nr) : (forall i, D 0 i = 1 \/ D 0 i = -1) ->
  (diag_mx D)^T *m diag_mx D = 1%:M.
Proof.
move=> hD; rewrite tr_diag_mx mul_diag_mx; apply/matrixP => i j; rewrite !mxE.
case: eqP => [->|_]; last by rewrite !mulr0n mulr0.
by case: (hD j) => ->; rewrite ?mulr1 ?mulN1r ?opprK.
Qed.

Lemma qr_decomp_correct nr nc A (r0 : seq F) : (0 < nc <= nr)%N ->
  is_mat nc nc r0 -> r_fits nr nc -> r_clean nr nc r0 ->
  let g := geqr2 nr nc A in
  qr_info g -> geqr2_ok nr nc A (qr_fac g) (qr_tau g) ->
  exists m Q R, [/\ qr_decomp geqr2 nr nc A r0 = Ok (m, Q, R),
    (mx_of nr nr Q)^T *m mx_of nr nr Q = 1%:M,
    mx_of nr nr Q *m zero_extended nr nc R = mx_of nr nc A,
    (forall i j : 'I_nc, (j < i)%N -> mx_of nc nc R i j = 0) /\
    (forall i : 'I_nc, (0 < i)%N -> 0 <= mx_of nc nc R i i)
  & \det (mx_of nr nr Q) = (-1) ^+ (n_reflections nc (qr_tau g) + nr)].
Proof.
move=> hnc hr0 hfit hcl g hinfo [hh ht hrefl hA].
have hnc' : (nc <= nr)%N by lia.
have [r [er hr mr]] := get_r_clean (qr_fac g) hnc' hr0 hfit hcl.
rewrite /qr_decomp /lapack_qr_decomp -/g hinfo er /=.
set q := get_q _ _ _ _; set f := qr_factors nr nc r.
have [sf ef] := qr_factorsE r hnc.
have hf i : (i < nr)%N -> f`_i = 1 \/ f`_i = -1.
  by move=> hi; rewrite /f ef //; apply: sgn_cases.
have hfc i : (i < nc)%N -> f`_i = 1 \/ f`_i = -1 by move=> hi; apply: hf; lia.
have hq : is_mat nr nr q by apply: size_get_q.
have EQ := scale_qE hq hf.
have eqq : mx_of nr nr q = refl_prod nr (qr_fac g) (qr_tau g) (minn nr nc) by apply: mx_get_q.
exists (get_r_in_place nr nc (qr_fac g)), (scale_q nr f q), (scale_r nc f r); split => //.
- rewrite EQ trmx_mul mulmxA -(mulmxA (diag_mx _)^T) eqq refl_prod_orth // mulmx1.
  by apply: orth_diag_sign => i; rewrite mxE; apply: hf.
- rewrite EQ -mulmxA.
  suff -> : diag_mx (\row_i f`_i) *m zero_extended nr nc (scale_r nc f r) = upper_part nr nc (qr_fac g).
    by rewrite eqq hA.
  rewrite mul_diag_mx; apply/matrixP => i j; rewrite !mxE -/(mget nc (scale_r nc f r) i j).
  case: ltnP => hi; last first.
    by rewrite mulr0 ifN // -ltnNge; apply: leq_trans hi; apply: ltn_ord.
  rewrite scale_rE // mulrA.
  have -> : f`_i * f`_i = 1 by case: (hfc i hi) => ->; rewrite ?mulr1 ?mulN1r ?opprK.
  rewrite mul1r; have := congr1 (fun M : 'M_nc => M (Ordinal hi) j) mr.
  by rewrite !mxE -/(mget _ _ _ _) => ->.
- split=> [i j hij|i hi]; rewrite mx_ofE scale_rE //.
    have := congr1 (fun M : 'M_nc => M i j) mr; rewrite mx_ofE !mxE => ->.
    by rewrite leqNgt hij mulr0.
  rewrite ef; last by apply: leq_trans hnc'.
  rewrite /sgn_of; have -> : (i == 0%N :> nat) = false by lia.
  have -> : (i == (if nc == nr then 0%N else (nr - 1)%N) :> nat) = false.
    by have := ltn_ord i; case: ifP => [_|/eqP]; lia.
  rewrite andbF addbF /=; have -> : (0 < i < nc)%N by rewrite hi ltn_ord.
  rewrite andTb; case: ltP => h0; last by rewrite expr0 mul1r.
  by rewrite expr1 mulN1r oppr_ge0 ltW.
- rewrite EQ det_mulmx det_diag eqq det_refl_prod // exprD; congr (_ * _).
    by rewrite /n_reflections (minn_idPr hnc').
  under eq_bigr => i _ do rewrite mxE.
  by rewrite prod_factors // signr_odd.
Qed.

Lemma qr_decomp_throws nr nc A (r0 : seq F) : ~~ qr_info (geqr2 nr nc A) -> qr_decomp geqr2 nr nc A r0 = Throw.
Proof. by rewrite /qr_decomp /lapack_qr_decomp => /negbTE ->. Qed.

Lemma qr_decomp_qE nr nc A : let g := geqr2 nr nc A in
  qr_info g -> geqr2_ok nr nc A (qr_fac g) (qr_tau g) ->
  exists Q, [/\ qr_decomp_q geqr2 nr nc A = Ok Q,
    (mx_of nr nr Q)^T *m mx_of nr nr Q = 1%:M
  & mx_of nr nr Q *m upper_part nr nc (qr_fac g) = mx_of nr nc A].
Proof.
move=> g hi [hh ht hrefl hA]; rewrite /qr_decomp_q -/g hi.
exists (get_q nr (minn nr nc) (qr_fac g) (qr_tau g)); rewrite mx_get_q; split => //.
exact: refl_prod_orth.
Qed.

(** Determinant *)
Lemma det_loop (h : seq F) nr n :
  for_ n (fun i d => d * - nth 0 h (i * nr.+1)) 1 = (-1) ^+ n * \prod_(i < n) nth 0 h (i * nr.+1).
Proof.
elim: n => [|n IH]; first by rewrite for_0 big_ord0 mulr1.
by rewrite for_S IH big_ord_recr /= exprS; ring.
Qed.

Lemma det_upper_part n (h : seq F) :
  \det (upper_part n n h) = \prod_(i < n) nth 0 h (i * n.+1).
Proof.
rewrite -det_tr det_trig; last first.
  by apply/is_trig_mxP => i j hij; rewrite !mxE leqNgt hij.
by apply: eq_bigr => i _; rewrite !mxE leqnn mulnS addnC.
Qed.

Lemma determinant_value n A : let g := geqr2 n n A in
  qr_info g -> geqr2_ok n n A (qr_fac g) (qr_tau g) ->
  mat_determinant geqr2 n n A = Ok ((-1) ^+ (n + n_reflections n (qr_tau g)) * \det (mx_of n n A)).
Proof.
move=> g hi [hh ht hrefl hA]; rewrite /mat_determinant /lapack_det -/g hi /=; congr Ok.
rewrite det_loop hA det_mulmx det_refl_prod // det_upper_part minnn /n_reflections exprD -!mulrA.
congr (_ * _); rewrite mulrA -expr2 sqrr_sign mul1r //.
Qed.

(** Rectangular matrices: the square is det (A^T A). *)
Lemma determinant_square nr nc A : (nc <= nr)%N -> let g := geqr2 nr nc A in
  qr_info g -> geqr2_ok nr nc A (qr_fac g) (qr_tau g) ->
  exists d, mat_determinant geqr2 nr nc A = Ok d /\
            d ^+ 2 = \det ((mx_of nr nc A)^T *m mx_of nr nc A).
Proof.
move=> hnc g hi [hh ht hrefl hA]; rewrite /mat_determinant /lapack_det -/g hi /=.
eexists; split; first by [].
rewrite det_loop exprMn sqrr_sign mul1r (minn_idPr hnc) hA.
rewrite trmx_mul mulmxA -(mulmxA (upper_part _ _ _)^T) refl_prod_orth // mulmx1.
set h := qr_fac g.
have -> : (upper_part nr nc h)^T *m upper_part nr nc h =
  (\matrix_(i < nc, j < nc) (if (i <= j)%N then nth 0 h (j * nr + i) else 0))^T *m
   \matrix_(i < nc, j < nc) (if (i <= j)%N then nth 0 h (j * nr + i) else 0).
  apply/matrixP => i j; rewrite !mxE.
  have -> : nr = (nc + (nr - nc))%N by lia.
  rewrite big_split_ord /= [X in _ + X]big1 ?addr0 => [|k _]; last first.
    rewrite !mxE /= [X in X * _]ifN ?mul0r // -ltnNge.
    by apply: leq_trans (leq_addr _ _); apply: ltn_ord.
  by apply: eq_bigr => k _; rewrite !mxE.
rewrite det_mulmx det_tr -expr2; congr (_ ^+ 2).
rewrite -det_tr det_trig; last first.
  by apply/is_trig_mxP => i j hij; rewrite !mxE leqNgt hij.
by apply: eq_bigr => i _; rewrite !mxE leqnn mulnS addnC.
Qed.

Lemma determinant_throws nr nc A : ~~ qr_info (geqr2 nr nc A) ->
  mat_determinant geqr2 nr nc A = Throw.
Proof. by rewrite /mat_determinant /lapack_det => /negbTE ->. Qed.
End Main.

Section Check.
Variable F : realFieldType.
(** A computable check of the contract, used for concrete examples only. *)
Definition geqr2_check nr nc (A h tau : seq F) : bool :=
  [&& size h == (nr * nc)%N, size tau == minn nr nc,
      all (fun i => (tau`_i == 0) ||
        (tau`_i * scalar_product nr (house_vec nr h i) (house_vec nr h i) == 2%:R)) (iota 0 (minn nr nc))
    & mat_mul nr nr nc (get_q nr (minn nr nc) h tau) (get_r_in_place nr nc h) == A].
Lemma geqr2_checkP nr nc A h tau : geqr2_check nr nc A h tau -> geqr2_ok nr nc A h tau.
Proof.
move=> /and4P[/eqP h1 /eqP h2 /allP h3 /eqP h4]; split => //.
- move=> i hi; have := h3 i; rewrite mem_iota => /(_ hi) /orP[/eqP|/eqP e]; [by left|right].
  rewrite -e -mx_house_vec mxE; congr (_ * _); rewrite scalar_productE.
  by apply: eq_bigr => j _; rewrite !mxE mul0n add0n.
- by rewrite -{1}h4 mx_mat_mul mx_get_q mx_get_r_in_place.
Qed.
End Check.

Definition okb (A : Type) (P : A -> bool) (x : outcome A) : bool := if x is Ok a then P a else false.
Lemma okP (A : Type) (P : A -> bool) (x : outcome A) : okb P x -> exists2 a, x = Ok a & P a.
Proof. by case: x => // a h; exists a. Qed.

Definition ex_qr (h tau : seq rat) : nat -> nat -> seq rat -> qr_result [realFieldType of rat] :=
  fun _ _ _ => QrResult true h tau.

Lemma ex_col_ok : geqr2_ok 2 1 [:: 3%:Q; 4%:Q] [:: -5%:Q; 1%:Q/2%:Q] [:: 8%:Q/5%:Q].
Proof. by apply: geqr2_checkP; vm_compute. Qed.
Lemma ex_sq_ok : geqr2_ok 2 2 [:: 3%:Q; 4%:Q; 0; 5%:Q] [:: -5%:Q; 1%:Q/2%:Q; -4%:Q; 3%:Q] [:: 8%:Q/5%:Q; 0].
Proof. by apply: geqr2_checkP; vm_compute. Qed.
Lemma ex_one_ok : geqr2_ok 1 1 [:: 1%:Q] [:: 1%:Q] [:: 0].
Proof. by apply: geqr2_checkP; vm_compute. Qed.

Lemma qr_mat_not_R : exists (g : nat -> nat -> seq rat -> qr_result [realFieldType of rat]) (A r0 : seq rat) m Q R,
  [/\ is_mat 1 1 A, qr_info (g 1%N 1%N A), geqr2_ok 1 1 A (qr_fac (g 1%N 1%N A)) (qr_tau (g 1%N 1%N A)),
      qr_decomp g 1 1 A r0 = Ok (m, Q, R) & mx_of 1 1 Q *m mx_of 1 1 m <> mx_of 1 1 A].
Proof.
have /okP[[[m Q] R] e h] : okb (fun t => (mat_mul 1 1 1 t.1.2 t.1.1)`_0 != 1) (qr_decomp (ex_qr [:: 1] [:: 0]) 1 1 [:: 1] [:: 0]) by vm_compute.
exists (ex_qr [:: 1] [:: 0]), [:: 1], [:: 0], m, Q, R; split.
- reflexivity.
- reflexivity.
- exact: ex_one_ok.
- exact: e.
by rewrite -mx_mat_mul => /matrixP /(_ 0 0) /eqP; rewrite !mxE (negbTE h).
Qed.

Lemma qr_det_not_one : exists (g : nat -> nat -> seq rat -> qr_result [realFieldType of rat]) (A r0 : seq rat) m Q R,
  [/\ is_mat 2 1 A, qr_info (g 2%N 1%N A), geqr2_ok 2 1 A (qr_fac (g 2%N 1%N A)) (qr_tau (g 2%N 1%N A)),
      qr_decomp g 2 1 A r0 = Ok (m, Q, R) & \det (mx_of 2 2 Q) <> 1].
Proof.
set g := ex_qr [:: -5%:Q; 1%:Q/2%:Q] [:: 8%:Q/5%:Q].
have hc : r_clean 2 1 [:: 0 : rat] by constructor 2.
have [m [Q [R [e _ _ _ hd]]]] :=
  @qr_decomp_correct _ g 2 1 [:: 3%:Q; 4%:Q] [:: 0] isT (erefl _) isT hc isT ex_col_ok.
exists g, [:: 3%:Q; 4%:Q], [:: 0], m, Q, R; split.
- reflexivity.
- reflexivity.
- exact: ex_col_ok.
- exact: e.
by rewrite hd; vm_compute.
Qed.

Lemma determinant_wrong_sign : exists (g : nat -> nat -> seq rat -> qr_result [realFieldType of rat]) (A : seq rat),
  [/\ is_mat 2 2 A, qr_info (g 2%N 2%N A), geqr2_ok 2 2 A (qr_fac (g 2%N 2%N A)) (qr_tau (g 2%N 2%N A)),
      \det (mx_of 2 2 A) = 15%:R & mat_determinant g 2 2 A = Ok (- 15%:R)].
Proof.
exists (ex_qr [:: -5%:Q; 1%:Q/2%:Q; -4%:Q; 3%:Q] [:: 8%:Q/5%:Q; 0]), [:: 3%:Q; 4%:Q; 0; 5%:Q].
have /okP[d e /eqP hd] : okb (fun d => d == -15%:R) (mat_determinant (ex_qr [:: -5%:Q; 1%:Q/2%:Q; -4%:Q; 3%:Q] [:: 8%:Q/5%:Q; 0])
   2 2 [:: 3%:Q; 4%:Q; 0; 5%:Q]) by vm_compute.
split; [reflexivity|reflexivity|exact: ex_sq_ok| |by rewrite e hd].
rewrite (expand_det_row _ 0) !big_ord_recr big_ord0 /= /cofactor !det_mx11 !mxE /=.
by apply/eqP; vm_compute.
Qed.

Lemma qr_det_square (F : realFieldType) n (tau : seq F) :
  n_reflections n tau = (n - 1)%N -> (0 < n)%N ->
  (-1) ^+ (n_reflections n tau + n) = -1 :> F.
Proof.
move=> -> hn; rewrite -signr_odd; have -> : (n - 1 + n = (n - 1).*2.+1)%N by lia.
by rewrite /= odd_double expr1.
Qed.

Section Sv.
Variable F : realFieldType.
Variable gesv : nat -> nat -> seq F -> seq F -> sv_result F.
Lemma solve_constE n nc (b A : seq F) :
  (sv_info (gesv n nc A b) -> gesv_ok n nc A b (sv_rhs (gesv n nc A b))) ->
  (solve_const gesv n nc b A).2 = (A, b) /\
  ((exists x, [/\ (solve_const gesv n nc b A).1 = Ok x, is_mat n nc x &
                  mx_of n n A *m mx_of n nc x = mx_of n nc b] /\ sv_info (gesv n nc A b)) \/
   ((solve_const gesv n nc b A).1 = Throw /\ ~~ sv_info (gesv n nc A b))).
Proof.
rewrite /solve_const /solve_mut /= => h; split => //.
case: ifP h => hi h; [left|by right].
by have [h1 h2] := h isT; exists (sv_rhs (gesv n nc A b)).
Qed.
Lemma solve_mutE n nc (b A : seq F) :
  (sv_info (gesv n nc A b) -> gesv_ok n nc A b (sv_rhs (gesv n nc A b))) ->
  (exists x, [/\ (solve_mut gesv n nc b A).1 = Ok x, is_mat n nc x &
                  mx_of n n A *m mx_of n nc x = mx_of n nc b] /\ (solve_mut gesv n nc b A).2.2 = x) \/
   ((solve_mut gesv n nc b A).1 = Throw /\ ~~ sv_info (gesv n nc A b)).
Proof.
rewrite /solve_mut /= => h; case: ifP h => hi h; [left|by right].
by have [h1 h2] := h isT; exists (sv_rhs (gesv n nc A b)).
Qed.
(** Uniqueness: for a non-singular matrix the solution is determined. *)
Lemma solve_unique n nc (A b x y : seq F) : mx_of n n A \in unitmx ->
  gesv_ok n nc A b x -> gesv_ok n nc A b y -> mx_of n nc x = mx_of n nc y.
Proof. by move=> hu [_ h1] [_ h2]; rewrite -[LHS](mulKmx hu) h1 -h2 mulKmx. Qed.
End Sv.

Lemma solve_mut_destroys : exists (g : nat -> nat -> seq rat -> seq rat -> sv_result [realFieldType of rat]) (A b : seq rat),
  [/\ forall n nc A b, (n, nc) = (1, 1)%N -> size A = 1%N -> size b = 1%N -> sv_info (g n nc A b) -> gesv_ok n nc A b (sv_rhs (g n nc A b)),
      (solve_mut g 1 1 b A).1 = Ok [:: 2%:Q] & (solve_mut g 1 1 b A).2.2 <> b].
Proof.
exists (fun _ _ A b => SvResult (A`_0 != 0) A [:: b`_0 / A`_0]), [:: 2%:Q], [:: 4%:Q]; split.
- move=> n nc A b [-> ->] hA hb /= h0; split => //.
  apply/matrixP => i j; rewrite !mxE big_ord_recr big_ord0 /= !mxE add0r [i]ord1 [j]ord1 /=.
  by rewrite mulrCA divff // mulr1.
- by vm_compute.
- by vm_compute.
Qed.

Lemma get_r_stale : exists (h r0 r : seq rat),
  [/\ is_mat 4 3 h, is_mat 3 3 r0, get_r 4 3 h r0 = Ok r & mget 3 r 2 1 <> 0].
Proof.
have /okP[r e /eqP hr] : okb (fun r => mget 3 r 2 1 != 0) (get_r 4 3 (nseq 12 (1 : rat)) (nseq 9 1)) by vm_compute.
by exists (nseq 12 1), (nseq 9 1), r; split; [reflexivity|reflexivity|exact: e|exact: hr].
Qed.
Lemma get_r_out_of_bounds : exists (h r0 : seq rat),
  [/\ is_mat 7 3 h, is_mat 3 3 r0 & get_r 7 3 h r0 = UB].
Proof. by exists (nseq 21 1), (nseq 9 0); split; [reflexivity|reflexivity|vm_compute]. Qed.
