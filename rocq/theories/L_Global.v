(** Proofs about M_Global. *)
From mathcomp Require Import all_ssreflect all_algebra zify.
From Verif Require Import M_Base L_Base M_Index S_Index L_Index M_Global S_Global.
Set Implicit Arguments. Unset Strict Implicit. Unset Printing Implicit Defensive.
Import Order.TTheory GRing.Theory Num.Theory.
Local Open Scope ring_scope.

Lemma iterateE fuel it n : (it <= n)%N -> (n - it <= fuel)%N -> iterate fuel it n = Some (iota it (n - it)).
Proof.
elim: fuel it => [|fuel IH] it hle hf /=.
  have -> : it = n by lia.
  by rewrite eqxx subnn.
case: eqP => [->|ne]; first by rewrite subnn.
rewrite IH; try lia.
by have -> : (n - it = (n - it.+1).+1)%N by lia.
Qed.

Section Loops.
Variables (F : realFieldType) (E : Type) (dim n : nat).
Local Notation m := (2 * dim)%N.
Local Notation edge := (seq nat * E)%type.
Local Notation shaped := (@shaped F dim n).
Local Notation dmx := (@dmx F dim n).
Local Notation scattered := (@scattered F dim n).
Local Notation local_part := (@local_part F dim n).
Implicit Types (edges : seq edge) (x y ax : seq F) (nodes : seq nat) (old new junk : seq (seq F)).

(** The values of a hypernode as one list. *)
Definition node_vals (i : nat) x := [seq nth 0 x (i * n + j) | j <- iota 0 n].
Lemma get_vals i n_nodes x : size x = (n_nodes * n)%N -> (i < n_nodes)%N ->
  get_dof_values n i x = Ok (node_vals i x).
Proof.
move=> hx hi; rewrite get_dof_valuesE; last exact: node_range_ok hx hi.
have h : (i * n + n <= size x)%N := node_range_ok hx hi; congr Ok; apply: (@eq_from_nth _ 0).
  rewrite size_map size_iota size_takel // size_drop leq_subRL //.
  exact: leq_trans (leq_addr _ _) h.
move=> j; rewrite size_takel; last by rewrite size_drop leq_subRL // (leq_trans (leq_addr _ _) h).
by move=> hj; rewrite nth_take // nth_drop (nth_map 0%N) ?size_iota // nth_iota.
Qed.

Lemma gatherE n_nodes nodes x old new : size x = (n_nodes * n)%N -> size nodes = m ->
  all (fun i => i < n_nodes)%N nodes -> size old = m -> size new = m ->
  gather n nodes x old new =
    Ok ([seq node_vals i x | i <- nodes], nseq m (nseq n 0)).
Proof.
move=> hx hs ha ho hn; rewrite /gather hs.
suff H k : (k <= m)%N -> exists st, [/\ foro k (fun k st =>
    obind (get_dof_values n (nth 0%N nodes k) x) (fun v =>
      Ok (upd st.1 k v, upd st.2 k (nseq n 0)))) (old, new) = Ok st, size st.1 = m, size st.2 = m &
      forall l, (l < k)%N -> nth [::] st.1 l = node_vals (nth 0%N nodes l) x /\
                             nth [::] st.2 l = nseq n 0].
  have [[o nw] [-> /= h1 h2 h3]] := H m (leqnn m); congr (Ok (_, _)).
    apply: (@eq_from_nth _ [::]); rewrite ?size_map h1 // => l hl.
    by rewrite (nth_map 0%N) ?hs //; case: (h3 l hl).
  apply: (@eq_from_nth _ [::]); rewrite ?size_nseq h2 // => l hl.
  by rewrite nth_nseq hl; case: (h3 l hl).
elim: k => [|k IH] hk; first by exists (old, new).
have [[o nw] [e h1 h2 h3]] := IH (ltnW hk); rewrite foroS e /=.
rewrite (get_vals hx) /=; last by apply: (allP ha); apply: mem_nth; rewrite hs.
eexists; split; first by []; rewrite ?size_upd // => l hl /=.
rewrite !nth_upd h1 h2 hk !andbT; case: eqP => [->//|ne]; apply: h3; lia.
Qed.

Lemma shaped_vals nodes x : size nodes = m -> shaped [seq node_vals i x | i <- nodes].
Proof.
move=> hs; split; first by rewrite size_map.
by move=> k hk; rewrite (nth_map 0%N) ?hs // size_map size_iota.
Qed.
Lemma shaped_zero : shaped (nseq m (nseq n 0)).
Proof. by split; rewrite ?size_nseq // => k hk; rewrite nth_nseq hk size_nseq. Qed.
Lemma dmx_zero : dmx (nseq m (nseq n 0)) = 0.
Proof. by apply/matrixP => k j; rewrite !mxE nth_nseq ltn_ord nth_nseq ltn_ord. Qed.
Lemma dmx_vals nodes x : size nodes = m -> dmx [seq node_vals i x | i <- nodes] = local_part nodes x.
Proof.
move=> hs; apply/matrixP => k j; rewrite !mxE (nth_map 0%N) ?hs //.
by rewrite (nth_map 0%N) ?size_iota // nth_iota.
Qed.

Lemma add_vals n_nodes i ax v d : size ax = (n_nodes * n)%N -> (i < n_nodes)%N -> size v = n ->
  exists ay, [/\ add_to_dof_values n i ax v = Ok ay, size ay = size ax &
    nth 0 ay d = nth 0 ax d + \sum_(j < n) (if (i * n + j == d)%N then nth 0 v j else 0)].
Proof.
move=> ha hi hv; have [ay [e hs hn]] := add_to_dof_valuesE hv (node_range_ok ha hi).
exists ay; split => //; rewrite hn dof_indicesE mem_iota.
case: ifP => hd.
  have hlt : (d - i * n < n)%N by lia.
  congr (_ + _); rewrite (bigD1 (Ordinal hlt)) //= big1 ?addr0.
    by have -> : (i * n + (d - i * n) == d)%N by lia.
  move=> j; rewrite -val_eqE /= => hj.
  by have -> : (i * n + j == d)%N = false by lia.
rewrite big1 ?addr0 // => j _; have := ltn_ord j => hj.
by have -> : (i * n + j == d)%N = false by lia.
Qed.

Lemma scatterE n_nodes nodes new ax : size ax = (n_nodes * n)%N -> size nodes = m ->
  all (fun i => i < n_nodes)%N nodes -> shaped new ->
  exists ay, [/\ scatter_add n nodes new ax = Ok ay, size ay = size ax &
    forall d, nth 0 ay d = nth 0 ax d + scattered nodes (dmx new) d].
Proof.
move=> hx hs ha [hnew hrow]; rewrite /scatter_add hs.
suff H k : (k <= m)%N -> exists ay, [/\ foro k (fun k ax =>
    add_to_dof_values n (nth 0%N nodes k) ax (nth [::] new k)) ax = Ok ay, size ay = size ax &
    forall d, nth 0 ay d = nth 0 ax d + \sum_(k' < m | (k' < k)%N) \sum_(j < n)
       (if (nth 0%N nodes k' * n + j == d)%N then dmx new k' j else 0)].
  have [ay [e h1 h2]] := H m (leqnn m); exists ay; split => // d; rewrite h2; congr (_ + _).
  by apply: eq_bigl => k; rewrite ltn_ord.
elim: k => [|k IH] hk.
  by exists ax; split => // d; rewrite big_pred0 // addr0.
have [ay [e h1 h2]] := IH (ltnW hk); rewrite foroS e /=.
have hi : (nth 0%N nodes k < n_nodes)%N by apply: (allP ha); apply: mem_nth; rewrite hs.
have hsy : size ay = (n_nodes * n)%N by rewrite h1.
have [az [e' h1' _]] := add_vals 0 hsy hi (hrow k hk).
exists az; split => //; first by rewrite h1'.
move=> d; have [az' [e'' _ h3]] := add_vals d hsy hi (hrow k hk).
move: e''; rewrite e' => -[eaz].
rewrite eaz h3 h2 -addrA; congr (_ + _).
rewrite [RHS](bigD1 (Ordinal hk)) //= addrC; congr (_ + _).
  by apply: eq_bigr => j _; rewrite mxE.
by apply: eq_bigl => k'; rewrite -val_eqE /=; lia.
Qed.

Variable phi : E -> 'M[F]_(m, n) -> 'M[F]_(m, n).
Variable f : local_fun F E.
Hypothesis fP : @computes F E dim n f phi.

Lemma mat_vecE n_nodes edges x junk : size x = (n_nodes * n)%N -> valid_graph dim n_nodes edges ->
  size junk = m ->
  exists y, [/\ mat_vec n junk edges f x = Ok y, size y = size x &
    forall d, nth 0 y d = global_op edges phi x d].
Proof.
move=> hx hv hj; rewrite /mat_vec.
suff H ax old new : size ax = size x -> size old = m -> size new = m -> exists st,
    [/\ foldo (fun e st => let: (ax, old, new) := st in
       obind (gather n e.1 x old new) (fun on =>
       obind (f e.2 on.1 on.2) (fun new' =>
       obind (scatter_add n e.1 new' ax) (fun ax' => Ok (ax', on.1, new')))))
      (ax, old, new) edges = Ok st, size st.1.1 = size x &
     forall d, nth 0 st.1.1 d = nth 0 ax d + global_op edges phi x d].
  have [st [-> h1 h2]] := H (nseq (size x) 0) junk junk (size_nseq _ _) hj hj.
  exists st.1.1; split => // d; rewrite h2 nth_nseq.
  by case: ifP => _; rewrite add0r.
elim: edges hv ax old new => [_|e edges IH] /=.
  by move=> ax old new hax ho hn; exists (ax, old, new); split => // d; rewrite /global_op big_nil addr0.
move=> /andP[/andP[/eqP hse hae] hv] ax old new hax ho hn.
rewrite (gatherE hx) //=.
have [new' [-> hs' hd']] := fP e.2 (shaped_vals x hse) shaped_zero dmx_zero.
rewrite /= ; have hax' : size ax = (n_nodes * n)%N by rewrite hax.
have [ay [-> hsy hny]] := scatterE hax' hse hae hs'.
have hs1 : size ay = size x by rewrite hsy.
rewrite /=; have [|||st [e1 e2 e3]] := IH hv ay [seq node_vals i x | i <- e.1] new'.
- by [].
- by rewrite size_map.
- by case: hs'.
exists st; split => // d; rewrite e3 hny -addrA; congr (_ + _).
by rewrite /global_op big_cons hd' dmx_vals.
Qed.
End Loops.

Section Algebra.
Variables (F : realFieldType) (E : Type) (dim n : nat).
Local Notation m := (2 * dim)%N.
Local Notation edge := (seq nat * E)%type.
Local Notation scattered := (@scattered F dim n).
Local Notation local_part := (@local_part F dim n).
Local Notation global_op := (@global_op F E dim n).
Implicit Types (edges : seq edge) (x y : seq F) (nodes : seq nat) (A B : 'M[F]_(m, n)).
Implicit Types (phi : E -> 'M[F]_(m, n) -> 'M[F]_(m, n)).

Lemma size_axpy a x y : size (axpy a x y) = size x.
Proof. by rewrite size_map size_iota. Qed.
Lemma nth_axpy a x y i : (i < size x)%N -> nth 0 (axpy a x y) i = a * nth 0 x i + nth 0 y i.
Proof. by move=> hi; rewrite (nth_map 0%N) ?size_iota // nth_iota. Qed.

Lemma scattered_lin nodes a A B d : scattered nodes (a *: A + B) d = a * scattered nodes A d + scattered nodes B d.
Proof.
rewrite /scattered mulr_sumr -big_split; apply: eq_bigr => k _ /=.
rewrite mulr_sumr -big_split; apply: eq_bigr => j _ /=.
by case: ifP; rewrite ?mxE // mulr0 addr0.
Qed.
Lemma scatteredD nodes A B d : scattered nodes (A + B) d = scattered nodes A d + scattered nodes B d.
Proof. by rewrite -[A in LHS]scale1r scattered_lin mul1r. Qed.
Lemma scattered0 nodes d : scattered nodes 0 d = 0.
Proof. by rewrite /scattered big1 // => k _; rewrite big1 // => j _; rewrite mxE; case: ifP. Qed.

Lemma node_lt n_nodes nodes (k : 'I_m) (j : 'I_n) : size nodes = m ->
  all (fun i => i < n_nodes)%N nodes -> (nth 0 nodes k * n + j < n_nodes * n)%N.
Proof.
move=> hs ha; have hi : (nth 0%N nodes k < n_nodes)%N by apply: (allP ha); apply: mem_nth; rewrite hs.
have hj := ltn_ord j; move: (nth 0%N nodes k) hi => i hi.
by apply: (@leq_trans (i.+1 * n)); [rewrite mulSn; lia | rewrite leq_mul2r hi orbT].
Qed.

Lemma local_part_axpy n_nodes nodes a x y : size x = (n_nodes * n)%N -> size nodes = m ->
  all (fun i => i < n_nodes)%N nodes ->
  local_part nodes (axpy a x y) = a *: local_part nodes x + local_part nodes y.
Proof.
move=> hx hs ha; apply/matrixP => k j; rewrite !mxE nth_axpy //.
by rewrite hx; apply: node_lt.
Qed.

Lemma global_linear n_nodes edges phi a x y d : size x = (n_nodes * n)%N ->
  valid_graph dim n_nodes edges -> local_linear phi ->
  global_op edges phi (axpy a x y) d = a * global_op edges phi x d + global_op edges phi y d.
Proof.
move=> hx hv hl; rewrite /global_op mulr_sumr -big_split.
elim: edges hv => [|e edges IH] /=; first by rewrite !big_nil.
move=> /andP[/andP[/eqP hs ha] hv]; rewrite !big_cons IH //; congr (_ + _).
by rewrite (local_part_axpy _ _ hx) // hl scattered_lin.
Qed.

(** Scattering is the transpose of gathering. *)
Lemma scatter_adjoint n_nodes nodes A (y : seq F) : size nodes = m ->
  all (fun i => i < n_nodes)%N nodes ->
  \sum_(d < (n_nodes * n)%N) nth 0 y d * scattered nodes A d = fdot (local_part nodes y) A.
Proof.
move=> hs ha; rewrite /scattered /fdot.
under eq_bigr do rewrite mulr_sumr.
rewrite exchange_big; apply: eq_bigr => k _.
under eq_bigr do rewrite mulr_sumr.
rewrite exchange_big; apply: eq_bigr => j _.
have hlt := node_lt k j hs ha.
rewrite (bigD1 (Ordinal hlt)) //= eqxx big1 ?addr0 ?mxE // => d.
by rewrite -val_eqE /= eq_sym => /negbTE ->; rewrite mulr0.
Qed.

Lemma global_dot n_nodes edges phi (x y : seq F) : valid_graph dim n_nodes edges ->
  \sum_(d < (n_nodes * n)%N) nth 0 y d * global_op edges phi x d =
  \sum_(e <- edges) fdot (local_part e.1 y) (phi e.2 (local_part e.1 x)).
Proof.
rewrite /global_op; under [LHS]eq_bigr do rewrite mulr_sumr.
rewrite exchange_big /=.
elim: edges => [|e edges IH] /=; first by rewrite !big_nil.
by move=> /andP[/andP[/eqP hs ha] hv]; rewrite !big_cons IH // scatter_adjoint.
Qed.

Lemma global_symmetric n_nodes edges phi (x y : seq F) : valid_graph dim n_nodes edges ->
  (forall e A B, fdot A (phi e B) = fdot B (phi e A)) ->
  \sum_(d < (n_nodes * n)%N) nth 0 y d * global_op edges phi x d =
  \sum_(d < (n_nodes * n)%N) nth 0 x d * global_op edges phi y d.
Proof. by move=> hv hs; rewrite !global_dot //; apply: eq_bigr => e _; rewrite hs. Qed.

Lemma global_nonpos n_nodes edges phi (x : seq F) : valid_graph dim n_nodes edges ->
  (forall e A, fdot A (phi e A) <= 0) ->
  \sum_(d < (n_nodes * n)%N) nth 0 x d * global_op edges phi x d <= 0.
Proof.
by move=> hv hs; rewrite global_dot // -oppr_ge0 -sumrN; apply: sumr_ge0 => e _; rewrite oppr_ge0.
Qed.

(** Zero energy only if every hyperedge has zero energy. *)
Lemma global_kernel n_nodes edges phi (x : seq F) : valid_graph dim n_nodes edges ->
  (forall e A, fdot A (phi e A) <= 0) ->
  \sum_(d < (n_nodes * n)%N) nth 0 x d * global_op edges phi x d = 0 ->
  all (fun e => fdot (local_part e.1 x) (phi e.2 (local_part e.1 x)) == 0) edges.
Proof.
move=> hv hs; rewrite global_dot // => h.
have {}h : \sum_(e <- edges) - fdot (local_part e.1 x) (phi e.2 (local_part e.1 x)) = 0.
  by rewrite sumrN h oppr0.
elim: edges h {hv} => [//|e l IH] /=; rewrite big_cons => /eqP.
rewrite paddr_eq0 ?oppr_ge0 ?hs //.
  by rewrite oppr_eq0 => /andP[-> /eqP /IH].
by apply: sumr_ge0 => e' _; rewrite oppr_ge0.
Qed.

Lemma global_affine edges phi psi (c : E -> 'M[F]_(m, n)) x d :
  (forall e A, psi e A = phi e A + c e) ->
  global_op edges psi x d = global_op edges phi x d + global_op edges (fun e _ => c e) x d.
Proof.
move=> h; rewrite /global_op -big_split; apply: eq_bigr => e _ /=.
by rewrite h scatteredD.
Qed.
End Algebra.

Lemma global_perm (F : realFieldType) (E : eqType) (dim n : nat) (edges edges' : seq (seq nat * E))
    (phi : E -> 'M[F]_((2 * dim), n) -> 'M[F]_((2 * dim), n)) (x : seq F) (d : nat) : perm_eq edges edges' ->
  global_op edges phi x d = global_op edges' phi x d.
Proof. by move=> h; rewrite /global_op (perm_big _ h). Qed.

(** ** Coordinate matrix *)
Section Coo.
Variables (F : realFieldType) (E : Type) (dim n : nat).
Local Notation m := (2 * dim)%N.
Local Notation edge := (seq nat * E)%type.

Lemma foro_sum (S : Type) K (body : nat -> S -> outcome S) (pos : S -> nat) (sum : S -> F)
    (I : S -> Prop) step (T : nat -> F) len :
  (forall k st, (k < K)%N -> I st -> (pos st + step <= len)%N -> exists st',
     [/\ body k st = Ok st', I st', pos st' = (pos st + step)%N & sum st' = sum st + T k]) ->
  forall st, I st -> (pos st + K * step <= len)%N -> exists st',
     [/\ foro K body st = Ok st', I st', pos st' = (pos st + K * step)%N &
         sum st' = sum st + \sum_(k < K) T k].
Proof.
elim: K => [|K IH] hb st hI hp.
  by exists st; split => //; rewrite ?mul0n ?addn0 // big_ord0 addr0.
have [|st1 [e1 I1 p1 s1]] := IH (fun k st hk => hb k st (ltnW hk)) st hI; first by rewrite mulSn in hp; lia.
have [|st2 [e2 I2 p2 s2]] := hb K st1 (leqnn _) I1; first by rewrite p1; rewrite mulSn in hp; lia.
exists st2; rewrite foroS e1 /= e2; split => //; first by rewrite p2 p1 mulSn; lia.
by rewrite s2 s1 big_ord_recr /= addrA.
Qed.

Variable G : nat -> nat -> F -> F.
Definition psum (st : coo F * nat) : F :=
  \sum_(t < st.2) G (nth 0%N (c_row st.1) t) (nth 0%N (c_col st.1) t) (nth 0 (c_val st.1) t).
Variable len : nat.
Definition sized (st : coo F * nat) : Prop :=
  [/\ size (c_row st.1) = len, size (c_col st.1) = len & size (c_val st.1) = len].

Lemma store_lt (T : Type) (x0 : T) (s : seq T) i v : (i < size s)%N ->
  exists s', [/\ store s i v = Ok s', size s' = size s & forall k, nth x0 s' k = if k == i then v else nth x0 s k].
Proof.
move=> hi; exists (upd s i v); split; first by rewrite /store /upd hi.
  by rewrite size_upd.
by move=> k; rewrite nth_upd hi andbT.
Qed.

Lemma emitE st r c v : sized st -> (st.2 < len)%N -> exists st',
  [/\ emit st r c v = Ok st', sized st', st'.2 = st.2.+1 & psum st' = psum st + G r c v].
Proof.
case: st => a pos [/= hr hc hv] hp.
have [|rr [er sr nr]] := @store_lt _ 0%N (c_row a) pos r; first by rewrite hr.
have [|cc [ec sc nc]] := @store_lt _ 0%N (c_col a) pos c; first by rewrite hc.
have [|vv [ev sv nv]] := @store_lt _ 0 (c_val a) pos v; first by rewrite hv.
exists (Coo rr cc vv, pos.+1); rewrite /emit er ec ev /=; split => //.
  by split; rewrite /= ?sr ?sc ?sv.
rewrite /psum /= big_ord_recr /= nr nc nv eqxx; congr (_ + _).
by apply: eq_bigr => t _; rewrite nr nc nv; have -> : (nat_of_ord t == pos) = false by have := ltn_ord t; lia.
Qed.

Lemma emit_columnE idx new nj dj st : size idx = m -> sized st -> (st.2 + m * n <= len)%N ->
  exists st', [/\ emit_column n idx new nj dj st = Ok st', sized st', st'.2 = (st.2 + m * n)%N &
   psum st' = psum st + \sum_(ni < m) \sum_(di < n)
     G (nth 0%N (nth [::] idx ni) di) (nth 0%N (nth [::] idx nj) dj) (nth 0 (nth [::] new ni) di)].
Proof.
move=> hi; rewrite /emit_column hi.
apply: (@foro_sum _ m _ snd psum sized n (fun ni => \sum_(di < n)
     G (nth 0%N (nth [::] idx ni) di) (nth 0%N (nth [::] idx nj) dj) (nth 0 (nth [::] new ni) di)) len).
move=> ni st' hni hs hp.
have := @foro_sum _ n (fun di st => emit st (nth 0%N (nth [::] idx ni) di) (nth 0%N (nth [::] idx nj) dj)
            (nth 0 (nth [::] new ni) di)) snd psum sized 1 (fun di =>
     G (nth 0%N (nth [::] idx ni) di) (nth 0%N (nth [::] idx nj) dj) (nth 0 (nth [::] new ni) di)) len.
rewrite muln1; apply => //.
move=> di st'' _ hs'' hp''; rewrite addn1 in hp''.
by have [s2 [e i1 p s]] := emitE (nth 0%N (nth [::] idx ni) di) (nth 0%N (nth [::] idx nj) dj)
            (nth 0 (nth [::] new ni) di) hs'' hp''; exists s2; rewrite addn1.
Qed.

(** Local arrays prepared for one column. *)
Lemma unit_dofsE nj dj old new : size old = m -> size new = m -> (nj < m)%N -> (dj < n)%N ->
  let: (o, w) := unit_dofs n m nj dj old new in
  [/\ @shaped F dim n o, w = nseq m (nseq n 0) & forall (k : 'I_m) (j : 'I_n), @dmx F dim n o k j = ((k == nj :> nat) && (j == dj :> nat))%:R].
Proof.
move=> ho hn hnj hdj; rewrite /unit_dofs.
have -> : for_ m (fun i st => (upd st.1 i (nseq n 0), upd st.2 i (nseq n 0))) (old, new) =
   (nseq m (nseq n (0 : F)), nseq m (nseq n (0 : F))).
  have H k : for_ k (fun i st => (upd st.1 i (nseq n 0), upd st.2 i (nseq n 0))) (old, new) =
     (for_ k (fun i s => upd s i (nseq n (0 : F))) old, for_ k (fun i s => upd s i (nseq n (0 : F))) new).
    by elim: k => [//|k IH]; rewrite !for_S IH.
  have Z s : size s = m -> for_ m (fun i s => upd s i (nseq n (0 : F))) s = nseq m (nseq n 0).
    move=> hs; apply: (@eq_from_nth _ [::]); rewrite (@size_for_assign _ _ id) hs ?size_nseq // => k hk.
    by rewrite (@nth_for_assign_in _ [::] m id (fun _ _ => nseq n 0)) ?hs // nth_nseq hk.
  by rewrite H !Z.
rewrite nth_nseq hnj; split => //.
- split; first by rewrite size_upd size_nseq.
  move=> k hk; rewrite nth_upd size_nseq hnj andbT nth_nseq hk.
  by case: eqP; rewrite ?size_upd size_nseq.
- move=> k j; rewrite mxE nth_upd size_nseq hnj andbT nth_nseq ltn_ord.
  case: eqP => [_|_] /=; last by rewrite nth_nseq ltn_ord.
  by rewrite nth_upd size_nseq hdj andbT; case: eqP => // _; rewrite nth_nseq ltn_ord.
Qed.

Variable phi : E -> 'M[F]_(m, n) -> 'M[F]_(m, n).
Variable f : local_fun F E.
Hypothesis fP : @computes F E dim n f phi.
Definition unit_mx (nj dj : nat) : 'M[F]_(m, n) := \matrix_(k, j) ((k == nj :> nat) && (j == dj :> nat))%:R.

Definition edge_sum (e : edge) : F := \sum_(nj < m) \sum_(dj < n) \sum_(ni < m) \sum_(di < n)
   G (nth 0%N e.1 ni * n + di) (nth 0%N e.1 nj * n + dj) (phi e.2 (unit_mx nj dj) ni di).

Definition minv (st : coo F * nat * (seq (seq F) * seq (seq F))) : Prop :=
  [/\ sized st.1, size st.2.1 = m & size st.2.2 = m].

Lemma mat_generate_edge (e : edge) st : size e.1 = m -> minv st -> (st.1.2 + m * (n * (m * n)) <= len)%N ->
  let idx := for_ (size e.1) (fun k s => upd s k (get_dof_indices n (nth 0%N e.1 k)))
                      (nseq (size e.1) [::]) in
  exists st', [/\ foro (size e.1) (fun nj st => foro n (fun dj st =>
        let: (a, on) := st in
        let: (old, new) := unit_dofs n (size e.1) nj dj on.1 on.2 in
        obind (f e.2 old new) (fun new' =>
        obind (emit_column n idx new' nj dj a) (fun a' => Ok (a', (old, new'))))) st) st = Ok st',
      minv st', st'.1.2 = (st.1.2 + m * (n * (m * n)))%N & psum st'.1 = psum st.1 + edge_sum e].
Proof.
move=> he hI hp idx.
have hidx : size idx = m by rewrite /idx (@size_for_assign _ _ id) size_nseq.
have nidx k : (k < m)%N -> nth [::] idx k = get_dof_indices n (nth 0%N e.1 k).
  move=> hk; rewrite /idx he (@nth_for_assign_in _ [::] m id (fun k _ => get_dof_indices n (nth 0%N e.1 k))) //.
  by rewrite size_nseq.
rewrite he.
apply: (@foro_sum _ m _ (fun st => st.1.2) (fun st => psum st.1) minv (n * (m * n))%N
  (fun nj => \sum_(dj < n) \sum_(ni < m) \sum_(di < n)
   G (nth 0%N e.1 ni * n + di) (nth 0%N e.1 nj * n + dj) (phi e.2 (unit_mx nj dj) ni di)) len) => //.
move=> nj st1 hnj h1 p1.
apply: (@foro_sum _ n _ (fun st => st.1.2) (fun st => psum st.1) minv (m * n)%N
  (fun dj => \sum_(ni < m) \sum_(di < n)
   G (nth 0%N e.1 ni * n + di) (nth 0%N e.1 nj * n + dj) (phi e.2 (unit_mx nj dj) ni di)) len) => //.
move=> dj [a [old new]] hdj [/= h2 so sn] p2.
have := unit_dofsE so sn hnj hdj; case: (unit_dofs _ _ _ _ _ _) => o w [sho -> uo].
have [new' [-> sh' d']] := fP e.2 sho (shaped_zero _ _ _) (dmx_zero _ _ _).
rewrite /=; have [a' [-> i3 p3 s3]] := emit_columnE new' nj dj hidx h2 p2.
exists (a', (o, new')); split => //.
  by split => //=; [case: sho | case: sh'].
rewrite /= s3; congr (_ + _); apply: eq_bigr => ni _; apply: eq_bigr => di _.
rewrite !nidx ?ltn_ord // !nth_dof_indices ?ltn_ord //; congr (G _ _ _).
have -> : unit_mx nj dj = @dmx F dim n o by apply/matrixP => k j; rewrite uo mxE.
by rewrite -d' mxE.
Qed.

Lemma mat_generate_sum edges st : (forall e, List.In e edges -> size e.1 = m) -> minv st ->
  (st.1.2 + size edges * (m * (n * (m * n))) <= len)%N ->
  exists st', [/\ foldo (fun e st =>
      let idx := for_ (size e.1) (fun k s => upd s k (get_dof_indices n (nth 0%N e.1 k)))
                      (nseq (size e.1) [::]) in
      foro (size e.1) (fun nj st => foro n (fun dj st =>
        let: (a, on) := st in
        let: (old, new) := unit_dofs n (size e.1) nj dj on.1 on.2 in
        obind (f e.2 old new) (fun new' =>
        obind (emit_column n idx new' nj dj a) (fun a' => Ok (a', (old, new'))))) st) st) st edges = Ok st',
      minv st', st'.1.2 = (st.1.2 + size edges * (m * (n * (m * n))))%N &
      psum st'.1 = psum st.1 + \sum_(e <- edges) edge_sum e].
Proof.
elim: edges st => [|e edges IH] st hs hI hp.
  by exists st; split => //; rewrite ?mul0n ?addn0 // big_nil addr0.
rewrite /= in hp *.
have [||st1 [-> i1 p1 s1]] := mat_generate_edge (e := e) (st := st) _ hI.
- by apply: hs; left.
- by move: hp; rewrite (mulSn (size edges)); lia.
rewrite /=; have [||st2 [-> i2 p2 s2]] := IH st1 _ i1.
- by move=> e' h; apply: hs; right.
- by move: hp; rewrite p1 (mulSn (size edges)); lia.
exists st2; split => //; first by rewrite p2 p1 (mulSn (size edges)); lia.
by rewrite s2 s1 big_cons addrA.
Qed.
End Coo.
