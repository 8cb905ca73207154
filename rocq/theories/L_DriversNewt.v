(** The extended system of the Newton drivers: a trace and an eigenvalue in one vector. *)
From mathcomp Require Import all_ssreflect all_algebra.
From mathcomp Require Import zify algebra_tactics.ring.
From Verif Require Import M_Base L_Base M_Index L_Index M_Global S_Global L_Global M_Drivers S_Drivers.
Set Implicit Arguments. Unset Strict Implicit. Unset Printing Implicit Defensive.
Import Order.TTheory GRing.Theory Num.Theory.
Local Open Scope ring_scope.

Section Tail.
Variables (F : realFieldType) (E : Type) (dim n n_nodes : nat).
Implicit Types (x t ax : seq F).
Lemma upd_tail (s : seq F) t i v : (i < size s)%N -> upd (s ++ t) i v = upd s i v ++ t.
Proof.
move=> h; rewrite /upd h size_cat (leq_trans h (leq_addr _ _)).
by elim: s i h => //= a s IH [|i] //= h; rewrite IH.
Qed.
Lemma add_tail (s : seq F) t i v : (i < size s)%N -> add_at (s ++ t) i v = add_at s i v ++ t.
Proof. by move=> h; rewrite /add_at upd_tail // nth_cat h. Qed.
Lemma in_range i x k : (i < n_nodes)%N -> size x = (n_nodes * n)%N -> (k < n)%N -> (i * n + k < size x)%N.
Proof.
move=> hi -> hk; have h : (i.+1 * n <= n_nodes * n)%N by rewrite leq_mul2r hi orbT.
by rewrite mulSn in h; lia.
Qed.
Lemma block i x : (i < n_nodes)%N -> size x = (n_nodes * n)%N -> (i * n + n <= size x)%N.
Proof. by move=> hi ->; rewrite -[X in (_ + X)%N]mul1n -mulnDl leq_mul2r addn1 hi orbT. Qed.
Lemma get_tail i x t : (i < n_nodes)%N -> size x = (n_nodes * n)%N -> get_dof_values n i (x ++ t) = get_dof_values n i x.
Proof.
move=> hi hx; rewrite /get_dof_values (block hi hx) size_cat (leq_trans (block hi hx) (leq_addr _ _)); congr Ok.
by apply: eq_for => k s hk; rewrite nth_cat (in_range hi hx hk).
Qed.
Lemma add_to_tail i x t v : (i < n_nodes)%N -> size x = (n_nodes * n)%N ->
  add_to_dof_values n i (x ++ t) v = omap (fun y => y ++ t) (add_to_dof_values n i x v).
Proof.
move=> hi hx; rewrite /add_to_dof_values (block hi hx) size_cat (leq_trans (block hi hx) (leq_addr _ _)).
case: ifP => //= _; congr Ok.
suff H k : (k <= n)%N -> for_ k (fun k x => add_at x (i * n + k) (nth 0 v k)) (x ++ t) =
    for_ k (fun k x => add_at x (i * n + k) (nth 0 v k)) x ++ t /\
    size (for_ k (fun k x => add_at x (i * n + k) (nth 0 v k)) x) = size x by case: (H _ (leqnn n)).
elim: k => [|k IH] hk; first by rewrite !for_0.
have [e1 e2] := IH (ltnW hk); rewrite !for_S e1 add_tail ?e2 ?size_add_at ?e2 //; exact: in_range.
Qed.
Lemma add_to_size i x v y : add_to_dof_values n i x v = Ok y -> size y = size x.
Proof.
rewrite /add_to_dof_values; case: ifP => // _ [<-].
elim: {1}n => [|k IH]; first by rewrite for_0.
by rewrite for_S size_add_at.
Qed.
Lemma gather_tail (ns : seq nat) x t old new : all (fun i => i < n_nodes)%N ns -> size x = (n_nodes * n)%N ->
  gather n ns (x ++ t) old new = gather n ns x old new.
Proof.
move=> /allP ha hx; rewrite /gather /foro; have : all (fun k => k < size ns)%N (iota 0 (size ns)).
  by apply/allP => k; rewrite mem_iota add0n.
elim: (iota 0 (size ns)) (old, new) => //= k l IH st /andP [hk hl].
rewrite get_tail // ?ha ?mem_nth //; case: (get_dof_values _ _ _) => //= v; exact: IH.
Qed.
Lemma gather2_tail (ns : seq nat) x t y t' old vals new : all (fun i => i < n_nodes)%N ns -> size x = (n_nodes * n)%N ->
  size y = (n_nodes * n)%N -> gather2 n ns (x ++ t) (y ++ t') old vals new = gather2 n ns x y old vals new.
Proof.
move=> /allP ha hx hy; rewrite /gather2 /foro; have : all (fun k => k < size ns)%N (iota 0 (size ns)).
  by apply/allP => k; rewrite mem_iota add0n.
elim: (iota 0 (size ns)) (old, vals, new) => //= k l IH [[o v] w] /andP [hk hl].
rewrite !get_tail // ?ha ?mem_nth //; case: (get_dof_values _ _ x) => //= a; case: (get_dof_values _ _ y) => //= b; exact: IH.
Qed.
Lemma scatter_tail (ns : seq nat) new ax t : all (fun i => i < n_nodes)%N ns -> size ax = (n_nodes * n)%N ->
  scatter_add n ns new (ax ++ t) = omap (fun y => y ++ t) (scatter_add n ns new ax) /\
  forall y, scatter_add n ns new ax = Ok y -> size y = size ax.
Proof.
move=> /allP ha; rewrite /scatter_add /foro; have : all (fun k => k < size ns)%N (iota 0 (size ns)).
  by apply/allP => k; rewrite mem_iota add0n.
elim: (iota 0 (size ns)) ax => /= [|k l IH] ax; first by move=> _ _; split=> // y [<-].
move=> /andP [hk hl] hx; rewrite add_to_tail ?ha ?mem_nth //.
case e: (add_to_dof_values _ _ _ _) => [y|||] //=; have sy := add_to_size e.
have [|h1 h2] := IH y hl; first by rewrite sy.
by split=> // z /h2 ->.
Qed.
Variable edges : seq (seq nat * E).
Hypothesis hv : valid_graph dim n_nodes edges.
Lemma mat_vec_tail junk (f : local_fun F E) x t : size x = (n_nodes * n)%N ->
  mat_vec n junk edges f (x ++ t) = omap (fun y => y ++ nseq (size t) 0) (mat_vec n junk edges f x).
Proof.
move=> hx; rewrite /mat_vec size_cat nseqD; have : size (nseq (size x) (0 : F)) = (n_nodes * n)%N by rewrite size_nseq.
move: (nseq (size x) _) (nseq (size t) _) => ax z; move: hv; rewrite /valid_graph.
pose body u (e : seq nat * E) (st : seq F * seq (seq F) * seq (seq F)) := let: (ax, old, new) := st in
  obind (gather n e.1 u old new) (fun on => obind (f e.2 on.1 on.2) (fun new' =>
  obind (scatter_add n e.1 new' ax) (fun ax' => Ok (ax', on.1, new')))).
suff H o1 o2 : valid_graph dim n_nodes edges -> size ax = (n_nodes * n)%N ->
    omap (fun st => st.1.1) (foldo (body (x ++ t)) (ax ++ z, o1, o2) edges) =
    omap (fun y => y ++ z) (omap (fun st => st.1.1) (foldo (body x) (ax, o1, o2) edges)) by exact: H.
rewrite /valid_graph; elim: edges ax o1 o2 => //= e l IH ax o1 o2 /andP [/andP [_ he] hl] hax.
rewrite gather_tail //; case: (gather _ _ _ _ _) => //= on; case: (f _ _ _) => //= new'.
have [h1 h2] := scatter_tail new' z he hax; rewrite h1; case e1: (scatter_add _ _ _ _) => [ax'|||] //=.
by apply: IH => //; rewrite (h2 _ e1).
Qed.
Lemma mat_vec2_tail junk (f : local_fun2 F E) x t y t' : size x = (n_nodes * n)%N -> size y = (n_nodes * n)%N ->
  mat_vec2 n junk edges f (x ++ t) (y ++ t') = omap (fun y => y ++ nseq (size t) 0) (mat_vec2 n junk edges f x y).
Proof.
move=> hx hy; rewrite /mat_vec2 size_cat nseqD; have : size (nseq (size x) (0 : F)) = (n_nodes * n)%N by rewrite size_nseq.
move: (nseq (size x) _) (nseq (size t) _) (junk, junk, junk) => ax z; move: hv; rewrite /valid_graph.
elim: edges ax => //= e l IH ax /andP [/andP [_ he] hl] [[o v] w] hax.
rewrite gather2_tail //; case: (gather2 _ _ _ _ _ _ _) => //= -[[o' v'] w']; case: (f _ _ _ _) => //= new'.
have [h1 h2] := scatter_tail new' z he hax; rewrite h1; case e1: (scatter_add _ _ _ _) => [ax'|||] //=.
by apply: IH => //; rewrite (h2 _ e1).
Qed.
Lemma mat_vec_size junk (f : local_fun F E) x y : size x = (n_nodes * n)%N ->
  mat_vec n junk edges f x = Ok y -> size y = size x.
Proof.
move=> hx; rewrite /mat_vec; have : size (nseq (size x) (0 : F)) = size x by rewrite size_nseq.
move: (nseq (size x) _) => ax.
pose body (e : seq nat * E) (st : seq F * seq (seq F) * seq (seq F)) := let: (ax, old, new) := st in
  obind (gather n e.1 x old new) (fun on => obind (f e.2 on.1 on.2) (fun new' =>
  obind (scatter_add n e.1 new' ax) (fun ax' => Ok (ax', on.1, new')))).
suff H o1 o2 : valid_graph dim n_nodes edges -> size ax = size x ->
    omap (fun st => st.1.1) (foldo body (ax, o1, o2) edges) = Ok y -> size y = size x by exact: H.
rewrite /valid_graph; elim: edges ax o1 o2 => /= [|e l IH] ax o1 o2; first by move=> _ h [<-].
move=> /andP [/andP [_ he] hl] hax.
case: (gather _ _ _ _ _) => //= on; case: (f _ _ _) => //= new'.
have [|_ h2] := scatter_tail new' [::] he (_ : size ax = _); first by rewrite hax.
case e1: (scatter_add _ _ _ _) => [ax'|||] //=; apply: IH => //; by rewrite (h2 _ e1).
Qed.
Lemma mat_vec2_size junk (f : local_fun2 F E) x y z : size x = (n_nodes * n)%N ->
  mat_vec2 n junk edges f x y = Ok z -> size z = size x.
Proof.
move=> hx; rewrite /mat_vec2; have : size (nseq (size x) (0 : F)) = size x by rewrite size_nseq.
move: (nseq (size x) _) (junk, junk, junk) => ax; move: hv; rewrite /valid_graph.
elim: edges ax => /= [|e l IH] ax; first by move=> _ st h [<-].
move=> /andP [/andP [_ he] hl] [[o v] w] hax.
case: (gather2 _ _ _ _ _ _ _) => //= -[[o' v'] w']; case: (f _ _ _ _) => //= new'.
have [|_ h2] := scatter_tail new' [::] he (_ : size ax = _); first by rewrite hax.
case e1: (scatter_add _ _ _ _) => [ax'|||] //=; apply: IH => //; by rewrite (h2 _ e1).
Qed.
End Tail.

Section Ext.
Variables (F : realFieldType) (norm : seq F -> F) (N : nat).
Variables (fl : seq F -> F -> outcome (seq F)) (jc : seq F -> F -> seq F -> F -> outcome (seq F)).
Hypothesis hnorm : forall v, norm v ^+ 2 = dot (size v) v v.
Hypothesis fl_ext : forall x e a, size x = N -> fl (rcons x a) e = omap (fun r => rcons r 0) (fl x e).
Hypothesis jc_ext : forall y e x mu a b, size y = N -> size x = N ->
  jc (rcons y a) e (rcons x b) mu = omap (fun r => rcons r 0) (jc y e x mu).
Implicit Types (x y : seq F).
Lemma last_rcons x e : last_of (rcons x e) = e.
Proof. by rewrite /last_of size_rcons nth_rcons ltnn eqxx. Qed.
Lemma set_rcons x e a : set_last (rcons x e) a = rcons x a.
Proof.
rewrite /set_last /upd size_rcons ltnSn /=; elim: x => //= b x IH.
by rewrite IH.
Qed.
Lemma dot_rcons x y a : size x = N -> dot N.+1 (rcons x a) (rcons y 0) = dot N x y + a * nth 0 (rcons y 0) N.
Proof.
move=> hx; rewrite /dot big_ord_recr /= nth_rcons hx ltnn eqxx; congr (_ + _).
apply: eq_bigr => i _; rewrite nth_rcons hx ltn_ord; congr (_ * _); rewrite nth_rcons.
by case: ltnP => // h; rewrite nth_default //; case: eqP.
Qed.
Lemma last0 y : nth 0 (rcons y 0) N = nth 0 y N.
Proof. by rewrite nth_rcons; case: ltnP => // h; rewrite [RHS]nth_default //; case: eqP. Qed.
Lemma eval_residualE x e : size x = N -> eval_residual norm fl (rcons x e) = omap (fun r => rcons r (dot N x x - 1)) (fl x e).
Proof.
move=> hx; rewrite /eval_residual last_rcons fl_ext //; case: (fl x e) => //= r.
rewrite !set_rcons hnorm size_rcons hx dot_rcons // mul0r addr0 //.
Qed.
Lemma eval_jacobianE x mu y e : size x = N -> size y = N ->
  eval_jacobian jc (rcons x mu) (rcons y e) = omap (fun r => rcons r (2%:R * dot N y x)) (jc y e x mu).
Proof.
move=> hx hy; rewrite /eval_jacobian !last_rcons jc_ext //; case: (jc _ _ _ _) => //= r.
rewrite !set_rcons; congr (Ok (rcons _ (_ * _))).
rewrite -[np_dot _ _]/(dot (size (rcons y e)) _ _) size_rcons hy dot_rcons // last0 nth_default ?mulr0 ?addr0 // hx //.
Qed.
Lemma ext_zeros x e : size x = N ->
  eval_residual norm fl (rcons x e) = Ok (nseq N.+1 0) <-> fl x e = Ok (nseq N 0) /\ dot N x x = 1.
Proof.
move=> hx; rewrite eval_residualE //.
have -> : nseq N.+1 (0 : F) = rcons (nseq N 0) 0 by elim: N => //= k <-.
case: (fl x e) => [r|||] /=; [| by split=> // -[] ..]; split=> [[] /rcons_inj [-> /eqP]|[[->] ->]]; last by rewrite subrr.
by rewrite subr_eq0 => /eqP.
Qed.
Lemma axpy_rcons t y e x mu : size x = N -> size y = N ->
  axpy t (rcons y e) (rcons x mu) = rcons (axpy t y x) (mu + t * e).
Proof.
move=> hx hy; rewrite /axpy size_rcons hy -addn1 iotaD map_cat add0n cats1 /= !nth_rcons hx hy ltnn eqxx [t * e + _]addrC.
congr rcons; apply/eq_in_map => i; rewrite mem_iota add0n => /andP [_ hi]; by rewrite !nth_rcons hx hy hi.
Qed.
Lemma dot_axpy t x y : size x = N -> size y = N ->
  dot N (axpy t y x) (axpy t y x) = dot N x x + t * (2%:R * dot N y x) + t ^+ 2 * dot N y y.
Proof.
move=> hx hy; rewrite /dot !mulr_sumr -!big_split /=; apply: eq_bigr => i _.
rewrite /axpy (nth_map 0%N) ?size_iota ?hy // nth_iota // add0n.
move: (nth 0 x i) (nth 0 y i) => a b; ring.
Qed.
(** If jc is the derivative of fl, the extended Jacobian is that of the extended residual. *)
Lemma ext_derivative (ok : F -> Prop) x y mu e : size x = N -> size y = N ->
  (exists K delta r j, [/\ 0 < delta, fl x mu = Ok r, jc y e x mu = Ok j & size r = N /\ size j = N /\ forall t, `|t| <= delta ->
    ok (mu + t * e) /\ exists rt, fl (axpy t y x) (mu + t * e) = Ok rt /\ size rt = N /\
    forall d, `|nth 0 rt d - nth 0 r d - t * nth 0 j d| <= K * t ^+ 2]) ->
  exists K delta r j, [/\ 0 < delta, eval_residual norm fl (rcons x mu) = Ok r,
    eval_jacobian jc (rcons x mu) (rcons y e) = Ok j & forall t, `|t| <= delta ->
    ok (mu + t * e) /\ exists rt, eval_residual norm fl (axpy t (rcons y e) (rcons x mu)) = Ok rt /\
    forall d, `|nth 0 rt d - nth 0 r d - t * nth 0 j d| <= K * t ^+ 2].
Proof.
move=> hx hy [K [delta [r [j [d0 er ej [sr [sj H]]]]]]].
exists (`|K| + dot N y y), delta, (rcons r (dot N x x - 1)), (rcons j (2%:R * dot N y x)).
rewrite eval_residualE // eval_jacobianE // er ej /=; split=> // t ht.
have [h1 [rt [h2 [st h3]]]] := H t ht; split=> //.
exists (rcons rt (dot N (axpy t y x) (axpy t y x) - 1)); split.
  by rewrite axpy_rcons // eval_residualE ?h2 // /axpy size_map size_iota.
have y0 : 0 <= dot N y y by apply: sumr_ge0 => i _; rewrite -expr2 sqr_ge0.
move=> d; rewrite !nth_rcons st sr sj; case: ltnP => hd.
  apply: (le_trans (h3 d)); rewrite ler_wpmul2r ?sqr_ge0 //.
  by rewrite (le_trans (ler_norm K)) // ler_addl.
case: eqP => _; last by rewrite mulr0 !subr0 normr0 mulr_ge0 ?sqr_ge0 ?addr_ge0.
rewrite dot_axpy //; set a := dot N x x; set b := t * _; set c := dot N y y.
have -> : a + b + t ^+ 2 * c - 1 - (a - 1) - b = c * t ^+ 2 by ring.
have p0 : 0 <= c * t ^+ 2 by rewrite mulr_ge0 // sqr_ge0.
by rewrite (ger0_norm p0) mulrDl ler_addr mulr_ge0 ?sqr_ge0.
Qed.
End Ext.
