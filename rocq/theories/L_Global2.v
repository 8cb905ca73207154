(** Proofs about M_Global, second part: coordinate matrix, Dirichlet indices, errors, data. *)
From mathcomp Require Import all_ssreflect all_algebra zify.
From Verif Require Import M_Base L_Base M_Index S_Index L_Index M_Global S_Global L_Global.
Set Implicit Arguments. Unset Strict Implicit. Unset Printing Implicit Defensive.
Import Order.TTheory GRing.Theory Num.Theory.
Local Open Scope ring_scope.

Section Mat.
Variables (F : realFieldType) (E : Type) (dim n : nat).
Local Notation m := (2 * dim)%N.
Local Notation edge := (seq nat * E)%type.
Variable phi : E -> 'M[F]_(m, n) -> 'M[F]_(m, n).

Lemma valid_size n_nodes (edges : seq edge) : valid_graph dim n_nodes edges ->
  forall e, List.In e edges -> size e.1 = m.
Proof.
elim: edges => [//|e l IH] /= /andP[/andP[/eqP h _] hv] e' [<-//|]; exact: IH.
Qed.

Lemma local_linear0 e : local_linear phi -> phi e 0 = 0.
Proof.
move=> h; have := h e 1 0 0; rewrite !scale1r addr0 => /eqP.
by rewrite -subr_eq0 opprD addrA subrr sub0r oppr_eq0 => /eqP.
Qed.
Lemma local_linear_sum e (I : Type) (r : seq I) (a : I -> F) (U : I -> 'M[F]_(m, n)) : local_linear phi ->
  phi e (\sum_(i <- r) a i *: U i) = \sum_(i <- r) a i *: phi e (U i).
Proof.
move=> h; elim: r => [|i r IH]; first by rewrite !big_nil local_linear0.
by rewrite !big_cons h IH.
Qed.
Lemma unit_sum (D : 'M[F]_(m, n)) :
  D = \sum_(k < m) \sum_(j < n) D k j *: unit_mx F dim n k j.
Proof.
apply/matrixP => k j; rewrite summxE (bigD1 k) //= summxE (bigD1 j) //= !mxE !eqxx mulr1.
rewrite big1 ?addr0; last first.
  move=> j' ne; rewrite !mxE eqxx /=; have -> : (j == j' :> nat) = false; last by rewrite mulr0.
  by apply/negbTE; rewrite eq_sym.
rewrite big1 ?addr0 // => k' ne; rewrite summxE big1 // => j' _; rewrite !mxE.
by have -> : (k == k' :> nat) = false; [apply/negbTE; rewrite eq_sym | rewrite mulr0].
Qed.

Lemma edge_sum_op (e : edge) (x : seq F) d : local_linear phi ->
  edge_sum (fun r c v => if r == d then v * nth 0 x c else 0) phi e =
  scattered e.1 (phi e.2 (local_part dim n e.1 x)) d.
Proof.
move=> hl; rewrite {1}[local_part dim n e.1 x]unit_sum pair_big /=.
rewrite (local_linear_sum e.2 _ (fun p : 'I_m * 'I_n => local_part dim n e.1 x p.1 p.2)
   (fun p => unit_mx F dim n p.1 p.2)) //.
rewrite /edge_sum pair_big /= /scattered [RHS]pair_big /=.
under eq_bigr do rewrite pair_big /=.
rewrite exchange_big /=; apply: eq_bigr => -[ni di] _ /=.
case: ifP => h; last by rewrite big1.
rewrite summxE; apply: eq_bigr => -[nj dj] _ /=.
by rewrite !mxE mulrC.
Qed.

Variable f : local_fun F E.
Hypothesis fP : @computes F E dim n f phi.

Lemma mat_generateE (G : nat -> nat -> F -> F) n_nodes (edges : seq edge) junk :
  valid_graph dim n_nodes edges -> size junk = m ->
  exists A, [/\ mat_generate dim n junk edges f = Ok A,
    let len := (size edges * (m * n * (m * n)))%N in
    [/\ size (c_row A) = len, size (c_col A) = len & size (c_val A) = len] &
    \sum_(t < size (c_val A)) G (nth 0%N (c_row A) t) (nth 0%N (c_col A) t) (nth 0 (c_val A) t) =
    \sum_(e <- edges) edge_sum G phi e].
Proof.
move=> hv hj; rewrite /mat_generate.
set len := (size edges * 4 * dim * dim * n * n)%N.
have hlen : len = (size edges * (m * (n * (m * n))))%N by rewrite /len; lia.
have [|||st [-> [[h1 h2 h3] _ _] p s]] :=
  @mat_generate_sum F E dim n G len phi f fP edges
    ((Coo (nseq len 0%N) (nseq len 0%N) (nseq len 0), 0%N), (junk, junk)).
- exact: valid_size hv.
- by split => //; split; rewrite /= size_nseq.
- by rewrite /= add0n hlen.
exists st.1.1; split => //.
  by split; rewrite ?h1 ?h2 ?h3 hlen; lia.
move: s; rewrite /psum p /= big_ord0 !add0r -hlen h3.
by move=> <-.
Qed.

Lemma mat_is_op n_nodes (edges : seq edge) junk : valid_graph dim n_nodes edges -> size junk = m ->
  local_linear phi -> exists A, mat_generate dim n junk edges f = Ok A /\
  forall x d, coo_times A x d = global_op edges phi x d.
Proof.
move=> hv hj hl.
have [A [e _ _]] := mat_generateE (fun _ _ _ => 0) hv hj; exists A; split => // x d.
have [B [e' _ s]] := mat_generateE (fun r c v => if r == d then v * nth 0 x c else 0) hv hj.
move: e'; rewrite e => -[eAB]; rewrite -eAB in s.
rewrite /coo_times s /global_op; apply: eq_bigr => ed _; exact: edge_sum_op.
Qed.

Lemma mat_range n_nodes (edges : seq edge) junk : valid_graph dim n_nodes edges -> size junk = m ->
  exists A, [/\ mat_generate dim n junk edges f = Ok A,
    [/\ size (c_row A) = size (c_val A), size (c_col A) = size (c_val A) &
        size (c_val A) = (size edges * (m * n * (m * n)))%N] &
    forall t, (t < size (c_val A))%N ->
      (nth 0 (c_row A) t < n_nodes * n)%N /\ (nth 0 (c_col A) t < n_nodes * n)%N].
Proof.
move=> hv hj; pose ok r c := (r < n_nodes * n)%N && (c < n_nodes * n)%N.
have [A [e [h1 h2 h3] s]] := mat_generateE (fun r c _ => (~~ ok r c)%:R) hv hj.
exists A; split => //; first by rewrite h1 h2 h3.
have s0 : \sum_(ed <- edges) edge_sum (F := F) (fun r c _ => (~~ ok r c)%:R) phi ed = 0.
  elim: edges hv {s e h1 h2 h3} => [|ed l IH] /=; first by rewrite big_nil.
  move=> /andP[/andP[/eqP hs ha] hv]; rewrite big_cons IH // addr0 /edge_sum.
  rewrite big1 // => nj _; rewrite big1 // => dj _; rewrite big1 // => ni _; rewrite big1 // => di _.
  by rewrite /ok !(node_lt _ _ hs ha).
rewrite s0 in s => t ht.
have := @psumr_eq0P _ _ xpredT (fun t : 'I_(size (c_val A)) => (~~ ok (nth 0%N (c_row A) t) (nth 0%N (c_col A) t))%:R : F).
move=> /(_ (fun _ _ => ler0n _ _) s (Ordinal ht) isT) /= /eqP.
by rewrite pnatr_eq0 eqb0 negbK => /andP.
Qed.
End Mat.

(** ** Dirichlet indices *)
Lemma unique_after_mem x s : path leq x s -> x :: unique_after x s =i x :: s.
Proof.
elim: s x => [//|y s IH] x /= /andP[hxy hp]; case: eqP => [e|ne] z.
  by subst y; rewrite IH // !inE orbA orbb.
by have := IH y hp z; rewrite !inE => ->.
Qed.
Lemma unique_after_sorted x s : path leq x s -> path ltn x (unique_after x s).
Proof.
elim: s x => [//|y s IH] x /= /andP[hxy hp]; case: eqP => [e|ne]; first by subst y; apply: IH.
rewrite /= IH // andbT; lia.
Qed.
Lemma std_unique_mem s : sorted leq s -> std_unique s =i s.
Proof. by case: s => [//|x s] /= h; exact: unique_after_mem. Qed.
Lemma std_unique_sorted s : sorted leq s -> sorted ltn (std_unique s).
Proof. by case: s => [//|x s] /= h; exact: unique_after_sorted. Qed.
Lemma sort_unique_mem s : std_unique (sort leq s) =i s.
Proof. by move=> z; rewrite std_unique_mem ?mem_sort //; apply: sort_sorted; exact: leq_total. Qed.
Lemma sort_unique_sorted s : sorted ltn (std_unique (sort leq s)).
Proof. by apply: std_unique_sorted; apply: sort_sorted; exact: leq_total. Qed.

Lemma read_dirichletE N l : all (fun i => i < N)%N l ->
  read_dirichlet_indices N l = Ok (std_unique (sort leq l)).
Proof.
move=> ha; rewrite /read_dirichlet_indices.
suff H k : (k <= size l)%N -> exists d, [/\ foro k (fun i d =>
     if (nth 0%N l i < N)%N then Ok (upd d i (nth 0%N l i)) else Abort) (nseq (size l) 0%N) = Ok d,
     size d = size l & forall i, (i < k)%N -> nth 0%N d i = nth 0%N l i].
  have [d [-> hs hn]] := H _ (leqnn _); rewrite /omap /=; congr (Ok (std_unique (sort _ _))).
  by apply: (@eq_from_nth _ 0%N); rewrite hs.
elim: k => [|k IH] hk; first by exists (nseq (size l) 0%N); rewrite size_nseq.
have [d [e hs hn]] := IH (ltnW hk); rewrite foroS e /=.
have -> : (nth 0 l k < N)%N by apply: (allP ha); apply: mem_nth.
eexists; split; first by []; rewrite ?size_upd // => i hi.
by rewrite nth_upd hs hk andbT; case: eqP => [->//|ne]; apply: hn; lia.
Qed.
Lemma foldo_split (S I : Type) (f : I -> S -> outcome S) s l1 i l2 :
  foldo f s (l1 ++ i :: l2) = obind (foldo f s l1) (fun s' => obind (f i s') (fun s'' => foldo f s'' l2)).
Proof. by rewrite foldo_cat. Qed.
Lemma read_dirichlet_abort N l : ~~ all (fun i => i < N)%N l -> read_dirichlet_indices N l = Abort.
Proof.
move=> /allPn [i hi hN]; rewrite /read_dirichlet_indices.
have hk : (index i l < size l)%N by rewrite index_mem.
suff H k : (index i l < k)%N -> foro k (fun i d =>
     if (nth 0%N l i < N)%N then Ok (upd d i (nth 0%N l i)) else Abort) (nseq (size l) 0%N) = Abort.
  by rewrite H.
elim: k => [//|k IH] hlt; rewrite foroS.
case: (eqVneq (index i l) k) => [e|ne]; last by rewrite IH //; lia.
rewrite -{2}e nth_index // (negbTE hN).
have H d : foro k (fun i d =>
     if (nth 0%N l i < N)%N then Ok (upd d i (nth 0%N l i)) else Abort) d <> Throw /\ foro k (fun i d =>
     if (nth 0%N l i < N)%N then Ok (upd d i (nth 0%N l i)) else Abort) d <> UB.
  by elim: (k) => [//|k' [h1 h2]]; rewrite foroS; case: (foro _ _ _) h1 h2 => //= a _ _; case: ifP.
by have := H (nseq (size l) 0%N); case: (foro _ _ _) => //= -[].
Qed.

Section Zero.
Variable F : realFieldType.
Lemma zero_rowsE N (dir : seq nat) (y : seq F) : all (fun i => i < N)%N dir -> (N <= size y)%N ->
  exists z, [/\ zero_rows N dir y = Ok z, size z = size y &
    forall d, nth 0 z d = if d \in dir then 0 else nth 0 y d].
Proof.
move=> ha hN; rewrite /zero_rows.
suff H k : (k <= size dir)%N -> exists z, [/\ foro k (fun i y =>
    if (nth 0%N dir i < N)%N then store y (nth 0%N dir i) 0 else Abort) y = Ok z, size z = size y &
    forall d, nth 0 z d = if d \in take k dir then 0 else nth 0 y d].
  by have [z [e hs hn]] := H _ (leqnn _); exists z; split => // d; rewrite hn take_size.
elim: k => [|k IH] hk; first by exists y; split => // d; rewrite take0 in_nil.
have [z [e hs hn]] := IH (ltnW hk); rewrite foroS e /=.
have hlt : (nth 0 dir k < N)%N by apply: (allP ha); apply: mem_nth.
rewrite hlt; have [|z' [e' hs' hn']] := @store_lt F 0 z (nth 0%N dir k) 0.
  by rewrite hs (leq_trans hlt).
exists z'; split => //; first by rewrite hs'.
move=> d; rewrite hn' hn (take_nth 0%N hk) mem_rcons inE.
by case: eqP.
Qed.
End Zero.

(** ** Errors *)
Section Errors.
Variables (F : realFieldType) (E : Type) (dim n w : nat).
Local Notation m := (2 * dim)%N.
Local Notation edge := (seq nat * E)%type.

Lemma sum_errorE (s e : seq F) : size e = size s ->
  sum_error s e = [seq nth 0 s k + nth 0 e k | k <- iota 0 (size s)].
Proof.
move=> he; rewrite /sum_error.
suff H j : (j <= size s)%N -> let t := for_ j (fun k s => add_at s k (nth 0 e k)) s in
   size t = size s /\ forall k, nth 0 t k = nth 0 s k + (if (k < j)%N then nth 0 e k else 0).
  have [h1 h2] := H _ (leqnn _); apply: (@eq_from_nth _ 0); rewrite h1 ?size_map ?size_iota // => k hk.
  by rewrite h2 hk (nth_map 0%N) ?size_iota // nth_iota.
elim: j => [|j IH] hj; first by split => // k; rewrite for_0 addr0.
have [h1 h2] := IH (ltnW hj); rewrite for_S; split; first by rewrite size_add_at.
move=> k; rewrite nth_add_at h1 hj andbT h2; case: (eqVneq k j) => [->|ne].
  by rewrite ltnn addr0 leqnn.
by rewrite addr0 [(k < j.+1)%N]ltnS [(k <= j)%N]leq_eqVlt (negbTE ne).
Qed.

Lemma postprocessE sq (s : seq F) : postprocess_error sq s = map sq s.
Proof.
rewrite /postprocess_error.
suff H j : (j <= size s)%N -> let t := for_ j (fun k s => upd s k (sq (nth 0 s k))) s in
   size t = size s /\ forall k, nth 0 t k = if (k < j)%N then sq (nth 0 s k) else nth 0 s k.
  have [h1 h2] := H _ (leqnn _); apply: (@eq_from_nth _ 0); rewrite h1 ?size_map // => k hk.
  by rewrite h2 hk (nth_map 0).
elim: j => [|j IH] hj; first by [].
have [h1 h2] := IH (ltnW hj); rewrite for_S; split; first by rewrite size_upd.
move=> k; rewrite nth_upd h1 hj andbT !h2; case: (eqVneq k j) => [->|ne].
  by rewrite ltnn leqnn.
by rewrite [(k < j.+1)%N]ltnS [(k <= j)%N]leq_eqVlt (negbTE ne).
Qed.

Lemma gather_dofs n_nodes nodes x (dofs : seq (seq F)) : size x = (n_nodes * n)%N -> size nodes = m ->
  all (fun i => i < n_nodes)%N nodes -> size dofs = m ->
  foro (size nodes) (fun k dofs => obind (get_dof_values n (nth 0%N nodes k) x) (fun v =>
               Ok (upd dofs k v))) dofs = Ok [seq node_vals n i x | i <- nodes].
Proof.
move=> hx hs ha hd; rewrite hs.
suff H k : (k <= m)%N -> exists st, [/\ foro k (fun k dofs =>
     obind (get_dof_values n (nth 0%N nodes k) x) (fun v => Ok (upd dofs k v))) dofs = Ok st,
    size st = m & forall l, (l < k)%N -> nth [::] st l = node_vals n (nth 0%N nodes l) x].
  have [o [-> h1 h2]] := H m (leqnn m); congr Ok.
  apply: (@eq_from_nth _ [::]); rewrite ?size_map h1 // => l hl.
  by rewrite (nth_map 0%N) ?hs // h2.
elim: k => [|k IH] hk; first by exists dofs.
have [o [e h1 h2]] := IH (ltnW hk); rewrite foroS e /=.
rewrite (get_vals hx) /=; last by apply: (allP ha); apply: mem_nth; rewrite hs.
eexists; split; first by []; rewrite ?size_upd // => l hl.
by rewrite nth_upd h1 hk andbT; case: eqP => [->//|ne]; apply: h2; lia.
Qed.


Lemma errorsE n_nodes (edges : seq edge) x junk sq f err : size x = (n_nodes * n)%N ->
  valid_graph dim n_nodes edges -> size junk = m -> @err_computes F E dim n w f err ->
  errors n w sq junk edges f x =
    Ok [seq sq (\sum_(e <- edges) err e.2 (local_part dim n e.1 x) k) | k <- iota 0 w].
Proof.
move=> hx hv hj hf; rewrite /errors.
suff H res dofs : size res = w -> size dofs = m -> exists st, [/\
   foldo (fun e st => let: (res, dofs) := st in
      obind (foro (size e.1) (fun k dofs => obind (get_dof_values n (nth 0%N e.1 k) x) (fun v =>
               Ok (upd dofs k v))) dofs) (fun dofs =>
      obind (f e.2 dofs) (fun err => Ok (sum_error res err, dofs))))
    (res, dofs) edges = Ok st, size st.1 = w &
    forall k, (k < w)%N -> nth 0 st.1 k = nth 0 res k + \sum_(e <- edges) err e.2 (local_part dim n e.1 x) k].
  have [st [-> h1 h2]] := H (initial_error F w) junk (size_nseq _ _) hj.
  rewrite /omap /= postprocessE; congr Ok; apply: (@eq_from_nth _ 0); rewrite !size_map ?size_iota // => k.
  rewrite h1 => hk; rewrite (nth_map 0) ?h1 // (nth_map 0%N) ?size_iota // nth_iota // h2 //.
  by rewrite nth_nseq hk add0r.
elim: edges hv res dofs => [_|e l IH] /=.
  by move=> res dofs h1 h2; exists (res, dofs); split => // k _; rewrite big_nil addr0.
move=> /andP[/andP[/eqP hs ha] hv] res dofs h1 h2.
rewrite (gather_dofs hx) //=.
have [v [-> hsv hnv]] := hf e.2 _ (shaped_vals n x hs).
rewrite /=; have [||st [-> h3 h4]] := IH hv (sum_error res v) [seq node_vals n i x | i <- e.1].
- by rewrite sum_errorE ?size_map ?size_iota // h1.
- by rewrite size_map.
exists st; split => // k hk; rewrite h4 // sum_errorE ?hsv // h1 (nth_map 0%N) ?size_iota // nth_iota //.
by rewrite big_cons hnv // dmx_vals // addrA add0n.
Qed.

(** Data container *)
Lemma set_dataE (D : Type) (d0 : D) n_nodes (edges : seq edge) x junk
    (f : E -> seq (seq F) -> D -> outcome D) (g : E -> 'M[F]_(m, n) -> D -> D) (data : seq D) :
  size x = (n_nodes * n)%N -> valid_graph dim n_nodes edges -> size junk = m ->
  (forall e dofs d, @shaped F dim n dofs -> f e dofs d = Ok (g e (@dmx F dim n dofs) d)) ->
  (size edges <= size data)%N ->
  exists data', [/\ set_data n junk edges f x data = Ok data', size data' = size data &
    forall i e0, nth d0 data' i = if (i < size edges)%N
      then g (nth e0 edges i).2 (local_part dim n (nth e0 edges i).1 x) (nth d0 data i) else nth d0 data i].
Proof.
move=> hx hv hj hf hd; rewrite /set_data.
case: edges hv hd => [|ed0 edges0]; first by move=> _ _; exists data.
set edges := ed0 :: edges0 => hv hd.
suff H k : (k <= size edges)%N -> exists st, [/\ foro k (fun i st => let: (data, dofs) := st in
      obind (load edges i) (fun e =>
      obind (foro (size e.1) (fun k dofs => obind (get_dof_values n (nth 0%N e.1 k) x) (fun v =>
               Ok (upd dofs k v))) dofs) (fun dofs =>
      if (i < size data)%N then
        obind (load data i) (fun d => obind (f e.2 dofs d) (fun d' =>
        obind (store data i d') (fun data' => Ok (data', dofs))))
      else Abort))) (data, junk) = Ok st, size st.1 = size data, size st.2 = m &
    forall i, nth d0 st.1 i = if (i < k)%N
      then g (nth ed0 edges i).2 (local_part dim n (nth ed0 edges i).1 x) (nth d0 data i) else nth d0 data i].
  have [st [-> h1 h2 h3]] := H _ (leqnn _); exists st.1; split => // i e0.
  by rewrite h3; case: ifP => // hi; rewrite (set_nth_default ed0).
elim: k => [|k IH] hk; first by exists (data, junk).
have [[dt dofs] [e h1 h2 h3]] := IH (ltnW hk); rewrite foroS e /= (loadE ed0) hk /=.
have hin : (size (nth ed0 edges k).1 == m) && all (fun i => i < n_nodes)%N (nth ed0 edges k).1.
  by have := all_nthP ed0 hv k hk.
case/andP: hin => /eqP hs ha.
rewrite (gather_dofs hx) //= h1 (leq_trans hk hd) (loadE d0) h1 (leq_trans hk hd) /=.
rewrite hf /=; last exact: shaped_vals.
have [|dt' [-> s' n']] := @store_lt D d0 dt k (g (nth ed0 edges k).2 (dmx dim n [seq node_vals n i x | i <- (nth ed0 edges k).1]) (nth d0 dt k)).
  by rewrite h1 (leq_trans hk hd).
eexists; split; first by []; rewrite /= ?s' ?size_map //.
move=> i; rewrite n' h3 dmx_vals // h3 ltnn; case: (eqVneq i k) => [->|ne]; first by rewrite leqnn.
by rewrite [(i < k.+1)%N]ltnS [(i <= k)%N]leq_eqVlt (negbTE ne).
Qed.
End Errors.

(** ** make_initial, jacobian, elliptic loops *)
Section Initial.
Variables (F : realFieldType) (E : Type) (dim n : nat).
Local Notation m := (2 * dim)%N.
Local Notation edge := (seq nat * E)%type.

Lemma zeroed (l : nat) (dofs : seq (seq F)) : size dofs = l ->
  for_ l (fun k d => upd d k (nseq n 0)) dofs = nseq l (nseq n 0).
Proof.
move=> hs; suff H k : (k <= l)%N -> let t := for_ k (fun k d => upd d k (nseq n 0)) dofs in
   size t = l /\ forall i, (i < k)%N -> nth [::] t i = nseq n 0.
  have [h1 h2] := H _ (leqnn _); apply: (@eq_from_nth _ [::]); rewrite h1 ?size_nseq // => i hi.
  by rewrite h2 // nth_nseq hi.
elim: k => [|k IH] hk; first by [].
have [h1 h2] := IH (ltnW hk); rewrite for_S; split; first by rewrite size_upd.
by move=> i hi; rewrite nth_upd h1 hk andbT; case: eqP => // ne; apply: h2; lia.
Qed.


Lemma set_nodes n_nodes nodes new (ax : seq F) (g : nat -> F) : size ax = (n_nodes * n)%N -> size nodes = m ->
  all (fun i => i < n_nodes)%N nodes -> @shaped F dim n new ->
  (forall (k : 'I_m) (j : 'I_n), @dmx F dim n new k j = g (nth 0 nodes k * n + j)%N) ->
  exists ay, [/\ foro (size nodes) (fun k ax => set_dof_values n (nth 0%N nodes k) ax (nth [::] new k)) ax = Ok ay,
    size ay = size ax & forall d, (d < n_nodes * n)%N ->
       nth 0 ay d = if (d %/ n)%N \in nodes then g d else nth 0 ax d].
Proof.
move=> hx hs ha [hnew hrow] hg; rewrite hs.
suff H k : (k <= m)%N -> exists ay, [/\ foro k (fun k ax =>
    set_dof_values n (nth 0%N nodes k) ax (nth [::] new k)) ax = Ok ay, size ay = size ax &
    forall d, (d < n_nodes * n)%N -> nth 0 ay d = if (d %/ n)%N \in take k nodes then g d else nth 0 ax d].
  have [ay [e h1 h2]] := H m (leqnn m); exists ay; split => // d hd; rewrite h2 // -{1}hs take_size //.
elim: k => [|k IH] hk; first by exists ax; split => // d; rewrite take0.
have [ay [e h1 h2]] := IH (ltnW hk); rewrite foroS e /=.
have hi : (nth 0%N nodes k < n_nodes)%N by apply: (allP ha); apply: mem_nth; rewrite hs.
have hsy : size ay = (n_nodes * n)%N by rewrite h1.
have [az [-> h1' h2']] := set_dof_valuesE (hrow k hk) (node_range_ok hsy hi).
exists az; split => //; first by rewrite h1'.
move=> d hd; have n0 : (0 < n)%N by case: (n) hd => //; rewrite muln0.
rewrite h2' h2 // (take_nth 0%N) ?hs // mem_rcons inE dof_indicesE mem_iota.
have -> : (nth 0 nodes k * n <= d < nth 0 nodes k * n + n)%N = (d %/ n == nth 0 nodes k)%N.
  by rewrite eqn_leq -[(d %/ n <= _)%N]ltnS ltn_divLR // leq_divRL // mulSn [(n + _)%N]addnC andbC.
case: eqP => //= hdn; have := divn_eq d n; rewrite hdn => hd2.
have hlt : (d - nth 0 nodes k * n < n)%N by rewrite {1}hd2 addKn ltn_mod.
have := hg (Ordinal hk) (Ordinal hlt); rewrite mxE /= => ->; congr g.
by rewrite subnKC // [X in (_ <= X)%N]hd2 leq_addr.
Qed.

Lemma make_initialE conv n_nodes (edges : seq edge) x t junk f v (g : nat -> F) :
  size x = (n_nodes * n)%N -> valid_graph dim n_nodes edges -> size junk = m -> @init_computes F E dim n f v ->
  (forall e, List.In e edges -> forall (k : 'I_m) (j : 'I_n),
      v (conv t) e.2 k j = g (nth 0 e.1 k * n + j)%N) ->
  exists y, [/\ make_initial n conv junk edges f x t = Ok y, size y = size x &
    forall d, (d < n_nodes * n)%N ->
      nth 0 y d = if has (fun e => (d %/ n)%N \in e.1) edges then g d else 0].
Proof.
move=> hx hv hj hf hg; rewrite /make_initial.
suff H ax dofs : size ax = size x -> size dofs = m -> exists st, [/\
    foldo (fun e st => let: (ax, dofs) := st in
      let dofs := for_ (size e.1) (fun k d => upd d k (nseq n 0)) dofs in
      obind (f (conv t) e.2 dofs) (fun dofs =>
      obind (foro (size e.1) (fun k ax => set_dof_values n (nth 0%N e.1 k) ax (nth [::] dofs k)) ax)
            (fun ax => Ok (ax, dofs)))) (ax, dofs) edges = Ok st, size st.1 = size x &
    forall d, (d < n_nodes * n)%N ->
      nth 0 st.1 d = if has (fun e => (d %/ n)%N \in e.1) edges then g d else nth 0 ax d].
  have [st [-> h1 h2]] := H (nseq (size x) 0) junk (size_nseq _ _) hj.
  by exists st.1; split => // d hd; rewrite h2 // nth_nseq hx hd.
elim: edges hv hg ax dofs => [|e l IH] /=.
  by move=> _ _ ax dofs h1 h2; exists (ax, dofs).
move=> /andP[/andP[/eqP hs ha] hv] hg ax dofs h1 h2.
rewrite {1}hs zeroed //.
have [d' [-> hsd hd']] := hf (conv t) e.2 _ (shaped_zero F dim n) (dmx_zero F dim n).
rewrite /=; have hax : size ax = (n_nodes * n)%N by rewrite h1.
have [|ay [-> h3 h4]] := @set_nodes n_nodes e.1 d' ax g hax hs ha hsd.
  by move=> k j; rewrite hd' hg //; left.
rewrite /=; have [|||st [-> h5 h6]] := IH hv _ ay d'; rewrite ?h3 //.
- by move=> e' he'; apply: hg; right.
- by case: hsd.
exists st; split => // d hd; rewrite h6 // h4 //.
by case: (has _ _) (_ \in _) => -[].
Qed.

(** ** Jacobian loop *)
Lemma gather2E n_nodes nodes (x y : seq F) old vals new : size x = (n_nodes * n)%N -> size y = (n_nodes * n)%N ->
  size nodes = m -> all (fun i => i < n_nodes)%N nodes -> size old = m -> size vals = m -> size new = m ->
  gather2 n nodes x y old vals new =
    Ok ([seq node_vals n i x | i <- nodes], [seq node_vals n i y | i <- nodes], nseq m (nseq n 0)).
Proof.
move=> hx hy hs ha ho hw hn; rewrite /gather2 hs.
suff H k : (k <= m)%N -> exists st, [/\ foro k (fun k st => let: (old, vals, new) := st in
    obind (get_dof_values n (nth 0%N nodes k) x) (fun v =>
    obind (get_dof_values n (nth 0%N nodes k) y) (fun w =>
      Ok (upd old k v, upd vals k w, upd new k (nseq n 0))))) (old, vals, new) = Ok st,
      size st.1.1 = m, size st.1.2 = m, size st.2 = m &
      forall l, (l < k)%N -> [/\ nth [::] st.1.1 l = node_vals n (nth 0%N nodes l) x,
                             nth [::] st.1.2 l = node_vals n (nth 0%N nodes l) y &
                             nth [::] st.2 l = nseq n 0]].
  have [[[o w] nw] [-> /= h1 h2 h3 h4]] := H m (leqnn m); congr (Ok (_, _, _)).
  - apply: (@eq_from_nth _ [::]); rewrite ?size_map h1 // => l hl.
    by rewrite (nth_map 0%N) ?hs //; case: (h4 l hl).
  - apply: (@eq_from_nth _ [::]); rewrite ?size_map h2 // => l hl.
    by rewrite (nth_map 0%N) ?hs //; case: (h4 l hl).
  apply: (@eq_from_nth _ [::]); rewrite ?size_nseq h3 // => l hl.
  by rewrite nth_nseq hl; case: (h4 l hl).
elim: k => [|k IH] hk; first by exists (old, vals, new).
have [[[o w] nw] [e h1 h2 h3 h4]] := IH (ltnW hk); rewrite foroS e /=.
have hi : (nth 0%N nodes k < n_nodes)%N by apply: (allP ha); apply: mem_nth; rewrite hs.
rewrite (get_vals hx) //= (get_vals hy) //=.
eexists; split; first by []; rewrite ?size_upd // => l hl /=.
rewrite !nth_upd h1 h2 h3 hk !andbT; case: eqP => [->//|ne]; apply: h4; lia.
Qed.


Lemma mat_vec2E n_nodes (edges : seq edge) x y junk f phi : size x = (n_nodes * n)%N ->
  size y = (n_nodes * n)%N -> valid_graph dim n_nodes edges -> size junk = m -> @computes2 F E dim n f phi ->
  exists z, [/\ mat_vec2 n junk edges f x y = Ok z, size z = size x &
    forall d, nth 0 z d = \sum_(e <- edges)
      scattered e.1 (phi e.2 (local_part dim n e.1 x) (local_part dim n e.1 y)) d].
Proof.
move=> hx hy hv hj fP; rewrite /mat_vec2.
suff H ax old vals new : size ax = size x -> size old = m -> size vals = m -> size new = m -> exists st,
    [/\ foldo (fun e st => let: (ax, (old, vals, new)) := st in
       obind (gather2 n e.1 x y old vals new) (fun ovn => let: (old, vals, new) := ovn in
       obind (f e.2 old new vals) (fun new' =>
       obind (scatter_add n e.1 new' ax) (fun ax' => Ok (ax', (old, vals, new'))))))
      (ax, (old, vals, new)) edges = Ok st, size st.1 = size x &
     forall d, nth 0 st.1 d = nth 0 ax d + \sum_(e <- edges)
      scattered e.1 (phi e.2 (local_part dim n e.1 x) (local_part dim n e.1 y)) d].
  have [st [-> h1 h2]] := H (nseq (size x) 0) junk junk junk (size_nseq _ _) hj hj hj.
  exists st.1; split => // d; rewrite h2 nth_nseq.
  by case: ifP => _; rewrite add0r.
elim: edges hv ax old vals new => [_|e edges IH] /=.
  by move=> ax old vals new hax ho hw hn; exists (ax, (old, vals, new)); split => // d; rewrite big_nil addr0.
move=> /andP[/andP[/eqP hse hae] hv] ax old vals new hax ho hw hn.
rewrite (gather2E hx hy) //=.
have [new' [-> hs' hd']] := fP e.2 _ _ _ (shaped_vals n x hse) (shaped_zero F dim n) (shaped_vals n y hse) (dmx_zero F dim n).
rewrite /= ; have hax' : size ax = (n_nodes * n)%N by rewrite hax.
have [ay [-> hsy hny]] := scatterE hax' hse hae hs'.
have hs1 : size ay = size x by rewrite hsy.
rewrite /=; have [||||st [e1 e2 e3]] := IH hv ay [seq node_vals n i x | i <- e.1] [seq node_vals n i y | i <- e.1] new'.
- by [].
- by rewrite size_map.
- by rewrite size_map.
- by case: hs'.
exists st; split => // d; rewrite e3 hny -addrA; congr (_ + _).
by rewrite big_cons hd' !dmx_vals.
Qed.
End Initial.

Section DirSet.
Variables (E : Type) (n : nat).
Lemma for_dir (types nodes : seq nat) k dir :
  for_ k (fun i dir => if nth 0%N types i == 1%N then dir ++ get_dof_indices n (nth 0%N nodes i) else dir) dir
  =i [pred d | (d \in dir) || has (fun i => (nth 0%N types i == 1%N) && (d \in get_dof_indices n (nth 0%N nodes i))) (iota 0 k)].
Proof.
elim: k => [|k IH] d; first by rewrite for_0 !inE orbF.
rewrite for_S !inE -[k.+1]addn1 iotaD has_cat add0n has_seq1 orbA.
by case: ifP => _ /=; rewrite ?mem_cat IH !inE ?orbF.
Qed.
Lemma dirichlet_mem (types : E -> seq nat) dir (edges : seq (seq nat * E)) :
  dirichlet_indices n types dir edges =i
  [pred d | (d \in dir) || has (fun e => has (fun i => (nth 0%N (types e.2) i == 1%N) &&
       (d \in get_dof_indices n (nth 0%N e.1 i))) (iota 0 (size (types e.2)))) edges].
Proof.
move=> d; rewrite /dirichlet_indices sort_unique_mem.
elim: edges dir => [|e l IH] dir; first by rewrite !inE orbF.
by rewrite /= IH !inE for_dir !inE orbA.
Qed.
Lemma dirichlet_sorted (types : E -> seq nat) dir (edges : seq (seq nat * E)) :
  sorted ltn (dirichlet_indices n types dir edges).
Proof. exact: sort_unique_sorted. Qed.
Lemma dirichlet_idem (types : E -> seq nat) (edges : seq (seq nat * E)) :
  dirichlet_indices n types (dirichlet_indices n types [::] edges) edges = dirichlet_indices n types [::] edges.
Proof.
apply: (irr_sorted_eq ltn_trans ltnn (dirichlet_sorted _ _ _) (dirichlet_sorted _ _ _)) => d.
by rewrite dirichlet_mem !inE dirichlet_mem !inE /= orbb.
Qed.
End DirSet.
