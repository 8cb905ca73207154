(** Proofs about M_Index. *)
From mathcomp Require Import all_ssreflect all_algebra zify.
From Verif Require Import M_Base L_Base M_Index S_Index.
Set Implicit Arguments. Unset Strict Implicit. Unset Printing Implicit Defensive.

Lemma hc_powE dim base : hc_pow dim base = base ^ dim.
Proof. by rewrite /hc_pow; elim: dim => [//|d IH]; rewrite for_S IH expnSr. Qed.

Lemma hc_pow_wE W dim base : hc_pow_w W dim base = base ^ dim %% W.
Proof. by rewrite /hc_pow_w; elim: dim => [//|d IH]; rewrite for_S IH expnSr modnMml. Qed.

Fixpoint digits (n index range : nat) : seq nat :=
  if n is m.+1 then index %% range :: digits m (index %/ range) range else [::].

Lemma size_digits n i r : size (digits n i r) = n.
Proof. by elim: n i => //= n IH i; rewrite IH. Qed.

Lemma nth_digits n i r k : k < n -> nth 0 (digits n i r) k = (i %/ r ^ k) %% r.
Proof.
elim: n i k => //= n IH i [|k] hk /=; first by rewrite expn0 divn1.
by rewrite IH // expnS divnMA.
Qed.

Lemma decompose_loop m i r : for_ m (fun k st => (upd st.1 k (st.2 %% r), st.2 %/ r)) (nseq m 0, i) =
  (digits m i r, i %/ r ^ m).
Proof.
suff H : forall k, k <= m -> 
    let st := for_ k (fun k st => (upd st.1 k (st.2 %% r), st.2 %/ r)) (nseq m 0, i) in
    [/\ size st.1 = m, st.2 = i %/ r ^ k & forall j, j < k -> nth 0 st.1 j = (i %/ r ^ j) %% r].
  have [h1 h2 h3] := H m (leqnn m); move: h1 h2 h3; case: (for_ _ _ _) => d s /= h1 -> h3; congr pair.
  apply: (@eq_from_nth _ 0); rewrite ?size_digits // h1 => j hj; rewrite h3 // nth_digits //.
elim=> [|k IH] hk; first by split => //; rewrite /= ?size_nseq ?expn0 ?divn1.
have [h1 h2 h3] := IH (ltnW hk); rewrite for_S; move: h1 h2 h3; case: (for_ _ _ _) => d s /= h1 h2 h3.
split; first by rewrite size_upd.
- by rewrite h2 expnSr divnMA.
- move=> j hj; rewrite nth_upd h1 hk andbT h2; case: eqP => [->//|hne]; apply: h3; lia.
Qed.

Lemma index_decomposeE dim i r : 0 < r ->
  index_decompose dim i r = if i < r ^ maxn dim 1 then Ok (digits (maxn dim 1) i r) else Abort.
Proof.
move=> hr; rewrite /index_decompose eqn0Ngt hr /= decompose_loop.
have hp : 0 < r ^ maxn dim 1 by rewrite expn_gt0 hr.
case: ltnP => h; first by rewrite divn_small.
by case: eqP => // e; have := divn_eq i (r ^ maxn dim 1); rewrite e; have := ltn_pmod i hp; lia.
Qed.

Lemma compose_digits n i r : 0 < r -> i < r ^ n -> compose r (digits n i r) = i.
Proof.
move=> hr; elim: n i => [|n IH] i hi /=; first by move: hi; rewrite expn0; lia.
rewrite IH; first by rewrite addnC mulnC -divn_eq.
by rewrite ltn_divLR // mulnC -expnS.
Qed.

Lemma compose_lt r d : all (fun x => x < r) d -> compose r d < r ^ size d.
Proof.
elim: d => [|x d IH] //= /andP[hx /IH h]; rewrite expnS.
have : r * (compose r d).+1 <= r * r ^ size d by rewrite leq_mul2l h orbT.
by rewrite mulnS; lia.
Qed.

Lemma digits_compose r d : all (fun x => x < r) d -> digits (size d) (compose r d) r = d.
Proof.
elim: d => [|x d IH] //= /andP[hx /IH h].
have hr : 0 < r by lia.
by rewrite addnC mulnC modnMDl modn_small // divnMDl // divn_small // addn0 h.
Qed.

Lemma all_digits n i r : 0 < r -> all (fun x => x < r) (digits n i r).
Proof. by move=> hr; elim: n i => //= n IH i; rewrite ltn_mod hr IH. Qed.

(** Flat index -> tuple. *)
Lemma decompose_ok dim i r : 0 < dim -> 0 < r -> i < r ^ dim ->
  exists d, [/\ index_decompose dim i r = Ok d, size d = dim, all (fun x => x < r) d & compose r d = i].
Proof.
move=> hd hr hi; have e : maxn dim 1 = dim by lia.
exists (digits dim i r); rewrite index_decomposeE // e hi; split => //.
- exact: size_digits.
- exact: all_digits.
- exact: compose_digits.
Qed.
Lemma decompose_abort dim i r : 0 < dim -> 0 < r -> r ^ dim <= i -> index_decompose dim i r = Abort.
Proof.
move=> hd hr hi; have e : maxn dim 1 = dim by lia.
by rewrite index_decomposeE // e ltnNge hi.
Qed.
(** Tuple -> flat index. *)
Lemma decompose_onto dim r d : 0 < dim -> size d = dim -> all (fun x => x < r) d ->
  compose r d < r ^ dim /\ index_decompose dim (compose r d) r = Ok d.
Proof.
move=> hd hs ha; have h := compose_lt ha; rewrite hs in h.
have hr : 0 < r by case: d hs ha {h} => [|x d] /= h; [lia|case/andP; lia].
have e : maxn dim 1 = dim by lia.
by rewrite index_decomposeE // e h -hs digits_compose.
Qed.

Lemma tensorial_ptE (T : Type) (x0 : T) dim i (pts : seq T) : 0 < dim -> 0 < size pts ->
  i < size pts ^ dim ->
  exists d, [/\ index_decompose dim i (size pts) = Ok d &
                tensorial_pt x0 dim i pts = Ok [seq nth x0 pts k | k <- d]].
Proof.
move=> hd hp hi; have [d [e hs ha _]] := decompose_ok hd hp hi.
exists d; split => //; rewrite /tensorial_pt eqn0Ngt hd /= e /=; congr Ok.
apply: (@eq_from_nth _ x0); rewrite (@size_for_assign _ _ id) size_nseq ?size_map ?hs // => k hk.
rewrite (@nth_for_assign_in _ x0 dim id (fun k _ => nth x0 pts (nth 0 d k))) ?size_nseq //.
by rewrite (nth_map 0) // hs.
Qed.

(** Every grid point is visited exactly once. *)
Lemma tensorial_once (T : Type) (x0 : T) dim (pts : seq T) (d : seq nat) : 0 < dim ->
  size d = dim -> all (fun k => k < size pts) d ->
  (exists2 i, i < size pts ^ dim & tensorial_pt x0 dim i pts = Ok [seq nth x0 pts k | k <- d]).
Proof.
move=> hd hs ha; have [h1 h2] := decompose_onto hd hs ha.
exists (compose (size pts) d) => //.
by rewrite /tensorial_pt eqn0Ngt hd /= h2 /=; congr Ok;
   apply: (@eq_from_nth _ x0); rewrite (@size_for_assign _ _ id) size_nseq ?size_map ?hs // => k hk;
   rewrite (@nth_for_assign_in _ x0 dim id (fun k _ => nth x0 pts (nth 0 d k))) ?size_nseq //;
   rewrite (nth_map 0) // hs.
Qed.

Lemma tensorial_inj (T : eqType) (x0 : T) dim (pts : seq T) i j : 0 < dim -> uniq pts ->
  i < size pts ^ dim -> j < size pts ^ dim ->
  tensorial_pt x0 dim i pts = tensorial_pt x0 dim j pts -> i = j.
Proof.
move=> hd hu hi hj.
have hp : 0 < size pts by case: pts hi {hu hj} => //=; rewrite exp0n.
have [d [ed hs ha hc]] := decompose_ok hd hp hi; have [d' [ed' hs' ha' hc']] := decompose_ok hd hp hj.
have [e [h1 ->]] := tensorial_ptE x0 hd hp hi; have [e' [h1' ->]] := tensorial_ptE x0 hd hp hj.
move: h1 h1'; rewrite ed ed' => -[<-] -[<-] [E].
rewrite -hc -hc'; congr compose; apply: (@eq_from_nth _ 0) => [|k hk]; first by rewrite hs hs'.
have := congr1 (nth x0 ^~ k) E; rewrite !(nth_map 0) ?hs' -?hs // => /eqP.
rewrite nth_uniq //; first by move/eqP.
- by apply: (allP ha); apply: mem_nth.
- by apply: (allP ha'); apply: mem_nth; rewrite hs' -hs.
Qed.

(** Hypernode dofs *)
Lemma size_dof_indices n i : size (get_dof_indices n i) = n.
Proof. by rewrite (@size_for_assign _ _ id) size_nseq. Qed.
Lemma nth_dof_indices n i k : k < n -> nth 0 (get_dof_indices n i) k = i * n + k.
Proof.
by move=> hk; rewrite /get_dof_indices (@nth_for_assign_in _ 0 n id (fun k _ => i * n + k)) ?size_nseq.
Qed.
Lemma dof_indicesE n i : get_dof_indices n i = iota (i * n) n.
Proof.
apply: (@eq_from_nth _ 0); rewrite size_dof_indices ?size_iota // => k hk.
by rewrite nth_dof_indices // nth_iota.
Qed.

Lemma dofs_cover n_nodes n d : d < n_global_dofs n_nodes n ->
  exists i, [/\ i < n_nodes, d \in get_dof_indices n i & node_of_dof n_nodes n d = Ok i].
Proof.
move=> hd; have hn : 0 < n by move: hd; rewrite /n_global_dofs; lia.
exists (d %/ n); rewrite dof_indicesE mem_iota /node_of_dof hd eqn0Ngt hn /=; split => //.
- by rewrite ltn_divLR.
- by have := divn_eq d n; have := ltn_pmod d hn; lia.
Qed.
Lemma dofs_in_range n_nodes n i d : i < n_nodes -> d \in get_dof_indices n i ->
  d < n_global_dofs n_nodes n /\ node_of_dof n_nodes n d = Ok i.
Proof.
rewrite dof_indicesE mem_iota => hi hd.
have h : d < n_nodes * n by apply: (@leq_trans (i.+1 * n)); [rewrite mulSn; lia|rewrite leq_mul2r hi orbT].
have hn : 0 < n by lia.
split => //; rewrite /node_of_dof /n_global_dofs h eqn0Ngt hn /=; congr Ok.
have -> : d = i * n + (d - i * n) by lia.
by rewrite divnMDl // divn_small ?addn0 //; lia.
Qed.
Lemma dofs_disjoint n i j d : d \in get_dof_indices n i -> d \in get_dof_indices n j -> i = j.
Proof.
rewrite !dof_indicesE !mem_iota => h1 h2.
have [h|h|//] := ltngtP i j.
  have : i.+1 * n <= j * n by rewrite leq_mul2r h orbT.
  by rewrite mulSn; lia.
have : j.+1 * n <= i * n by rewrite leq_mul2r h orbT.
by rewrite mulSn; lia.
Qed.
Lemma dofs_outside n_nodes n d : n_global_dofs n_nodes n <= d -> node_of_dof n_nodes n d = Abort.
Proof. by rewrite /node_of_dof ltnNge => ->. Qed.

Section Values.
Variable R : ringType.
Implicit Types (x v w : seq R).
Local Open Scope ring_scope.
Local Notation inside n i x := ((i * n + n)%N <= size x)%N.

Lemma get_dof_valuesE n i x : inside n i x ->
  get_dof_values n i x = Ok (take n (drop (i * n) x)).
Proof.
move=> h; rewrite /get_dof_values h; congr Ok.
have hs : size (take n (drop (i * n) x)) = n by rewrite size_takel // size_drop; lia.
apply: (@eq_from_nth _ 0); rewrite (@size_for_assign _ _ id) size_nseq ?hs // => k hk.
rewrite (@nth_for_assign_in _ 0 n id (fun k _ => nth 0 x (i * n + k))) ?size_nseq //.
by rewrite nth_take // nth_drop.
Qed.
Lemma get_dof_values_abort n i x : ~~ inside n i x -> get_dof_values n i x = Abort.
Proof. by rewrite /get_dof_values => /negbTE ->. Qed.

Lemma for_add_at n a (v : seq R) x k : (a + n <= size x)%N ->
  nth 0 (for_ n (fun k x => add_at x (a + k) (nth 0 v k)) x) k =
  if (a <= k < a + n)%N then nth 0 x k + nth 0 v (k - a) else nth 0 x k.
Proof.
elim: n => [|n IH] h; first by rewrite for_0; case: ifP => //; lia.
have hsz m : size (for_ m (fun k x => add_at x (a + k) (nth 0 v k)) x) = size x.
  by elim: m => [//|m IHm]; rewrite for_S size_add_at.
rewrite for_S nth_add_at hsz IH; last by lia.
have -> : (a + n < size x)%N by lia.
rewrite andbT; case: (eqVneq k (a + n)%N) => [->|hne].
  have -> : (a <= a + n < a + n)%N = false by lia.
  have -> : (a <= a + n < a + n.+1)%N by lia.
  by rewrite addKn.
by rewrite GRing.addr0; have -> : (a <= k < a + n.+1)%N = (a <= k < a + n)%N by lia.
Qed.

Lemma add_to_dof_valuesE n i x v : size v = n -> inside n i x ->
  exists y, [/\ add_to_dof_values n i x v = Ok y, size y = size x &
   forall d, nth 0 y d = if d \in get_dof_indices n i then nth 0 x d + nth 0 v (d - i * n) else nth 0 x d].
Proof.
move=> hv h; rewrite /add_to_dof_values hv eqxx h.
eexists; split; first by [].
  by elim: {1}n => [//|m IHm]; rewrite for_S size_add_at.
by move=> d; rewrite for_add_at // dof_indicesE mem_iota.
Qed.

Lemma for_set n a (v : nat -> R) x k : (a + n <= size x)%N ->
  nth 0 (for_ n (fun k x => upd x (a + k) (v k)) x) k =
  if (a <= k < a + n)%N then v (k - a)%N else nth 0 x k.
Proof.
elim: n => [|n IH] h; first by rewrite for_0; case: ifP => //; lia.
have hsz m : size (for_ m (fun k x => upd x (a + k) (v k)) x) = size x.
  by elim: m => [//|m IHm]; rewrite for_S size_upd.
rewrite for_S nth_upd hsz IH; last by lia.
have -> : (a + n < size x)%N by lia.
rewrite andbT; case: (eqVneq k (a + n)%N) => [->|hne].
  have -> : (a <= a + n < a + n.+1)%N by lia.
  by rewrite addKn.
by have -> : (a <= k < a + n.+1)%N = (a <= k < a + n)%N by lia.
Qed.

Lemma set_dof_valuesE n i x v : size v = n -> inside n i x ->
  exists y, [/\ set_dof_values n i x v = Ok y, size y = size x &
   forall d, nth 0 y d = if d \in get_dof_indices n i then nth 0 v (d - i * n) else nth 0 x d].
Proof.
move=> hv h; rewrite /set_dof_values hv eqxx h.
eexists; split; first by [].
  by elim: {1}n => [//|m IHm]; rewrite for_S size_upd.
by move=> d; rewrite (@for_set n (i * n) (nth 0 v)) // dof_indicesE mem_iota.
Qed.
Lemma set_dof_values_constE n i x c : inside n i x ->
  exists y, [/\ set_dof_values_const n i x c = Ok y, size y = size x &
   forall d, nth 0 y d = if d \in get_dof_indices n i then c else nth 0 x d].
Proof.
move=> h; rewrite /set_dof_values_const h.
eexists; split; first by [].
  by elim: {1}n => [//|m IHm]; rewrite for_S size_upd.
by move=> d; rewrite (@for_set n (i * n) (fun _ => c)) // dof_indicesE mem_iota.
Qed.

Lemma set_get n i x v : size v = n -> inside n i x ->
  exists2 y, set_dof_values n i x v = Ok y & get_dof_values n i y = Ok v.
Proof.
move=> hv h; have [y [e hs hn]] := set_dof_valuesE hv h; exists y => //.
rewrite get_dof_valuesE ?hs //; congr Ok; apply: (@eq_from_nth _ 0).
  by rewrite size_takel ?size_drop ?hs ?hv //; lia.
move=> k; rewrite size_takel ?size_drop ?hs //; last by lia.
move=> hk; rewrite nth_take // nth_drop hn dof_indicesE mem_iota.
have -> : (i * n <= i * n + k < i * n + n)%N by lia.
by rewrite addKn.
Qed.

Lemma set_abort n i x v : ~~ ((size v == n) && inside n i x) ->
  set_dof_values n i x v = Abort /\ add_to_dof_values n i x v = Abort.
Proof. by rewrite /set_dof_values /add_to_dof_values => /negbTE ->. Qed.
End Values.

Lemma node_range_abort (R : ringType) n_nodes n i (x v : seq R) :
  size x = n_global_dofs n_nodes n -> 0 < n -> n_nodes <= i ->
  [/\ get_dof_values n i x = Abort, set_dof_values n i x v = Abort,
      add_to_dof_values n i x v = Abort & forall c, set_dof_values_const n i x c = Abort].
Proof.
move=> hx hn hi; have h : i * n + n <= size x = false.
  have : n_nodes * n <= i * n by rewrite leq_mul2r hi orbT.
  by rewrite hx /n_global_dofs; lia.
by rewrite /get_dof_values /set_dof_values /add_to_dof_values /set_dof_values_const h andbF.
Qed.
Lemma node_range_ok (R : ringType) n_nodes n i (x : seq R) :
  size x = n_global_dofs n_nodes n -> i < n_nodes -> i * n + n <= size x.
Proof.
move=> hx hi; have : i.+1 * n <= n_nodes * n by rewrite leq_mul2r hi orbT.
by rewrite hx /n_global_dofs mulSn; lia.
Qed.

(** Word-size arithmetic *)
Section Words.
Variables (W n : nat).

Lemma dof_indices_wE i : get_dof_indices_w W n i = [seq (i * n + k) %% W | k <- iota 0 n].
Proof.
apply: (@eq_from_nth _ 0).
  by rewrite (@size_for_assign _ _ id) size_nseq size_map size_iota.
move=> k; rewrite (@size_for_assign _ _ id) size_nseq => hk.
rewrite (@nth_for_assign_in _ 0 n id (fun k _ => ((i * n) %% W + k) %% W)) ?size_nseq //.
by rewrite (nth_map 0) ?size_iota // nth_iota // add0n modnDml.
Qed.

Lemma no_wrap n_nodes i : n_nodes * n <= W -> i < n_nodes ->
  get_dof_indices_w W n i = get_dof_indices n i.
Proof.
move=> hW hi; rewrite dof_indices_wE dof_indicesE.
have h : i.+1 * n <= n_nodes * n by rewrite leq_mul2r hi orbT.
rewrite mulSn in h.
apply: (@eq_from_nth _ 0); rewrite size_map !size_iota // => k hk.
by rewrite (nth_map 0) ?size_iota // !nth_iota // modn_small //; lia.
Qed.

Lemma wrap_collision n_nodes : 0 < n <= W -> W < n_nodes * n ->
  exists i j, [/\ i < j, j < n_nodes & exists2 d, d \in get_dof_indices_w W n i & d \in get_dof_indices_w W n j].
Proof.
move=> /andP[hn hnW] hW; exists 0, (W %/ n).
(* the dof number W belongs to node W/n and wraps to dof 0 of node 0 *)
split.
- by rewrite divn_gt0.
- by rewrite ltn_divLR.
exists 0; rewrite dof_indices_wE; apply/mapP.
- by exists 0; rewrite ?mem_iota ?hn // mod0n.
- exists (W %% n); first by rewrite mem_iota ltn_mod hn.
  by rewrite -divn_eq modnn.
Qed.

Lemma wrap_exact n_nodes : 0 < n <= W ->
  (forall i j d, i < j -> j < n_nodes -> d \in get_dof_indices_w W n i ->
                 d \in get_dof_indices_w W n j -> False) <-> n_nodes * n <= W.
Proof.
move=> hn; split => [H|h i j d hij hj].
  rewrite leqNgt; apply/negP => /(wrap_collision hn) [i [j [hij hj [d h1 h2]]]].
  exact: H h1 h2.
rewrite !(no_wrap h) //; last exact: ltn_trans hj.
by move=> h1 h2; move: (dofs_disjoint h1 h2) hij; lia.
Qed.
(** The range check wraps as well: a node beyond the end reads the dofs of node 0. *)
Lemma wrap_check (R : ringType) (x : seq R) i : 0 < n < W -> n %| W -> n <= size x ->
  i * n = W -> get_dof_values_w W n i x = get_dof_values n 0 x.
Proof.
move=> /andP[hn hnW] hd hx hi; rewrite /get_dof_values_w hi modnn add0n modn_small // hx.
rewrite /get_dof_values mul0n add0n hx.
suff H m s : m <= n -> foro m (fun k s => obind (load x ((0 + k) %% W)) (fun y => Ok (upd s k y))) s =
     Ok (for_ m (fun k s => upd s k (nth 0%R x (0 + k))) s) by exact: H.
elim: m => [//|m IH] hm.
rewrite foroS IH ?(ltnW hm) //= add0n modn_small; last by lia.
by rewrite (loadE 0%R) (leq_trans hm hx) /= for_S.
Qed.
End Words.
