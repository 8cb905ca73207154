(** Proofs about M_Global, third part: the properties as stated in P_Global. *)
From mathcomp Require Import all_ssreflect all_algebra zify.
From Verif Require Import M_Base L_Base M_Index S_Index L_Index M_Global S_Global L_Global L_Global2.
Set Implicit Arguments. Unset Strict Implicit. Unset Printing Implicit Defensive.
Import Order.TTheory GRing.Theory Num.Theory.
Local Open Scope ring_scope.

Section G.
Variables (F : realFieldType) (E : Type) (dim n : nat).
Local Notation m := (2 * dim)%N.
Local Notation edge := (seq nat * E)%type.
Local Notation computes := (@computes F E dim n).
Implicit Types (edges : seq edge) (x y : seq F) (junk : seq (seq F)).

Lemma local_part0 nodes k : @local_part F dim n nodes (nseq k 0) = 0.
Proof. by apply/matrixP => i j; rewrite !mxE nth_nseq; case: ifP. Qed.

Lemma mat_vec_linear n_nodes edges f phi junk (a b : F) x y :
  computes f phi -> local_linear phi -> valid_graph dim n_nodes edges -> size junk = m ->
  size x = (n_nodes * n)%N -> size y = (n_nodes * n)%N ->
  exists u v, [/\ mat_vec n junk edges f x = Ok u, mat_vec n junk edges f y = Ok v,
    size u = size x & mat_vec n junk edges f (axpy a x (axpy b y (nseq (size y) 0))) =
      Ok (axpy a u (axpy b v (nseq (size v) 0)))].
Proof.
move=> hf hl hv hj hx hy.
have [u [-> hsu hu]] := mat_vecE hf hx hv hj; have [v [-> hsv hvv]] := mat_vecE hf hy hv hj.
exists u, v; split => //.
have hax : size (axpy a x (axpy b y (nseq (size y) 0))) = (n_nodes * n)%N by rewrite size_axpy.
have [w [-> hsw hw]] := mat_vecE hf hax hv hj; congr Ok.
apply: (@eq_from_nth _ 0) => [|d]; first by rewrite size_axpy hsu hx -hax hsw.
rewrite hsw hax => hd; rewrite hw (global_linear _ _ _ hx) //.
rewrite nth_axpy ?hsu ?hx // hu; congr (_ + _).
rewrite (global_linear _ _ _ hy) // nth_axpy ?hsv ?hy // hvv nth_nseq hd; congr (_ + _).
rewrite /global_op big1 // => e _.
by rewrite local_part0 local_linear0 // scattered0.
Qed.

Lemma elliptic_fluxE n_nodes edges f phi junk dir x :
  computes f phi -> valid_graph dim n_nodes edges -> size junk = m ->
  size x = (n_nodes * n)%N -> all (fun i => i < n_nodes * n)%N dir ->
  exists z, [/\ elliptic_flux n (n_nodes * n) dir junk edges f x = Ok z, size z = size x &
    forall d, nth 0 z d = if d \in dir then 0 else global_op edges phi x d].
Proof.
move=> hf hv hj hx hd; rewrite /elliptic_flux.
have [u [-> hsu hu]] := mat_vecE hf hx hv hj; rewrite /=.
have hsz : (n_nodes * n <= size u)%N by rewrite hsu hx.
have [z [e hs hz]] := zero_rowsE hd hsz.
by exists z; split => //; [rewrite hs | move=> d; rewrite hz hu].
Qed.

Lemma elliptic_flux_abort n_nodes edges f phi junk dir x :
  computes f phi -> valid_graph dim n_nodes edges -> size junk = m ->
  size x = (n_nodes * n)%N -> ~~ all (fun i => i < n_nodes * n)%N dir ->
  elliptic_flux n (n_nodes * n) dir junk edges f x = Abort.
Proof.
move=> hf hv hj hx /allPn [i hi hN]; rewrite /elliptic_flux.
have [u [-> hsu _]] := mat_vecE hf hx hv hj; rewrite /=.
have {hi} : (index i dir < size dir)%N /\ nth 0%N dir (index i dir) = i by rewrite index_mem nth_index.
move: (index i dir) => p [hp hnth]; rewrite /zero_rows.
have H k : (k <= size dir)%N -> (exists2 z, foro k (fun i y =>
    if (nth 0%N dir i < n_nodes * n)%N then store y (nth 0%N dir i) 0 else Abort) u = Ok z & size z = size u /\ (k <= p)%N)
   \/ foro k (fun i y =>
    if (nth 0%N dir i < n_nodes * n)%N then store y (nth 0%N dir i) 0 else Abort) u = Abort.
  elim: k => [|k IH] hk; first by left; exists u.
  rewrite foroS; case: (IH (ltnW hk)) => [[z -> [hz hkp]]|->]; last by right.
  rewrite /=; case: ifP => hlt; last by right.
  left; have [|z' [-> hs' _]] := @store_lt F 0 z (nth 0%N dir k) 0; first by rewrite hz hsu hx.
  exists z' => //; split; first by rewrite hs'.
  rewrite ltn_neqAle hkp andbT; apply/eqP => e; move: hlt; rewrite e hnth.
  by apply/negP.
case: (H _ (leqnn _)) => [[z _ [_ h]]|//].
by move: hp; rewrite ltnNge h.
Qed.

(** Dirichlet constraints, in the code's order of calls. *)
Lemma dirichlet_flux n_nodes edges f phi junk l x :
  computes f phi -> valid_graph dim n_nodes edges -> size junk = m ->
  size x = (n_nodes * n)%N -> all (fun i => i < n_nodes * n)%N l ->
  exists dir z, [/\ read_dirichlet_indices (n_nodes * n) l = Ok dir,
    elliptic_flux n (n_nodes * n) dir junk edges f x = Ok z, size z = size x &
    forall d, nth 0 z d = if d \in l then 0 else global_op edges phi x d].
Proof.
move=> hf hv hj hx hl; exists (std_unique (sort leq l)).
have hd : all (fun i => i < n_nodes * n)%N (std_unique (sort leq l)).
  by rewrite (eq_all_r (sort_unique_mem l)).
have [z [e hs hz]] := elliptic_fluxE hf hv hj hx hd.
exists z; split => //; first exact: read_dirichletE.
by move=> d; rewrite hz sort_unique_mem.
Qed.
Lemma dirichlet_order N l l' : l =i l' -> read_dirichlet_indices N l = read_dirichlet_indices N l'.
Proof.
move=> h; have ha := @eq_all_r _ _ _ h (fun i => i < N)%N.
case: (boolP (all (fun i => i < N)%N l)) => hl; last by rewrite !read_dirichlet_abort // -ha.
rewrite !read_dirichletE -?ha //; congr Ok.
by apply: (irr_sorted_eq ltn_trans ltnn (sort_unique_sorted _) (sort_unique_sorted _)) => z; rewrite !sort_unique_mem.
Qed.

Lemma mat_matches n_nodes edges f phi junk x : computes f phi -> local_linear phi ->
  valid_graph dim n_nodes edges -> size junk = m -> size x = (n_nodes * n)%N ->
  exists A y, [/\ elliptic_mat dim n [::] junk edges f = Ok A,
    elliptic_flux n (n_nodes * n) [::] junk edges f x = Ok y,
    forall d, coo_times A x d = nth 0 y d,
    size (c_row A) = size (c_val A) /\ size (c_col A) = size (c_val A) &
    forall t, (t < size (c_val A))%N ->
      (nth 0 (c_row A) t < n_nodes * n)%N /\ (nth 0 (c_col A) t < n_nodes * n)%N].
Proof.
move=> hf hl hv hj hx.
have [A [e hA]] := mat_is_op hf hv hj hl; have [B [e' [h1 h2 _] h3]] := mat_range hf hv hj.
move: e'; rewrite e => -[eAB]; rewrite -eAB in h1 h2 h3.
have [y [ey _ hy]] := @elliptic_fluxE n_nodes edges f phi junk [::] x hf hv hj hx isT.
by exists A, y; split => // d; rewrite hA hy.
Qed.
Lemma mat_matches_dir n_nodes edges f phi junk dir x : computes f phi -> local_linear phi ->
  valid_graph dim n_nodes edges -> size junk = m -> size x = (n_nodes * n)%N ->
  all (fun i => i < n_nodes * n)%N dir ->
  exists A y, [/\ elliptic_mat dim n dir junk edges f = Ok A,
    elliptic_flux n (n_nodes * n) dir junk edges f x = Ok y &
    forall d, nth 0 y d = if d \in dir then 0 else coo_times A x d].
Proof.
move=> hf hl hv hj hx hd.
have [A [e hA]] := mat_is_op hf hv hj hl.
have [y [ey _ hy]] := elliptic_fluxE hf hv hj hx hd.
by exists A, y; split => // d; rewrite hA hy.
Qed.

(** Symmetry and definiteness on vectors that vanish at the Dirichlet dofs. *)
Lemma flux_symmetric n_nodes edges f phi junk dir x y :
  computes f phi -> (forall e A B, fdot A (phi e B) = fdot B (phi e A)) ->
  valid_graph dim n_nodes edges -> size junk = m ->
  size x = (n_nodes * n)%N -> size y = (n_nodes * n)%N -> all (fun i => i < n_nodes * n)%N dir ->
  (forall d, d \in dir -> nth 0 x d = 0) -> (forall d, d \in dir -> nth 0 y d = 0) ->
  exists u v, [/\ elliptic_flux n (n_nodes * n) dir junk edges f x = Ok u,
    elliptic_flux n (n_nodes * n) dir junk edges f y = Ok v &
    vdot (n_nodes * n) y u = vdot (n_nodes * n) x v].
Proof.
move=> hf hs hv hj hx hy hd zx zy.
have [u [eu _ hu]] := elliptic_fluxE hf hv hj hx hd.
have [v [ev _ hvv]] := elliptic_fluxE hf hv hj hy hd.
exists u, v; split => //; rewrite /vdot.
transitivity (\sum_(d < (n_nodes * n)%N) nth 0 y d * global_op edges phi x d).
  by apply: eq_bigr => d _; rewrite hu; case: ifP => // hin; rewrite zy // !mul0r.
rewrite (global_symmetric _ _ hv hs).
by apply: eq_bigr => d _; rewrite hvv; case: ifP => // hin; rewrite zx // !mul0r.
Qed.
Lemma flux_nonpos n_nodes edges f phi junk dir x :
  computes f phi -> (forall e A, fdot A (phi e A) <= 0) ->
  valid_graph dim n_nodes edges -> size junk = m ->
  size x = (n_nodes * n)%N -> all (fun i => i < n_nodes * n)%N dir ->
  (forall d, d \in dir -> nth 0 x d = 0) ->
  exists u, [/\ elliptic_flux n (n_nodes * n) dir junk edges f x = Ok u,
    vdot (n_nodes * n) x u <= 0 &
    vdot (n_nodes * n) x u = 0 ->
      all (fun e => fdot (local_part dim n e.1 x) (phi e.2 (local_part dim n e.1 x)) == 0) edges].
Proof.
move=> hf hs hv hj hx hd zx.
have [u [eu _ hu]] := elliptic_fluxE hf hv hj hx hd.
have e : vdot (n_nodes * n) x u = \sum_(d < (n_nodes * n)%N) nth 0 x d * global_op edges phi x d.
  by apply: eq_bigr => d _; rewrite hu; case: ifP => // hin; rewrite zx // !mul0r.
exists u; split => //; rewrite e; first exact: global_nonpos.
exact: global_kernel.
Qed.

(** residual_flux is affine. *)
Lemma residual_affine n_nodes edges f g phi (c : E -> 'M[F]_(m, n)) junk dir x :
  computes f phi -> computes g (fun e A => phi e A + c e) -> local_linear phi ->
  valid_graph dim n_nodes edges -> size junk = m -> size x = (n_nodes * n)%N ->
  all (fun i => i < n_nodes * n)%N dir ->
  exists r t r0, [/\ elliptic_flux n (n_nodes * n) dir junk edges g x = Ok r,
    elliptic_flux n (n_nodes * n) dir junk edges f x = Ok t,
    elliptic_flux n (n_nodes * n) dir junk edges g (nseq (size x) 0) = Ok r0,
    forall d, nth 0 r d = nth 0 t d + nth 0 r0 d &
    (forall d, nth 0 r d = 0) <-> (forall d, nth 0 t d = - nth 0 r0 d)].
Proof.
move=> hf hg hl hv hj hx hd.
have hz : size (nseq (size x) (0 : F)) = (n_nodes * n)%N by rewrite size_nseq.
have [r [er _ hr]] := elliptic_fluxE hg hv hj hx hd.
have [t [et _ ht]] := elliptic_fluxE hf hv hj hx hd.
have [r0 [er0 _ hr0]] := elliptic_fluxE hg hv hj hz hd.
have key d : nth 0 r d = nth 0 t d + nth 0 r0 d.
  rewrite hr ht hr0; case: ifP => _; first by rewrite addr0.
  rewrite (@global_affine F E dim n edges phi _ c x) //.
  rewrite (@global_affine F E dim n edges phi _ c (nseq _ _)) // [X in _ = _ + (X + _)]big1 ?add0r //.
  by move=> e _; rewrite local_part0 local_linear0 // scattered0.
exists r, t, r0; split => //; split => h d.
  by have := h d; rewrite key => /eqP; rewrite addr_eq0 => /eqP.
by rewrite key h addNr.
Qed.
End G.

Section Order.
Variables (F : realFieldType) (E : eqType) (dim n : nat).
Local Notation m := (2 * dim)%N.
Local Notation edge := (seq nat * E)%type.
Implicit Types (edges : seq edge) (x y : seq F) (junk : seq (seq F)).

Lemma valid_perm n_nodes edges edges' : perm_eq edges edges' -> valid_graph dim n_nodes edges ->
  valid_graph dim n_nodes edges'.
Proof. by move=> hp; rewrite /valid_graph (perm_all _ hp). Qed.
Lemma mat_vec_order n_nodes edges edges' f phi junk junk' x : @computes F E dim n f phi ->
  valid_graph dim n_nodes edges -> size junk = m -> size junk' = m -> size x = (n_nodes * n)%N ->
  perm_eq edges edges' ->
  mat_vec n junk edges f x = mat_vec n junk' edges' f x /\
  exists y, [/\ mat_vec n junk edges f x = Ok y, size y = size x & forall d, nth 0 y d = global_op edges phi x d].
Proof.
move=> hf hv hj hj' hx hp.
have [y [ey sy hy]] := mat_vecE hf hx hv hj.
have [y' [ey' sy' hy']] := mat_vecE hf hx (valid_perm hp hv) hj'.
split; last by exists y.
rewrite ey ey'; congr Ok; apply: (@eq_from_nth _ 0); first by rewrite sy sy'.
by move=> d _; rewrite hy hy' (global_perm _ _ _ hp).
Qed.
Lemma errors_order w n_nodes edges edges' f err sq junk junk' x : @err_computes F E dim n w f err ->
  valid_graph dim n_nodes edges -> size junk = m -> size junk' = m -> size x = (n_nodes * n)%N ->
  perm_eq edges edges' -> errors n w sq junk edges f x = errors n w sq junk' edges' f x.
Proof.
move=> hf hv hj hj' hx hp; rewrite !(@errorsE F E dim n w n_nodes _ _ _ _ _ err) ?(valid_perm hp hv) //.
by congr Ok; apply: eq_map => k; rewrite (perm_big _ hp).
Qed.
End Order.

Section ErrZero.
Variables (F : realFieldType) (E : Type) (dim n : nat).
Local Notation m := (2 * dim)%N.
Lemma errors_zero w n_nodes (edges : seq (seq nat * E)) f (err : E -> 'M[F]_(m, n) -> nat -> F) sq junk x :
  @err_computes F E dim n w f err ->
  (forall e A k, 0 <= err e A k) -> (forall a, 0 <= a -> (sq a == 0) = (a == 0)) ->
  valid_graph dim n_nodes edges -> size junk = m -> size x = (n_nodes * n)%N ->
  exists r, [/\ errors n w sq junk edges f x = Ok r, size r = w &
    forall k, (k < w)%N -> (nth 0 r k == 0) =
      all (fun e => err e.2 (local_part dim n e.1 x) k == 0) edges].
Proof.
move=> hf hp hsq hv hj hx; rewrite (errorsE sq hx hv hj hf).
eexists; split; first by []; first by rewrite size_map size_iota.
move=> k hk; rewrite (nth_map 0%N) ?size_iota // nth_iota // add0n hsq; last by apply: sumr_ge0.
elim: edges {hv} => [|e l IH]; first by rewrite big_nil eqxx.
by rewrite big_cons /= paddr_eq0 ?IH //; apply: sumr_ge0.
Qed.
End ErrZero.

Section StateLemmas.
Variables (E D : Type) (d0 : D) (graph : nat -> seq (seq nat * E) * nat).
Lemma state_sizes l0 ls : let s := runs d0 graph (construct d0 graph l0) ls in
  st_level s = last l0 ls /\ st_nodes s = (graph (last l0 ls)).2 /\ size (st_data s) = size (graph (last l0 ls)).1.
Proof.
elim/last_ind: ls => [|ls l _] /=; first by rewrite size_nseq.
by rewrite /runs foldl_rcons last_rcons /= size_nseq.
Qed.
Lemma data_in_range l0 ls i : let s := runs d0 graph (construct d0 graph l0) ls in
  (i < size (graph (st_level s)).1)%N -> exists d, get_data s i = Ok d.
Proof.
rewrite /=; have [-> [_ h]] := state_sizes l0 ls; rewrite /get_data h => hi.
by rewrite hi (loadE d0) h hi; eexists.
Qed.
Lemma data_out_of_range l0 ls i : let s := runs d0 graph (construct d0 graph l0) ls in
  (size (graph (st_level s)).1 <= i)%N -> get_data s i = Abort.
Proof.
by rewrite /=; have [-> [_ h]] := state_sizes l0 ls; rewrite /get_data h => hi; rewrite ltnNge hi.
Qed.
(** Refinement, even to the same level, resets the data; the Dirichlet indices are kept. *)
Lemma refinement_resets l s i : (i < size (graph l).1)%N ->
  get_data (set_refinement d0 graph l s) i = Ok d0 /\ st_dir (set_refinement d0 graph l s) = st_dir s.
Proof.
by move=> hi; split => //; rewrite /get_data /= size_nseq hi (loadE d0) size_nseq hi nth_nseq hi.
Qed.

(** A hypergraph that is the only one on its topology, or was refined last, is consistent. *)
Lemma pool_own k level p i : (k < size (pl_views p))%N -> (i < size (graph level).1)%N ->
  exists e, pool_get graph k (pool_refine d0 graph k level p) i = Ok (e, d0).
Proof.
move=> hk hi; rewrite /pool_get /pool_refine /=.
rewrite (loadE (0%N, [::])) size_upd hk nth_upd eqxx hk /=.
case eg : (graph level).1 => [|e0 l]; first by rewrite eg in hi.
rewrite -eg (loadE e0) hi /= size_nseq hi (loadE d0) size_nseq hi /= nth_nseq hi.
by eexists.
Qed.
Lemma pool_stale k k' l0 level n_views i : (k < n_views)%N -> (k' < n_views)%N -> k != k' ->
  (size (graph l0).1 <= i < size (graph level).1)%N ->
  pool_get graph k (pool_refine d0 graph k' level (pool_construct d0 graph l0 n_views)) i = Abort.
Proof.
move=> hk hk' ne /andP[h1 h2]; rewrite /pool_get /pool_refine /=.
rewrite (loadE (0%N, [::])) size_upd size_nseq hk nth_upd (negbTE ne) /= nth_nseq hk /=.
case eg : (graph level).1 => [|e0 l]; first by rewrite eg in h2.
by rewrite -eg (loadE e0) h2 /= size_nseq ltnNge h1.
Qed.
End StateLemmas.

(** ** Concrete local solvers used as witnesses *)
Definition ex_id : local_fun [realFieldType of rat] unit := fun _ old _ => Ok old.
Lemma ex_idP : @computes _ _ 1 1 ex_id (fun _ A => A).
Proof. by move=> e old new h _ _; exists old. Qed.
(** Two-point flux: new_k = old_{1-k} - old_k. *)
Definition ex_flux (F : realFieldType) : local_fun F unit := fun _ old _ =>
  let a := nth 0 (nth [::] old 0) 0 in let b := nth 0 (nth [::] old 1) 0 in
  Ok [:: [:: b - a]; [:: a - b]].
Definition ex_flux_mx (F : realFieldType) (_ : unit) (A : 'M[F]_(2 * 1, 1)) : 'M[F]_(2 * 1, 1) :=
  let a := A ord0 ord0 in let b := A (lift ord0 ord0) ord0 in
  \matrix_(k, j) (if (k == 0 :> nat)%N then b - a else a - b).
Lemma ex_fluxP (F : realFieldType) : @computes F _ 1 1 (@ex_flux F) (@ex_flux_mx F).
Proof.
move=> e old new h _ _; eexists; split; first by [].
  by split => // -[|[|//]].
by apply/matrixP => -[[|[|//]] hk] [[|//] hj]; rewrite !mxE.
Qed.
Lemma ex_flux_linear (F : realFieldType) : local_linear (@ex_flux_mx F).
Proof.
move=> e a A B; apply/matrixP => k j; rewrite !mxE; case: ifP => _.
  by rewrite opprD addrACA -mulrBr.
by rewrite opprD addrACA -mulrBr.
Qed.
Lemma ex_fdot (F : realFieldType) (A B : 'M[F]_(2 * 1, 1)) :
  fdot (F := F) (dim := 1) A (ex_flux_mx tt B) =
  - ((A ord0 ord0 - A (lift ord0 ord0) ord0) * (B ord0 ord0 - B (lift ord0 ord0) ord0)).
Proof.
rewrite /fdot !big_ord_recl !big_ord0 !mxE /= !addr0.
by rewrite -[B (lift ord0 ord0) ord0 - _]opprB mulrN mulrBl opprB addrC.
Qed.
Lemma ex_flux_sym (F : realFieldType) (e : unit) (A B : 'M[F]_(2 * 1, 1)) :
  fdot (F := F) (dim := 1) A (ex_flux_mx e B) = fdot B (ex_flux_mx e A).
Proof. by case: e; rewrite !ex_fdot mulrC. Qed.
Lemma ex_flux_nonpos (F : realFieldType) (e : unit) (A : 'M[F]_(2 * 1, 1)) :
  fdot (F := F) (dim := 1) A (ex_flux_mx e A) <= 0.
Proof. by case: e; rewrite ex_fdot oppr_le0 -expr2 sqr_ge0. Qed.

Lemma iterate_all n fuel : (n <= fuel)%N ->
  iterate fuel hyEdge_begin (hyEdge_end n) = Some (iota 0 n) /\ all (fun i => i < n)%N (iota 0 n).
Proof.
move=> h; rewrite /hyEdge_begin /hyEdge_end iterateE ?subn0 //; split => //.
by apply/allP => i; rewrite mem_iota.
Qed.

Lemma jacobian_derivative (F : realFieldType) (E : Type) (dim n n_nodes : nat) (edges : seq (seq nat * E))
    (x y : seq F) (t : F) (junk : seq (seq F)) (f : local_fun F E) (df : local_fun2 F E)
    (phi : E -> 'M[F]_(2 * dim, n) -> 'M[F]_(2 * dim, n))
    (dphi rest : E -> 'M[F]_(2 * dim, n) -> 'M[F]_(2 * dim, n) -> 'M[F]_(2 * dim, n)) :
  computes f phi -> computes2 df dphi ->
  (forall e A B s, phi e (s *: A + B) = phi e B + s *: dphi e A B + s ^+ 2 *: rest e A B) ->
  size x = (n_nodes * n)%N -> size y = (n_nodes * n)%N -> valid_graph dim n_nodes edges ->
  size junk = (2 * dim)%N ->
  exists u v j, [/\ mat_vec n junk edges f (axpy t x y) = Ok u, mat_vec n junk edges f y = Ok v,
    mat_vec2 n junk edges df x y = Ok j &
    forall d, nth 0 u d = nth 0 v d + t * nth 0 j d + t ^+ 2 *
      \sum_(e <- edges) scattered e.1 (rest e.2 (local_part dim n e.1 x) (local_part dim n e.1 y)) d].
Proof.
move=> hf hdf hp hx hy hv hj.
have hxy : size (axpy t x y) = (n_nodes * n)%N by rewrite size_axpy.
have [u [eu _ hu]] := mat_vecE hf hxy hv hj; have [v [ev _ hvv]] := mat_vecE hf hy hv hj.
have [j [ej _ hjj]] := mat_vec2E hx hy hv hj hdf.
exists u, v, j; split => // d; rewrite hu hvv hjj /global_op !mulr_sumr -!big_split /=.
elim: edges hv {eu ev ej hu hvv hjj} => [|e l IH] /=; first by rewrite !big_nil.
move=> /andP[/andP[/eqP hs ha] hv]; rewrite !big_cons IH //; congr (_ + _).
rewrite (local_part_axpy _ _ hx hs ha) hp !scatteredD.
by rewrite -[t *: _]addr0 -[(t ^+ 2) *: _]addr0 !scattered_lin scattered0 !addr0.
Qed.

Lemma dirichlet_mismatch : exists dir A y d,
  [/\ read_dirichlet_indices 2 [:: 0%N] = Ok dir,
      elliptic_mat 1 1 dir (nseq 2 [::]) [:: ([:: 0; 1]%N, tt)] ex_id = Ok A,
      elliptic_flux 1 2 dir (nseq 2 [::]) [:: ([:: 0; 1]%N, tt)] ex_id [:: 1; 1] = Ok y &
      coo_times A [:: 1; 1] d <> nth 0 y d].
Proof.
have hl : local_linear (fun (_ : unit) (A : 'M[rat]_(2 * 1, 1)) => A) by [].
have [A [y [eA ey h]]] := @mat_matches_dir _ _ 1 1 2 [:: ([:: 0; 1]%N, tt)] _ _ (nseq 2 [::]) [:: 0%N] [:: 1; 1]
  ex_idP hl (erefl _) (erefl _) (erefl _) (erefl _).
have [A' [eA' hA]] := @mat_is_op _ _ 1 1 _ _ ex_idP 2 [:: ([:: 0; 1]%N, tt)] (nseq 2 [::]) (erefl _) (erefl _) hl.
move: (eA'); rewrite -/(elliptic_mat 1 1 [:: 0%N] (nseq 2 [::]) [:: ([:: 0; 1]%N, tt)] ex_id) eA => -[eq]; subst A'.
exists [:: 0%N], A, y, 0%N; split => //.
rewrite h inE eqxx hA /global_op big_seq1 /scattered !big_ord_recl !big_ord0 /= !mxE /=.
by rewrite !addr0 => /eqP; rewrite oner_eq0.
Qed.

Lemma initial_truncated :
  let f (t : rat) (_ : unit) (_ : seq (seq rat)) := Ok [:: [:: t]; [:: t]] in
  exists y, make_initial 1 index_of_time (nseq 2 [::]) [:: ([:: 0; 1]%N, tt)] f [:: 0; 0] (5%:R / 2%:R) = Ok y /\
  nth 0 y 0 = 2%:R /\ nth 0 y 0 <> 5%:R / 2%:R.
Proof.
move=> f; exists [:: index_of_time (5%:R / 2%:R); index_of_time (5%:R / 2%:R)]; split; first by [].
by split; [apply/eqP; vm_compute | move/eqP; vm_compute].
Qed.
