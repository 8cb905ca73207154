(** Lexicographically ordered points and the node types of hypergraphs read from file. *)
From mathcomp Require Import all_ssreflect all_algebra zify.
From Verif Require Import M_Base L_Base M_DenseLA M_Index S_Index L_Index M_Topology S_Topology L_Topology L_Topology2 M_Geometry S_Geometry.
Set Implicit Arguments. Unset Strict Implicit. Unset Printing Implicit Defensive.
Import Order.TTheory GRing.Theory Num.Theory.
Local Open Scope ring_scope.

Section Points.
Variable F : realFieldType.
Implicit Types (pts : seq F).

Lemma lex_loop s m index pts k : (k <= m)%N ->
  let st := for_ k (fun dim st => (upd st.1 dim pts`_(st.2 %% s), (st.2 %/ s)%N)) (zeros F m 1, index) in
  [/\ size st.1 = m, st.2 = (index %/ s ^ k)%N
    & forall j, (j < m)%N -> st.1`_j = if (j < k)%N then pts`_((index %/ s ^ j) %% s) else 0].
Proof.
elim: k => [_|k IH hk]; first by rewrite /= expn0 divn1 /zeros size_nseq muln1; split=> // j _; rewrite nth_nseq if_same.
have [h1 h2 h3] := IH (ltnW hk); rewrite /= for_S.
set st := for_ k _ _ in h1 h2 h3 *; rewrite size_upd h1 /= h2 -divnMA -expnSr; split=> // j hj.
rewrite nth_upd h1 hk /= h3 // andbT ltnS [(j <= k)%N]leq_eqVlt.
by case: eqVneq => [->|_].
Qed.

Lemma lex_point_size s m index pts : size (lex_point s m index pts) = m.
Proof. by case: (lex_loop s index pts (leqnn m)). Qed.

Lemma lex_point_nth s m index pts k : (k < m)%N ->
  (lex_point s m index pts)`_k = pts`_((index %/ s ^ k) %% s).
Proof. by move=> h; case: (lex_loop s index pts (leqnn m)) => _ _ H; rewrite /lex_point H // h. Qed.

Lemma lex_pointE s t pts : all (fun x => (x < s)%N) t ->
  lex_point s (size t) (compose s t) pts = [seq pts`_k | k <- t].
Proof.
move=> ht; apply: (@eq_from_nth _ 0); rewrite ?lex_point_size ?size_map // => k hk.
rewrite lex_point_nth // (nth_map 0%N) //; congr (pts`__).
by rewrite -{2}(digits_compose ht) nth_digits.
Qed.

(** Point [q] of the cube of dimension d - 1, put on the coordinate plane number [j] at [x]. *)
Lemma boundary_loop d j (x : F) (q : seq F) k : size q = d.-1 -> (j < d)%N -> (k <= d)%N ->
  let st := for_ k (fun k st => if j == k then (upd st.1 k x, st.2) else (upd st.1 k q`_st.2, st.2.+1))
              (zeros F d 1, 0%N) in
  [/\ size st.1 = d, st.2 = (k - (j < k))%N
    & forall l, (l < k)%N -> st.1`_l = (take j q ++ x :: drop j q)`_l].
Proof.
move=> hq hj; elim: k => [_|k IH hk]; first by rewrite /= /zeros size_nseq muln1; split=> //; rewrite sub0n.
have [h1 h2 h3] := IH (ltnW hk); rewrite /= for_S.
set st := for_ k _ _ in h1 h2 h3 *.
have hjq : (j <= size q)%N by rewrite hq; lia.
case: eqVneq => [e|ne] /=; rewrite size_upd h1; split=> //.
- by rewrite h2; lia.
- move=> l hl; rewrite nth_upd h1 hk /=; case: eqVneq => [->|nl] /=.
    by rewrite nth_cat size_takel // -e ltnn subnn.
  by apply: h3; lia.
- by rewrite h2; lia.
- move=> l hl; rewrite nth_upd h1 hk /=; case: eqVneq => [->|nl] /=; last by apply: h3; lia.
  rewrite h2 nth_cat size_takel //; case: (ltnP k j) => hkj.
    have -> : (j < k)%N = false by lia.
    by rewrite subn0 nth_take.
  have -> : (j < k)%N by lia.
  have -> : (k - j = (k - j.+1).+1)%N by lia.
  by rewrite /= nth_drop; congr (q`__); lia.
Qed.

Lemma boundary_pointE d s t b (scale : F) pts : size t = d.-1 -> all (fun x => (x < s)%N) t ->
  (b < 2 * d)%N ->
  boundary_point d s (s ^ d.-1 * b + compose s t) b scale pts =
  let q := [seq pts`_k | k <- t] in
  take (b %/ 2) q ++ (scale * ((b %% 2)%:R - 2%:R^-1) + 2%:R^-1) :: drop (b %/ 2) q.
Proof.
move=> hs ht hb; rewrite /boundary_point addKn -hs lex_pointE //=.
set q := map _ _; have hq : size q = d.-1 by rewrite size_map.
have hj := half_lt hb.
have [h1 _ h3] := boundary_loop (scale * ((b %% 2)%:R - 2%:R^-1) + 2%:R^-1) hq hj (leqnn d).
apply: (@eq_from_nth _ 0).
  by rewrite h1 size_cat /= size_takel ?size_drop hq; lia.
by move=> k; rewrite h1; exact: h3.
Qed.

Lemma boundary_on_face d s t b pts : size t = d.-1 -> all (fun x => (x < s)%N) t -> (b < 2 * d)%N ->
  (forall k, 0 <= pts`_k <= 1) ->
  on_face d b (boundary_point d s (s ^ d.-1 * b + compose s t) b 1 pts).
Proof.
move=> hs ht hb hp; rewrite (boundary_pointE _ _ hs ht hb) /=.
have hj := half_lt hb; set q := map _ _.
have hq : size q = d.-1 by rewrite size_map.
have aq : all (fun x => (0 <= x) && (x <= 1)) q by apply/allP => x /mapP[k _ ->].
rewrite mul1r subrK; split; last by rewrite nth_cat size_takel ?hq; [rewrite ltnn subnn | lia].
split; first by rewrite size_cat /= size_takel ?size_drop hq; lia.
rewrite all_cat /= ; apply/and3P; split.
- by apply/allP => x hx; apply: (allP aq); exact: mem_take hx.
- by rewrite ler0n /= -[1]/(1%:R) ler_nat -ltnS ltn_mod.
- by apply/allP => x hx; apply: (allP aq); exact: mem_drop hx.
Qed.
End Points.

(** *** Node types of hypergraphs read from file *)
Local Open Scope nat_scope.
Section Types.
Variable enum : tpcc -> seq cell.
Variable slice : nat -> seq nat -> nat.
Hypothesis henum : tpcc_spec enum.
Hypothesis hslice : slice_spec slice.
Variables (d L : nat) (D : domain).
Hypothesis hd : 0 < d.
Hypothesis hL : 0 < L.
Hypothesis hE : size (do_types D) = do_n_edges D.
Hypothesis hN : forall e, e < do_n_edges D -> size (nth [::] (do_types D) e) = 2 * d.
Let T := file_refine enum L (file_new enum d D).
Let N := fnode_refine enum L (fnode_of (file_new enum d D)).

Lemma fnode_atE idx : idx < fi_n_edges T ->
  fnode_at enum N idx = Ok (mkseq (fun i => if on_coarse enum d L idx i
    then nth 0 (nth [::] (do_types D) (idx %/ L ^ d)) i else 0) (2 * d)).
Proof.
move=> h; rewrite /fnode_at.
have e : n_elements enum (create_tpcc d (nseq d L)) = L ^ d by exact: size_ref.
have h0 : 0 < L ^ d by rewrite expn_gt0 hL.
move: h; rewrite /T (file_edges henum hslice) => h.
have hq : idx %/ L ^ d < do_n_edges D by rewrite ltn_divLR.
have hm : idx %% L ^ d < size (enum (Tpcc true d (nseq d L))) by rewrite (size_ref henum hslice) ltn_mod.
have [r [er hr _]] := part_full henum hslice d hL idx.
rewrite [fn_ref_elem _]/= [fn_domain _]/= [fn_dim _]/= [fn_level _]/= e h (loadE [::]) hE hq /= /get_element /n_elements hm /= er.
rewrite refine_typesE ?hN //; congr Ok; apply/eq_in_map => i; rewrite mem_iota add0n /= => hi.
by rewrite (on_coarseE er hr hi).
Qed.

Lemma ftypes_total idx : idx < fi_n_edges T ->
  exists v, [/\ fnode_at enum N idx = Ok v, size v = 2 * d
    & forall i, i < 2 * d -> nth 0 v i =
        if on_coarse enum d L idx i then nth 0 (nth [::] (do_types D) (idx %/ L ^ d)) i else 0].
Proof.
move=> h; rewrite fnode_atE //; eexists; split; [by [] | by rewrite size_mkseq |].
by move=> i hi; rewrite nth_mkseq.
Qed.

Lemma ftypes_shared (ty : nat -> nat) idx idx' i i' v v' t t' :
  size (do_nodes D) = do_n_edges D ->
  (forall e, e < do_n_edges D -> size (nth [::] (do_nodes D) e) = 2 * d /\
     all (fun k => k < do_n_nodes D) (nth [::] (do_nodes D) e)) ->
  (forall e i, e < do_n_edges D -> i < 2 * d ->
     nth 0 (nth [::] (do_types D) e) i = ty (nth 0 (nth [::] (do_nodes D) e) i)) ->
  file_at enum slice T idx = Ok v -> file_at enum slice T idx' = Ok v' ->
  fnode_at enum N idx = Ok t -> fnode_at enum N idx' = Ok t' -> i < 2 * d -> i' < 2 * d ->
  nth 0 v i = nth 0 v' i' -> nth 0 t i = nth 0 t' i'.
Proof.
move=> hE' hN' hty hv hv' ht ht' hi hi' /(share_file henum hslice hd hL hE' hN' hv hv' hi hi').
have h0 : 0 < L ^ d by rewrite expn_gt0 hL.
have lt k w : file_at enum slice T k = Ok w -> k < fi_n_edges T by rewrite /file_at; case: ifP.
have hk := lt _ _ hv; have hk' := lt _ _ hv'.
move: ht ht'; rewrite !fnode_atE // => -[<-] [<-]; rewrite !nth_mkseq //.
have q k : k < fi_n_edges T -> k %/ L ^ d < do_n_edges D.
  by rewrite /T (file_edges henum hslice) => h; rewrite ltn_divLR.
case: ifP => _ [b e _]; last by rewrite (negbTE b).
by rewrite b !hty ?q // e.
Qed.
End Types.
