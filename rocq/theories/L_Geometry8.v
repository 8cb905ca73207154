(** Proofs about linear mappings and the geometry read from files. *)
From mathcomp Require Import all_ssreflect all_algebra zify ring.
From Verif Require Import M_Base L_Base M_DenseLA S_DenseLA L_DenseLA M_Lapack S_Lapack L_Lapack M_Index
  S_Index L_Index M_Topology S_Topology L_Topology L_Topology2 M_Geometry S_Geometry L_Geometry L_Geometry2
  L_Geometry3.
Set Implicit Arguments. Unset Strict Implicit. Unset Printing Implicit Defensive.
Import Order.TTheory GRing.Theory Num.Theory.
Local Open Scope ring_scope.

Lemma mx_of_inj (R : ringType) nr nc (s t : seq R) : is_mat nr nc s -> is_mat nr nc t ->
  mx_of nr nc s = mx_of nr nc t -> s = t.
Proof.
move=> hs ht e; apply: (@eq_from_nth _ 0); rewrite hs ?ht // => k hk.
have hnr : (0 < nr)%N by case: (nr) hk => // ; rewrite mul0n.
have hi : (k %% nr < nr)%N by rewrite ltn_mod.
have hj : (k %/ nr < nc)%N by rewrite ltn_divLR // mulnC.
by have := congr1 (fun M : 'M_(nr, nc) => M (Ordinal hi) (Ordinal hj)) e; rewrite !mxE /= -divn_eq.
Qed.

Section Linear.
Variable F : realFieldType.
Variable geqr2 : nat -> nat -> seq F -> qr_result F.
Variable gesv : nat -> nat -> seq F -> seq F -> sv_result F.

Lemma linear_newE n d trans mat T : linear_new geqr2 n d trans mat = Ok T ->
  [/\ l_n T = n, l_d T = d, l_trans T = trans & l_mat T = mat].
Proof. by rewrite /linear_new; case: (qr_decomp _ _ _ _ _) => //= -[[m q] r] [<-]. Qed.

Lemma mat_add_size nr nc (A v : seq F) : size (mat_add nr nc 1 A v) = size A.
Proof. by rewrite /mat_add orbT size_add_eq. Qed.
Lemma mat_sub_size nr nc (A v : seq F) : size (mat_sub nr nc 1 A v) = size A.
Proof. by rewrite /mat_sub orbT size_sub_eq. Qed.

Variable T : linear F.
Let n := l_n T.
Let d := l_d T.
Let A := mx_of n d (l_mat T).
Let b := mx_of n 1 (l_trans T).
Lemma linear_map_mat n_vec pts : is_mat n n_vec (linear_map T n_vec pts).
Proof. by rewrite /is_mat /linear_map mat_add_size size_mat_mul. Qed.
Lemma linear_mapE n_vec pts :
  mx_of n n_vec (linear_map T n_vec pts) = A *m mx_of d n_vec pts + all_cols n_vec b.
Proof. by rewrite /linear_map mx_mat_add_right ?mx_mat_mul // /is_mat size_mat_mul. Qed.

Lemma linear_map_nth pts i : (i < n)%N ->
  (linear_map T 1 pts)`_i = \sum_(j < d) mget n (l_mat T) i j * pts`_j + (l_trans T)`_i.
Proof.
move=> hi; have := congr1 (fun M : 'cV_n => M (Ordinal hi) 0) (linear_mapE 1 pts).
rewrite !mxE /= mul0n add0n => ->; congr (_ + _).
by apply: eq_bigr => j _; rewrite !mxE /= mul0n add0n.
Qed.

Lemma linear_map_affine (s : F) p q : is_mat d 1 p -> is_mat d 1 q ->
  mx_of n 1 (linear_map T 1 (mkseq (fun i => (1 - s) * p`_i + s * q`_i) d)) =
  (1 - s) *: mx_of n 1 (linear_map T 1 p) + s *: mx_of n 1 (linear_map T 1 q).
Proof.
move=> hp hq; rewrite !linear_mapE !scalerDr addrACA -scalerDl subrK scale1r; congr (_ + _).
rewrite !scalemxAr -mulmxDr; congr (_ *m _); apply/matrixP => i j.
by rewrite [j]ord1 !mxE /= mul0n add0n nth_mkseq.
Qed.

Lemma linear_inverse n_vec (pts y : seq F) : d = n -> mx_of n n (l_mat T) \in unitmx ->
  is_mat n n_vec pts -> is_mat n n_vec y ->
  (forall c, sv_info (gesv n n_vec (l_mat T) c)) ->
  (forall c, sv_info (gesv n n_vec (l_mat T) c) ->
     gesv_ok n n_vec (l_mat T) c (sv_rhs (gesv n n_vec (l_mat T) c))) ->
  linear_unmap gesv T n_vec (linear_map T n_vec pts) = Ok pts /\
  exists2 x, linear_unmap gesv T n_vec y = Ok x & linear_map T n_vec x = y.
Proof.
move=> hdn hu hpts hy hinfo hok.
have S c : exists x, [/\ (solve_const gesv n n_vec c (l_mat T)).1 = Ok x, is_mat n n_vec x
    & mx_of n n (l_mat T) *m mx_of n n_vec x = mx_of n n_vec c].
  have [_ [[x [H _]]|[_ h]]] := solve_constE (hok c); first by exists x.
  by rewrite hinfo in h.
split.
  rewrite /linear_unmap -/n; set c := mat_sub _ _ _ _ _.
  have [x [-> hx ex]] := S c; congr Ok; apply: (mx_of_inj hx hpts).
  apply: (can_inj (mulKmx hu)); rewrite ex /c mx_mat_sub_right; last exact: linear_map_mat.
  by rewrite linear_mapE /A hdn addrK.
rewrite /linear_unmap -/n; set c := mat_sub _ _ _ _ _.
have [x [-> hx ex]] := S c; exists x => //; apply: (mx_of_inj (linear_map_mat _ _) hy).
rewrite linear_mapE /A hdn ex /c mx_mat_sub_right; last exact: hy.
by rewrite subrK.
Qed.
End Linear.

(** *** Data of a hyperedge read from a file *)
Section File.
Variable F : realFieldType.
Variable geqr2 : nat -> nat -> seq F -> qr_result F.
Variables (enum : tpcc -> seq cell) (slice : nat -> seq nat -> nat).
Hypotheses (henum : tpcc_spec enum) (hslice : slice_spec slice).
Variables (d L : nat) (D : domain) (Q : points_of F).
Hypotheses (hL : (0 < L)%N).
Let G := gfile_refine L (gfile_of (file_new enum d D)).
Let n := po_n Q.
Let parts := Tpcc true d (nseq d L).
Variables (e : nat) (P : nat -> seq F).
Hypothesis he : (e < do_n_edges D)%N.
Hypothesis hP0 : file_point Q e 0 = Ok (P 0%N).
Hypothesis hP : forall j, (j < d)%N -> file_point Q e (2 ^ j) = Ok (P (2 ^ j)%N).
Hypothesis hs0 : size (P 0%N) = n.
Hypothesis hs : forall j, (j < d)%N -> size (P (2 ^ j)%N) = n.

Definition side (i j : nat) : F := (P (2 ^ j)%N)`_i - (P 0%N)`_i.
Lemma side_cols m : (m <= d)%N -> exists M, [/\ is_mat n d M,
  foro m (fun dim M => obind (file_point Q e (2 ^ dim)) (fun p =>
     Ok (set_column n M dim (mat_sub n 1 1 p (P 0%N))))) (zeros F n d) = Ok M
  & forall i j, (i < n)%N -> (j < m)%N -> mget n M i j = side i j].
Proof.
elim: m => [|m IH] hm; first by exists (zeros F n d); split=> //; rewrite /is_mat size_nseq.
have [M [hM eM HM]] := IH (ltnW hm); rewrite foroS eM /= hP //=.
eexists; split; [|reflexivity|].
  by rewrite /is_mat size_set_column.
move=> i j hi hj; rewrite (@mget_set_column _ n d) //; last by apply: (leq_trans hj).
have [e1|ne] := j =P m; last by apply: HM => //; lia.
rewrite e1 -(mget_col n) /mat_sub eqxx /=.
by rewrite (@mget_sub_eq_same _ n 1) ?mget_col // /is_mat hs // muln1.
Qed.

Lemma gfile_atE k : (k < L ^ d)%N -> exists r trans M,
  [/\ nth [::] (enum parts) k = full r /\ size r = d, is_mat n d M /\ size trans = n,
      forall i j, (i < n)%N -> (j < d)%N -> mget n M i j = side i j / L%:R,
      forall i, (i < n)%N -> trans`_i = (P 0%N)`_i + \sum_(j < d) (nth 0%N r j)%:R * (side i j / L%:R)
    & gfile_at geqr2 enum G Q (e * L ^ d + k) = linear_new geqr2 n d trans M].
Proof.
move=> hk; have hk2 : (k < size (enum parts))%N by rewrite (size_ref henum hslice).
have /valid_ref [r [er sr ar]] := nth_enum_valid henum hk2.
have hLd : (0 < L ^ d)%N by rewrite expn_gt0 hL.
have [M0 [hM0 eM0 HM0]] := side_cols (leqnn d).
have L0 : L%:R != 0 :> F by rewrite pnatr_eq0 -lt0n.
pose M := (divs_eq (n * d) M0 L%:R).2.
have eM : mat_div_scal (n * d) M0 L%:R = Ok M by rewrite /mat_div_scal /M /divs_eq (negbTE L0).
have sM : is_mat n d M by rewrite /M /divs_eq (negbTE L0) /= /is_mat size_for_upd.
have HM i j : (i < n)%N -> (j < d)%N -> mget n M i j = side i j / L%:R.
  by move=> hi hj; rewrite -HM0 // /mget divs_eqE ?hM0 // loc_lt.
pose tr m := for_ m (fun dim t => add_eq n 1 1 t (muls n (get_column n M dim) (nth 0%N r dim)%:R)) (P 0%N).
have str m : size (tr m) = n.
  by elim: m => [|m IH]; rewrite ?hs0 // /tr for_S size_add_eq.
exists r, (tr d), M; split=> //.
  move=> i hi.
  have H m : (m <= d)%N -> (tr m)`_i = (P 0%N)`_i + \sum_(j < m) (nth 0%N r j)%:R * (side i j / L%:R).
    elim: m => [|m IH] hm; first by rewrite big_ord0 addr0.
    rewrite /tr for_S -/(tr m) -(mget_col n) (@mget_add_eq_same _ n 1) ?mget_col //; last first.
      by rewrite /is_mat str muln1.
    rewrite IH ?(ltnW hm) // nth_muls ?size_get_column // hi get_columnE // HM //.
    by rewrite big_ord_recr /= addrA [X in _ + X]mulrC.
  exact: H.
rewrite /gfile_at /= hc_powE divnMDl // divn_small // addn0 modnMDl modn_small //.
have -> : (e * L ^ d + k < do_n_edges D * n_elements enum (create_tpcc d (nseq d L)))%N.
  rewrite /n_elements (size_ref henum hslice).
  by apply: (@leq_trans (e.+1 * L ^ d)); [rewrite mulSn addnC ltn_add2r | rewrite leq_mul2r he orbT].
rewrite hP0 /= eM0 /= /get_element /n_elements hk2 /= eM /= er.
rewrite (@foro_ind _ d _ (fun m => tr m)) // => i hi.
by rewrite /interior_coordinate n_along_full sr hi along_full /= /tr for_S.
Qed.
End File.
