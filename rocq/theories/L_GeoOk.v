(** The geometries of the code provide what the local solver needs: face area times normal is area times a
    column of R^-T. *)
From mathcomp Require Import all_ssreflect all_algebra zify ring.
From Verif Require Import M_Base L_Base M_DenseLA S_DenseLA L_DenseLA M_Lapack S_Lapack L_Lapack M_Topology
  S_Topology L_Topology L_Topology2 M_Geometry S_Geometry L_Geometry L_Geometry2 L_Geometry3 L_Geometry4
  L_Geometry5 L_Geometry6 L_Geometry7 L_Geometry8 L_Geometry9 M_Diffusion S_Diffusion S_TppGeo.
Set Implicit Arguments. Unset Strict Implicit. Unset Printing Implicit Defensive.
Import Order.TTheory GRing.Theory Num.Theory.
Local Open Scope ring_scope.

Section Gram.
Variable F : realFieldType.

(** A unit vector v orthogonal to all columns of R but the k-th one. *)
Lemma gram_cofactor n m (A : 'M[F]_(n, m.+1)) (R : 'M[F]_m.+1) (v : 'rV[F]_m.+1) (k : 'I_m.+1) (s : F) :
  R^T *m R = A^T *m A -> R \in unitmx -> v *m v^T = 1%:M -> v *m R = s *: delta_mx 0 k ->
  v = s *: row k (invmx R) /\ s ^+ 2 * \det ((col' k A)^T *m col' k A) = \det R ^+ 2.
Proof.
move=> hG uR v1 vR; have e : v = s *: row k (invmx R).
  by rewrite rowE scalemxAl -vR -mulmxA mulmxV // mulmx1.
split=> //; have uG : R^T *m R \in unitmx by rewrite unitmx_mul unitmx_tr uR.
have dG : \det (R^T *m R) = \det R ^+ 2 by rewrite det_mulmx det_tr expr2.
have iG : invmx (R^T *m R) = invmx R *m (invmx R)^T.
  have h : (R^T *m R) *m (invmx R *m (invmx R)^T) = 1%:M.
    by rewrite -mulmxA [R *m _]mulmxA mulmxV // mul1mx -trmx_mul mulVmx // trmx1.
  by rewrite -[LHS]mulmx1 -h mulmxA mulVmx // mul1mx.
have c : (invmx (R^T *m R)) k k = (\det R ^+ 2)^-1 * \det ((col' k A)^T *m col' k A).
  rewrite /invmx uG !mxE /cofactor dG -signr_odd oddD addbb expr0 mul1r; congr (_ * \det _).
  by rewrite hG; apply/matrixP => i j; rewrite !mxE; apply: eq_bigr => l _; rewrite !mxE.
have d0 : \det R ^+ 2 != 0 by rewrite sqrf_eq0 -unitfE -unitmxE.
have one : s ^+ 2 * (invmx (R^T *m R)) k k = 1.
  have e1 : (v *m v^T) 0 0 = 1 by rewrite v1 mxE.
  rewrite -e1 iG !mxE mulr_sumr; apply: eq_bigr => l _; rewrite e !mxE; ring.
by rewrite c in one; rewrite -[RHS]mulr1 -one mulrCA; congr (_ * _); rewrite mulrA mulfV // mul1r.
Qed.

Lemma gram_face n d (mat r : seq F) (k : 'I_d) (v : seq F) (face area s : F) :
  (mx_of d d r)^T *m mx_of d d r = (mx_of n d mat)^T *m mx_of n d mat -> mx_of d d r \in unitmx ->
  \sum_(j < d) v`_j * v`_j = 1 ->
  (forall j : 'I_d, \sum_(i < d) v`_i * mget d r i j = if j == k then s else 0) ->
  0 <= face -> face ^+ 2 = \det ((without n d mat k)^T *m without n d mat k) ->
  0 < area -> area ^+ 2 = \det (mx_of d d r) ^+ 2 ->
  0 < face /\ forall j : 'I_d, face * v`_j = Num.sg s * (area * (invmx (mx_of d d r)) k j).
Proof.
case: d k r => [[//]|m] k r hG uR v1 vR f0 f2 a0 a2.
set w : 'rV[F]_m.+1 := \row_j v`_j.
have [] := @gram_cofactor n m (mx_of n m.+1 mat) (mx_of m.+1 m.+1 r) w k s hG uR.
- apply/matrixP => i j; rewrite !ord1 !mxE -[RHS]v1.
  by apply: eq_bigr => l _; rewrite !mxE.
- apply/matrixP => i j; rewrite !ord1 !mxE /=.
  rewrite (eq_bigr (fun i : 'I_m.+1 => v`_i * mget m.+1 r i j)) => [|l _]; last by rewrite !mxE.
  by rewrite vR; case: eqP => _; rewrite ?mulr1 ?mulr0.
move=> hw hs; have e : without n m.+1 mat k = col' k (mx_of n m.+1 mat).
  by apply/matrixP => i j; rewrite !mxE.
have {}hs : (`|s| * face) ^+ 2 = area ^+ 2.
  by rewrite exprMn real_normK ?num_real // f2 e hs a2.
have sf : `|s| * face = area.
  by apply/eqP; rewrite -(@eqr_expn2 _ 2) ?hs // ?mulr_ge0 // ltW.
have f1 : 0 < face.
  rewrite lt_neqAle f0 andbT eq_sym; apply: contraTN a0 => /eqP z.
  by rewrite -sf z mulr0 ltxx.
split=> // j; have := congr1 (fun M : 'rV_m.+1 => M 0 j) hw; rewrite !mxE => ->.
rewrite -sf -[in LHS](mulr_sg_norm s).
by move: (Num.sg s) `|s| (invmx _ k j) => x y z; ring.
Qed.
End Gram.

(** *** Geometry::File *)
Section File.
Variable F : realFieldType.
Variable geqr2 : nat -> nat -> seq F -> qr_result F.
Hypothesis hok : forall nr nc A, qr_info (geqr2 nr nc A) ->
  geqr2_ok nr nc A (qr_fac (geqr2 nr nc A)) (qr_tau (geqr2 nr nc A)).

Lemma file_geo_ok n d trans mat T (a : nat -> F) (v : nat -> seq F) :
  linear_new geqr2 n d trans mat = Ok T -> (0 < d <= n)%N -> r_fits n d -> linear_det_edge T != 0 ->
  (forall f, (f < 2 * d)%N -> gf_face_area geqr2 T f = Ok (a f) /\ gf_local_normal geqr2 T f = Ok (v f)) ->
  geo_ok (EdgeGeo (mx_of d d (l_r T)) (gf_area T) a (fun f k => (v f)`_k)).
Proof.
move=> hT hdn hf hdet hav; have [_ _ hR hG] := linear_newP hT hdn hf (@hok _ _ _).
have [en ed _ em] := linear_newE hT; have /andP [d0 dn] := hdn.
have dR : \det (mx_of d d (l_r T)) = linear_det_edge T.
  by rewrite det_upper // linear_det_edgeE ed; apply: eq_bigr => i _; rewrite mxE.
have uR : mx_of d d (l_r T) \in unitmx by rewrite unitmxE unitfE dR.
have a0 : 0 < gf_area T by rewrite /gf_area normr_gt0.
have a2 : gf_area T ^+ 2 = \det (mx_of d d (l_r T)) ^+ 2 by rewrite dR /gf_area real_normK ?num_real.
have H (k : 'I_d) (s : bool) : 0 < a (2 * k + s)%N /\ forall j : 'I_d, a (2 * k + s)%N * (v (2 * k + s)%N)`_j =
    (if s then 1 else -1) * (gf_area T * (invmx (mx_of d d (l_r T))) k j).
  have hk := ltn_ord k; have hlt : (2 * k + s < 2 * d)%N by case: (s); lia.
  have e2 : ((2 * k + s) %/ 2 = k)%N by case: (s); lia.
  have m2 : ((2 * k + s) %% 2 == 1)%N = s by case: (s); lia.
  have [h1 h2] := hav _ hlt.
  have := @gf_face_area_sq F geqr2 T (2 * k + s) (a (2 * k + s)%N); rewrite en ed em e2.
  move=> /(_ dn (@hok _ _ _) h1) [f0 f2].
  have := @gf_local_normalP F geqr2 T (2 * k + s) (v (2 * k + s)%N); rewrite ed e2 m2.
  move=> /(_ (@hok _ _ _) h2) [_ v1 vo /(_ hdet) vs].
  set t := \sum_(_ < d) _ in vs.
  have [|f1 hj] := @gram_face F n d mat (l_r T) k (v (2 * k + s)%N) (a (2 * k + s)%N) (gf_area T) t hG uR v1 _ f0 f2 a0 a2.
    by move=> j; case: eqP => [->//|/eqP ne]; apply: vo.
  split=> // j; rewrite hj; congr (_ * _); move: vs; case: (s) => h; first by rewrite gtr0_sg.
  by rewrite ltr0_sg.
split=> //=; last by move=> k j s; exact: (proj2 (H k s)).
move=> f hlt; have hk : (f %/ 2 < d)%N by rewrite ltn_divLR // mulnC.
have := proj1 (H (Ordinal hk) (f %% 2 == 1)%N) => /=.
by have -> : (2 * (f %/ 2) + (f %% 2 == 1) = f)%N by lia.
Qed.
End File.

(** *** Geometry::UnitCube *)
Section Cube.
Variable F : realFieldType.
Variable g : hgeo F.
Let d := g_d g.
Hypothesis hpos : forall j, (j < d)%N -> 0 < (g_char g)`_j.

Lemma cube_geo_ok_of (a : nat -> F) (v : nat -> seq F) :
  (forall f, (f < 2 * d)%N -> uc_face_area g f = Ok (a f) /\ uc_local_normal g f = Ok (v f)) ->
  geo_ok (EdgeGeo (mx_of d d (uc_mat_r g)) (uc_area g) a (fun f k => (v f)`_k)).
Proof.
move=> hav.
have aE : uc_area g = \prod_(j < d) (g_char g)`_j.
  rewrite /uc_area -/d; elim: (d) => [|m IH]; first by rewrite big_ord0.
  by rewrite for_S IH big_ord_recr.
have fE (k : 'I_d) f : (f < 2 * d)%N -> (f %/ 2 = k)%N -> a f = \prod_(j < d | j != k) (g_char g)`_j.
  move=> hf ek; have [] := hav f hf; rewrite /uc_face_area -/d hf ek => -[<-] _.
  have H m : for_ m (fun j a => if j != k :> nat then a * (g_char g)`_j else a) 1 =
      \prod_(j < m | j != k :> nat) (g_char g)`_j :> F.
    elim: m => [|m IH]; first by rewrite big_ord0.
    by rewrite for_S IH big_mkcond [in RHS]big_mkcond big_ord_recr /=; case: ifP; rewrite ?mulr1.
  exact: H.
have rE : mx_of d d (uc_mat_r g) = diag_mx (\row_j (g_char g)`_j).
  rewrite /uc_mat_r -/d mx_diagonal_vec ?minnn //.
  by apply/matrixP => i j; rewrite !mxE ltn_ord andbT val_eqE; case: (i =P j) => [->|] //.
have uR : mx_of d d (uc_mat_r g) \in unitmx.
  rewrite rE unitmxE unitfE det_diag; apply/prodf_neq0 => j _; rewrite mxE.
  by rewrite gt_eqF // hpos.
have iR (k j : 'I_d) : (invmx (mx_of d d (uc_mat_r g))) k j = if k == j then (g_char g)`_k^-1 else 0.
  have h : mx_of d d (uc_mat_r g) *m diag_mx (\row_j (g_char g)`_j^-1) = 1%:M.
    rewrite rE mulmx_diag -diag_const_mx; congr diag_mx; apply/rowP => i; rewrite !mxE.
    by rewrite mulfV // gt_eqF // hpos.
  have -> : invmx (mx_of d d (uc_mat_r g)) = diag_mx (\row_j (g_char g)`_j^-1).
    by rewrite -[LHS]mulmx1 -h mulmxA mulVmx // mul1mx.
  by rewrite !mxE; case: eqP => [->|].
have H (k : 'I_d) (s : bool) : 0 < a (2 * k + s)%N /\ forall j : 'I_d, a (2 * k + s)%N * (v (2 * k + s)%N)`_j =
    (if s then 1 else -1) * (uc_area g * (invmx (mx_of d d (uc_mat_r g))) k j).
  have hk := ltn_ord k; have hlt : (2 * k + s < 2 * d)%N by case: (s); lia.
  have e2 : ((2 * k + s) %/ 2 = k)%N by case: (s); lia.
  have m2 : ((2 * k + s) %% 2 != 0)%N = s by case: (s); lia.
  have fe := fE k _ hlt e2; split.
    by rewrite fe; apply: prodr_gt0 => j _; rewrite hpos.
  move=> j; have [_] := hav _ hlt; rewrite /uc_local_normal -/d hlt e2 m2 => -[<-].
  rewrite nth_upd ?size_nseq ?mul1n ?muln1 //; rewrite nth_nseq iR aE (bigD1 k) //= -fe eq_sym -val_eqE /= hk andbT.
  case: eqP => [e|_]; last by rewrite if_same !mulr0.
  rewrite mulrAC mulfV ?gt_eqF ?hpos // mul1r mulrC; by case: (s).
split=> //=.
- by rewrite aE; apply: prodr_gt0 => j _; rewrite hpos.
- move=> f hlt; have hk : (f %/ 2 < d)%N by rewrite ltn_divLR // mulnC.
  have := proj1 (H (Ordinal hk) (f %% 2 == 1)%N) => /=.
  by have -> : (2 * (f %/ 2) + (f %% 2 == 1) = f)%N by lia.
by move=> k j s; exact: (proj2 (H k s)).
Qed.
End Cube.

Section Grid.
Variable F : realFieldType.
Variables (enum : tpcc -> seq cell) (slice : nat -> seq nat -> nat).
Hypotheses (henum : tpcc_spec enum) (hslice : slice_spec slice).
Variables (d L : nat) (dims : seq nat).
Hypotheses (hd : (0 < d)%N) (hL : (0 < L)%N) (hpos : all (fun n => (0 < n)%N) dims).
Let T := cubic_refine enum L (cubic_new enum d dims).
Let G := ucube_refine L (ucube_new d dims).
Variables (idx : nat) (g : hgeo F).
Hypothesis hidx : (idx < cu_n_edges T)%N.
Hypothesis hg : ucube_at F enum G idx = Ok g.

Lemma cube_geo_ok (a : nat -> F) (v : nat -> seq F) :
  (forall f, (f < 2 * d)%N -> uc_face_area g f = Ok (a f) /\ uc_local_normal g f = Ok (v f)) ->
  geo_ok (EdgeGeo (mx_of d d (uc_mat_r g)) (uc_area g) a (fun f k => (v f)`_k)).
Proof.
set c := grid_cell enum d dims L idx.
have gE : g = hgeo_of F (fine_dims L dims) c.
  by move: hg; rewrite (at_Ok F henum hslice hL hpos hidx) => -[].
have cs : size c = size (fine_dims L dims) := gc_size henum hslice hd hL hidx.
have ca : n_along c = d := gc_along henum hslice hL hidx.
have gd : g_d g = d by rewrite gE g_dE.
move=> hav; have := @cube_geo_ok_of F g; rewrite gd; apply=> // j hj.
rewrite gE charE ?ca // invr_gt0 (fdims_gt0 F (fine_dims_pos hL hpos)) //.
have : nth 0%N (along_dirs c) j \in along_dirs c by rewrite mem_nth // size_along_dirs ca.
by rewrite mem_along_dirs cs => /andP [].
Qed.
End Grid.
