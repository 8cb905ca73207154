(** DiffusionIP: the contract is satisfiable; a small penalty can make the local matrix singular; no symmetry in two
    dimensions. *)
From mathcomp Require Import all_ssreflect all_algebra zify ring.
From Verif Require Import S_Hdg L_Hdg S_Tpp L_Poly S_LocalSolver M_Diffusion S_Diffusion S_TppGeo S_Gradient L_DiffusionEx L_ParabEx.
From Verif Require Import M_Base M_Global S_Global S_GlobalParab M_Lapack S_Lapack L_Lapack L_LocalBase L_LocalLink L_DiffusionUniform2 L_Diffusion2.
From Verif Require Import M_DiffusionIP S_DiffusionIP S_DiffusionEigs L_DiffusionIP2 L_IpGeo L_IpEnergy L_IpWeak L_DiffusionIP3 L_DiffusionIP4.
Set Implicit Arguments. Unset Strict Implicit. Unset Printing Implicit Defensive.
Import Order.TTheory GRing.Theory Num.Theory.
Local Open Scope ring_scope.

Section Ex.
Variable F : rcfType.
(** The integrals of given values of the coefficient (at a time, at a quadrature point of the hyperedge or of a face),
    by Simpson's rule on the unit hypercube. *)
Definition ip_ex (b : nat -> {poly F}) (dim : nat) (cv : F -> nat -> F) (cb : F -> nat -> nat -> F) (src : F -> nat -> F)
    (dirval : F -> nat -> nat -> F) (types : seq nat) : ip_data F :=
  let g := unit_geo F dim in
  {| ip_stiff := fun t i j => vol_stiffness 2 b 3 (@simpson_pt F) (@simpson_wt F) g (cv t) i j;
     ip_bb := fun i j f => eg_face g f * bdr_phiphi 2 b dim i j f;
     ip_bp := fun i j f => eg_face g f * bdr_phipsi 2 b dim i j f;
     ip_nbb := fun t i j f => bdr_nphiphi 2 b 3 (@simpson_pt F) (@simpson_wt F) g (cb t) i j f;
     ip_nbp := fun t i j f => bdr_nphipsi 2 b 3 (@simpson_pt F) (@simpson_wt F) g (cb t) i j f;
     ip_src := src; ip_dirval := dirval; ip_area := eg_face g; ip_diffsq := fun _ _ => 0; ip_eval := fun _ _ _ => 0;
     ip_types := types |}.
Lemma ip_exP dim (ok : (nat -> {poly F}) -> nat -> (nat -> F) -> (nat -> F) -> (nat -> nat -> F) -> edge_geo F dim -> Prop) b (cv : F -> nat -> F) (cb : F -> nat -> nat -> F) src dirval types t : orthonormal_basis 2 b -> (forall s, 0 < cv t s) ->
  ok b 3%N (@simpson_pt F) (cv t) (cb 0) (unit_geo F dim) ->
  @ip_integrals F dim 1 ok (ip_ex b dim cv cb src dirval types) t.
Proof.
move=> hb hk hok; exists b, 3%N, (@simpson_pt F), (@simpson_wt F), (cv t), (cb 0), (unit_geo F dim); split=> //.
- exact: simpson_ok.
- exact: unit_geo_ok.
Qed.
(** The contract holds in every dimension, for every positive coefficient, and large penalties are stable. *)
Lemma ip_ok_exists dim (cv : F -> nat -> F) (cb : F -> nat -> nat -> F) src dirval types : (forall t s, 0 < cv t s) -> exists P : ip_data F,
  [/\ forall t, ip_ok dim 1 P t, ip_src P = src, ip_dirval P = dirval & ip_types P = types].
Proof.
move=> h; have [b hb] := @orthonormal_exists F 1.
exists (ip_ex b dim cv cb src dirval types); split=> // t; exact: ip_exP.
Qed.

(** The linear basis function. *)
Section Basis.
Variable b : nat -> {poly F}.
Hypothesis hb : orthonormal_basis 2 b.
Lemma b1_affine : exists2 k, k ^+ 2 = 3%:R & (forall x, (b 1%N).[x] = k * (2%:R * x - 1)) /\ forall x, (b 1%N)^`().[x] = 2%:R * k.
Proof.
case: hb => h0 hs ho; have s1 : (size (b 1%N) <= 2)%N by rewrite hs.
have hc x : (b 1%N).[x] = (b 1%N)`_0 + (b 1%N)`_1 * x.
  by rewrite (horner_coef_wide _ s1) !big_ord_recr big_ord0 /= add0r expr0 mulr1 expr1.
have hd x : (b 1%N)^`().[x] = (b 1%N)`_1.
  rewrite (horner_coef_wide (n := 1)) ?big_ord1 ?coef_deriv ?mulr1 //.
  by have := @lt_size_deriv _ (b 1%N); rewrite -size_poly_eq0 hs // => /(_ isT).
have o1 := ho 0%N 1%N isT isT; have o2 := ho 1%N 1%N isT isT.
rewrite h0 mul1r -simpson_exact in o1; last by apply: leq_trans s1 _.
rewrite -simpson_exact in o2; last by apply: leq_trans (size_mul_leq _ _) _; rewrite hs.
rewrite (sum3 (fun s => simpson_wt F s * (b 1%N).[simpson_pt F s])) !hc in o1.
rewrite (sum3 (fun s => simpson_wt F s * (b 1%N * b 1%N).[simpson_pt F s])) !hornerM !hc in o2.
move: o1 o2; rewrite /simpson_wt /simpson_pt /=; move: hc hd.
move: (b 1%N)`_0 (b 1%N)`_1 => al be hc hd o1 o2.
have ha : al = - (be / 2%:R) by apply: (addIr (be / 2%:R)); rewrite addNr -[RHS]o1; field.
exists (be / 2%:R); first by have := congr1 (fun z => 3%:R * z) o2; rewrite /= mulr1 => <-; rewrite ha; field.
by split=> x; rewrite ?hc ?hd ?ha; field.
Qed.

(** One dimension: coefficient 4, 1, 4 at the points of Simpson's rule, penalty 4. *)
Definition cv1 (s : nat) : F := if s == 1%N then 1 else 4%:R.
Lemma sum_at2 n (e : n = 2%N) (f : 'I_n -> F) : \sum_i f i = f (cast_ord (esym e) ord0) + f (cast_ord (esym e) (lift ord0 ord0)).
Proof. by subst n; rewrite !big_ord_recl big_ord0 addr0 !cast_ord_id. Qed.
Lemma sum_at3 n (e : n = 3%N) (f : nat -> F) : \sum_(i < n) f i = f 0%N + f 1%N + f 2%N.
Proof. by subst n; rewrite sum3. Qed.
Lemma sum_at1 n (e : n = 1%N) (f : nat -> F) : \sum_(i < n) f i = f 0%N.
Proof. by subst n; rewrite big_ord1. Qed.
Lemma sing_weak : let u : 'cV[F]_(2 ^ 1) := \col_i (i%:R) in
  @ip_weak F 1 2 b 3 (@simpson_pt F) (@simpson_wt F) (unit_geo F 1) 4%:R cv1 (fun _ _ => 4%:R) u (fun=> 0) 0.
Proof.
have [k hk [h1 hd]] := b1_affine; have h0 : b 0%N = 1 by case: hb.
have e2 : (2 ^ 1 = 2)%N by []; pose i0 := cast_ord (esym e2) ord0; pose i1 := cast_ord (esym e2) (lift ord0 ord0).
have d0 : dig 2 0 0 = 0%N by []; have d1 : dig 2 1 0 = 1%N by [].
move=> u v.
have iv : invmx (eg_R (unit_geo F 1)) ord0 ord0 = 1 by rewrite invmx1 mxE.
have fg (w : 'cV[F]_(2 ^ 1)) s : fn_grad b 3 (@simpson_pt F) (unit_geo F 1) w ord0 s = 2%:R * k * w i1 0.
  rewrite /fn_grad (sum_at2 e2) -/i0 -/i1 /grad_at !big_ord1 iv !mul1r /dshape_at !big_ord1 /=.
  by rewrite d0 d1 h0 derivC horner0 mulr0 add0r hd mulrC.
have e2' : (2 * 1 = 2)%N by []; have e1 : (3 ^ (1 - 1) = 1)%N by []; have e3 : (3 ^ 1 = 3)%N by [].
have ff (w : 'cV[F]_(2 ^ 1)) f s : (f < 2)%N -> face_fn b 3 (@simpson_pt F) w f s = w i0 0 + w i1 0 * (k * (if f == 1%N then 1 else - 1)).
  rewrite /face_fn (sum_at2 e2) -/i0 -/i1 /fshape_at !big_ord1 /= d0 d1 h0 hornerC mulr1 h1 /face_coord.
  by case: f => [|[|]] //= _; congr (_ + _ * (_ * _)); [rewrite mod0n mulr0 sub0r | rewrite modn_small // mulr1 -addrA subrr addr0].
have fn f s : (f < 2)%N -> face_normal b 3 (@simpson_pt F) (unit_geo F 1) u f s = (if f == 1%N then 1 else - 1) * (2%:R * k).
  move=> hf; rewrite /face_normal (sum_at2 e2) -/i0 -/i1 !mxE /= mul0r add0r mul1r /fnormal_at !big_ord1 iv mul1r.
  rewrite /fdshape_at big_ord1 /= d1 hd; congr (_ * _); by case: f hf => [|[|]].
have tf s : trace_fn (dim := 1) b 3 (@simpson_pt F) (0 : 'cV[F]_(2 ^ (1 - 1))) s = 0.
  by rewrite /trace_fn big1 // => i _; rewrite mxE mul0r.
have qw s : quad_weight 3 (@simpson_wt F) (1 - 1) s = 1 by rewrite /quad_weight big_ord0.
have uv0 : u i0 0 = 0 by rewrite mxE. have uv1 : u i1 0 = 1 by rewrite mxE.
pose h (s : nat) := simpson_wt F s * cv1 s * (2%:R * k * v i1 0 * (2%:R * k)).
pose sg (f : nat) : F := if f == 1%N then 1 else - 1.
pose h1' (f : nat) : F := 4%:R * (sg f * (2%:R * k) * (v i0 0 + v i1 0 * (k * sg f))).
pose h2' (f : nat) : F := k * sg f * (v i0 0 + v i1 0 * (k * sg f)).
rewrite dotv0r mul1r.
rewrite (eq_bigr (fun s : 'I_(3 ^ 1) => h s)); last first.
  by move=> s _; rewrite big_ord1 !fg uv1 mulr1 /quad_weight big_ord1 /dig expn0 divn1 modn_small.
rewrite [X in _ - X](eq_bigr (fun f : 'I_(2 * 1) => h1' f)); last first.
  move=> f _; have hf : (f < 2)%N := ltn_ord f.
  rewrite mul1r (eq_bigr (fun=> h1' f)); first exact: (sum_at1 e1 (fun=> h1' f)).
  by move=> s _; rewrite qw mul1r fn // ff.
rewrite [X in _ + _ * X](eq_bigr (fun f : 'I_(2 * 1) => h2' f)); last first.
  move=> f _; have hf : (f < 2)%N := ltn_ord f.
  rewrite mul1r (eq_bigr (fun=> h2' f)); first exact: (sum_at1 e1 (fun=> h2' f)).
  by move=> s _; rewrite qw mul1r tf subr0 !ff // uv0 uv1 add0r mul1r.
rewrite (sum_at3 e3 h) !(sum_at2 e2') /h /h1' /h2' /sg /cv1 /simpson_wt /=.
move: (v i0 0) (v i1 0) => a c.
transitivity ((8%:R * c) * (k ^+ 2 - k ^+ 2)); [by field | by rewrite subrr mulr0].
Qed.
Lemma sing_irregular src dirval types t :
  ~ ip_regular 1 1 4%:R (ip_ex b 1 (fun=> cv1) (fun _ _ _ => 4%:R) src dirval types) t.
Proof.
have hc : @ip_contract F 1 1 b 3 (@simpson_pt F) (@simpson_wt F) cv1 (fun _ _ => 4%:R) (unit_geo F 1)
    (ip_ex b 1 (fun=> cv1) (fun _ _ _ => 4%:R) src dirval types) t by split.
have [_ hl] := @ip_weakE F 1 1 3 b _ _ _ _ _ _ t 4%:R isT hb (simpson_ok hb) hc (\col_i i%:R) (fun=> 0) 0.
move=> h; have /h /matrixP := hl sing_weak.
have i1 : (1 < (1 + 1) ^ 1)%N by [].
by move=> /(_ (Ordinal i1) 0) /eqP; rewrite !mxE /= oner_eq0.
Qed.

(** The function that is linear in the first direction. *)
Section Lin.
Variables (dim : nat) (k : F).
Hypotheses (dim0 : (0 < dim)%N) (h1 : forall x, (b 1%N).[x] = k * (2%:R * x - 1)) (hd : forall x, (b 1%N)^`().[x] = 2%:R * k).
Definition lin_fn : 'cV[F]_(2 ^ dim) := \col_i ((i : nat) == 1%N)%:R.
Definition lin_grad (d : nat) : F := if d == 0%N then 2%:R * k else 0.
Lemma dig1 d : dig 2 1 d = (d == 0%N).
Proof. by case: d => [|d] //; rewrite /dig divn_small ?mod0n // expnS; have := expn_gt0 2 d => /=; lia. Qed.
Lemma lin_fnP (d : 'I_dim) s : fn_grad b 3 (@simpson_pt F) (unit_geo F dim) lin_fn d s = lin_grad d.
Proof.
have h0 : b 0%N = 1 by case: hb.
have i1 : (1 < 2 ^ dim)%N by rewrite -{1}(expn0 2) ltn_exp2l.
rewrite /fn_grad (bigD1 (Ordinal i1)) // big1 ?addr0 => [|i hi]; last first.
  by rewrite mxE (_ : (i : nat) == 1%N = false) ?mul0r //; apply: contraNF hi => /eqP h; apply/eqP/val_inj.
rewrite mxE eqxx mul1r /grad_at (bigD1 d) // big1 ?addr0 => [|j hj]; last by rewrite invmx1 mxE (negbTE hj) mul0r.
rewrite invmx1 mxE eqxx mul1r /dshape_at (bigD1 d) // eqxx /lin_grad dig1.
rewrite ![LHS]addr0; case: eqP => [e|e]; last by rewrite h0 derivC horner0 [LHS]mul0r.
rewrite hd big1 ?[LHS]mulr1 // => j hj; rewrite -val_eqE in hj; rewrite (negbTE hj) dig1 /=.
by rewrite (_ : (j : nat) == 0%N = false) ?h0 ?hornerC // -e; apply/negbTE.
Qed.
Lemma lin_affine cv cb (c c0 : F) src dirval types t : (forall s, cv t s = c) -> 0 < c -> (forall f s, cb 0 f s = c0) ->
  ip_affine dim 1 c c0 lin_fn lin_grad (fun f => \sum_(d < dim) eg_normal (unit_geo F dim) f d * lin_grad d)
    (ip_ex b dim cv cb src dirval types) t.
Proof.
move=> hcv c_gt hcb; apply: ip_exP => //; first by move=> s; rewrite hcv.
by split=> // d s _; exact: lin_fnP.
Qed.
End Lin.

(** Two dimensions. *)
Section Two.
Variable k : F.
Hypotheses (h1 : forall x, (b 1%N).[x] = k * (2%:R * x - 1)) (hd : forall x, (b 1%N)^`().[x] = 2%:R * k).
Definition asym_w : seq (seq F) := [:: [:: - 1; 0]; [:: 1; 0]; [:: 0; - k]; [:: 0; - k]].
Definition asym_x : seq (seq F) := [:: [:: - k; 0]; [:: k; 0]; [:: 0; 1]; [:: 0; 1]].
Definition bval (i s : nat) : F := if i == 0%N then 1 else if s == 0%N then - k else k.
Definition bpv (i j f : nat) : F :=
  if (f < 2)%N then bval (i %% 2)%N (f %% 2)%N * (i %/ 2 == j)%N%:R else bval (i %/ 2)%N (f %% 2)%N * (i %% 2 == j)%N%:R.
Lemma bvalE i s : (i < 2)%N -> (s < 2)%N -> (b i).[s%:R] = bval i s.
Proof.
have h0 : b 0%N = 1 by case: hb.
case: i => [|[|]] // _; first by rewrite h0 hornerC.
by case: s => [|[|]] // _; rewrite h1 /bval /= ?mulr0 ?sub0r ?mulrN ?mulr1 -?addrA ?subrr ?addr0 ?mulr1.
Qed.
Lemma bp2 i j f : (i < 4)%N -> (j < 2)%N -> (f < 4)%N -> bdr_phipsi 2 b 2 i j f = bpv i j f.
Proof.
case: hb => _ _ ho hi hj hf; rewrite /bdr_phipsi !big_ord_recl big_ord0 mulr1 /= /bump /=.
have e0 m : dig 2 m 0 = (m %% 2)%N by rewrite /dig expn0 divn1.
have e1 : dig 2 i 1 = (i %/ 2)%N by rewrite /dig expn1 modn_small //; lia.
have hm m : (m %% 2 < 2)%N by rewrite ltn_mod.
have hi2 : (i %/ 2 < 2)%N by lia.
have hj2 : (j %% 2 = j)%N by rewrite modn_small.
rewrite /bpv; case: (ltnP f 2) => hf2.
- have -> : (f %/ 2 = 0)%N by lia.
  rewrite /= e0 e1 bvalE // /phi1 ho // ?subn1 /= ?e0 ?hj2 //.
- have -> : (f %/ 2 = 1)%N by lia.
  by rewrite /= e1 !e0 bvalE // /phi1 ho ?hj2 // mulrC.
Qed.

Variables (src : F -> nat -> F) (dirval : F -> nat -> nat -> F) (types : seq nat).
Definition asym_P : ip_data F := ip_ex b 2 (fun _ _ => 1) (fun _ _ _ => 1) src dirval types.
Lemma sum4 (h : nat -> F) : \sum_(i < 2 * 2) h i = h 0%N + h 1%N + h 2%N + h 3%N.
Proof. by rewrite !big_ord_recl big_ord0 addr0 !addrA. Qed.
Lemma sum2 (h : nat -> F) : \sum_(i < (1 + 1) ^ (2 - 1)) h i = h 0%N + h 1%N.
Proof. by rewrite (_ : (1 + 1) ^ (2 - 1) = 2)%N // !big_ord_recl big_ord0 addr0. Qed.
Lemma asym_E : \sum_f ip_E 2 1 asym_P f *m tr ((1 + 1) ^ (2 - 1)) asym_w f = 0.
Proof.
apply/colP => i; have hi : (i < 4)%N := ltn_ord i; rewrite summxE [RHS]mxE.
pose h f := \sum_(j < (1 + 1) ^ (2 - 1)) bpv i j f * nth 0 (nth [::] asym_w f) j.
rewrite (eq_bigr (fun f : 'I_(2 * 2) => h f)) => [|f _]; last first.
  rewrite mxE; apply: eq_bigr => j _; rewrite !mxE /= mul1r bp2 //; exact: ltn_ord.
rewrite (sum4 h) /h !(sum2 (fun j => bpv i j _ * nth 0 (nth [::] asym_w _) j)) /bpv /bval /=.
by case: (nat_of_ord i) hi => [|[|[|[|]]]] //= _; ring.
Qed.
Lemma asym_T f : tr ((1 + 1) ^ (2 - 1)) asym_x f = ip_trace 2 1 asym_P (lin_fn 2) f.
Proof.
have i1 : (1 < (1 + 1) ^ 2)%N by [].
apply/colP => j; rewrite /ip_trace /= invr1 scale1r !mxE (bigD1 (Ordinal i1)) // big1 => [|i hi]; last first.
  by rewrite !mxE (_ : (i : nat) == 1%N = false) ?mulr0 //; apply: contraNF hi => /eqP h; apply/eqP/val_inj.
rewrite !mxE eqxx mulr1 [RHS]addr0 /= mul1r bp2 //; try exact: ltn_ord.
have hj : (j < 2)%N := ltn_ord j.
case: f => [[|[|[|[|]]]]] //= _; case: (nat_of_ord j) hj => [|[|]] //= _; rewrite /bpv /bval /= ?mulr1 ?mulr0 ?mul1r //.
Qed.

Lemma asym_tr x : x \in [:: asym_w; asym_x] -> is_trace (2 * 2) ((1 + 1) ^ (2 - 1)) x.
Proof. by rewrite !inE => /orP[]/eqP ->; split. Qed.
Lemma asym_flux gesv dirs tau t o o' : gesv_correct gesv -> ip_regular 2 1 tau asym_P t ->
    (forall f, (f < 4)%N -> ~~ ip_mask dirs asym_P f) ->
    is_trace (2 * 2) ((1 + 1) ^ (2 - 1)) o -> is_trace (2 * 2) ((1 + 1) ^ (2 - 1)) o' ->
  exists y y', [/\ ip_trace_to_flux gesv 2 1 dirs tau asym_P asym_w o t = Ok y,
    ip_trace_to_flux gesv 2 1 dirs tau asym_P asym_x o' t = Ok y',
    pairing (2 * 2) ((1 + 1) ^ (2 - 1)) asym_x y = 0 & pairing (2 * 2) ((1 + 1) ^ (2 - 1)) asym_w y' = - (4%:R * k)].
Proof.
move=> hg hr hm ho ho'.
have hw : is_trace (2 * 2) ((1 + 1) ^ (2 - 1)) asym_w by split.
have hx : is_trace (2 * 2) ((1 + 1) ^ (2 - 1)) asym_x by split.
have haff := @lin_affine 2 k isT hd (fun _ _ => 1) (fun _ _ _ => 1) 1 1 src dirval types t (fun=> erefl) ltr01 (fun _ _ => erefl).
have [y [u [hy hl [sy f1]]]] := @ip_fluxP F gesv 2 1 dirs tau asym_P isT t hg hr _ _ hw ho.
have [y' _] := @ip_affineP F gesv 2 1 dirs tau asym_P t isT hg _ _ _ _ _ _ haff hr hx ho' asym_T.
exists y, (affine_flux_tr 2 1 dirs asym_P 1 (fun f => \sum_(d < 2) eg_normal (unit_geo F 2) f d * lin_grad k d)).
have u0 : u = 0.
  have h0 : ip_loc 2 1 tau asym_P t 0 (tr ((1 + 1) ^ (2 - 1)) asym_w) 0.
    rewrite /ip_loc asym_E mulmx0 !big1 => [|f _|f _]; rewrite ?mulmx0 //.
    by rewrite !scaler0 subr0 addr0.
  exact: (ip_unique hr hl h0).
split=> //.
- rewrite pairing_dotv (eq_bigr (fun f => - tau * dotv (lin_fn 2) (ip_E 2 1 asym_P f *m tr ((1 + 1) ^ (2 - 1)) asym_w f))).
    by rewrite -mulr_sumr -dotv_sumr asym_E dotv0r mulr0.
  move=> f _; rewrite f1 (negbTE (hm _ (ltn_ord f))) u0 /ip_num_flux !mulmx0 oppr0 add0r sub0r asym_T /ip_trace /= invr1 scale1r.
  rewrite scale1r scalerN dotvNr dotvZr mulNr; congr (- (_ * _)); by rewrite dotv_mxl trmxK.
- pose out f : F := \sum_(d < 2) eg_normal (unit_geo F 2) f d * lin_grad k d.
  have oE f : out f = if (f < 2)%N then (if odd f then 2%:R * k else - (2%:R * k)) else 0.
    rewrite /out !big_ord_recl big_ord0 /= /lin_grad /= mulr0 !addr0.
    by case: f => [|[|f]] //=; rewrite ?mulN1r ?mul1r // (_ : (0%N == (f.+2 %/ 2)%N) = false) ?mul0r //; by apply/negbTE; rewrite eq_sym -lt0n divn_gt0.
  pose h (f : nat) : F := \sum_(j < (1 + 1) ^ (2 - 1)) nth 0 (nth [::] asym_w f) j * (if (j : nat) == 0%N then - out f else 0).
  rewrite /pairing (eq_bigr (fun f : 'I_(2 * 2) => h f)) => [|f _]; last first.
    apply: eq_bigr => j _; rewrite (nth_mkseq [::]) // nth_mkseq // (hm _ (ltn_ord f)) andbT mul1r mulr1 //.
  rewrite (sum4 h) /h !(sum2 (fun j => nth 0 (nth [::] asym_w _) j * (if j == 0%N then - out _ else 0))) /= !oE /=; ring.
Qed.
End Two.
End Basis.

(** ** Examples *)
Lemma ip_sing_exists src dirval types : exists P : ip_data F,
  [/\ forall t, ip_ok 1 1 P t, forall t i j, ip_stiff P t i j = ip_stiff P 0 i j,
      forall t i j f, ip_nbb P t i j f = ip_nbb P 0 i j f /\ ip_nbp P t i j f = ip_nbp P 0 i j f,
      forall t, ~ ip_regular 1 1 4%:R P t & [/\ ip_src P = src, ip_dirval P = dirval & ip_types P = types]].
Proof.
have [b hb] := @orthonormal_exists F 1.
exists (ip_ex b 1 (fun=> cv1) (fun _ _ _ => 4%:R) src dirval types); split=> // t; last exact: sing_irregular.
by apply: ip_exP => // s; rewrite /cv1; case: ifP => _; rewrite ?ltr01 ?ltr0n.
Qed.
Lemma ip_affine_exists dim (c : F -> F) src dirval types : (0 < dim)%N -> (forall t, 0 < c t) ->
  exists (P : ip_data F) (u : 'cV[F]_((1 + 1) ^ dim)) (gamma out : nat -> F),
  [/\ forall t, ip_affine dim 1 (c t) (c 0) u gamma out P t, gamma 0%N != 0,
      forall t i j f, c 0 * ip_nbb P t i j f = c t * ip_nbb P 0 i j f /\ c 0 * ip_nbp P t i j f = c t * ip_nbp P 0 i j f
    & [/\ ip_src P = src, ip_dirval P = dirval & ip_types P = types]].
Proof.
move=> dim0 hc; have [b hb] := @orthonormal_exists F 1.
have [k hk [h1 hd]] := b1_affine hb.
exists (ip_ex b dim (fun t _ => c t) (fun t _ _ => c t) src dirval types), (lin_fn dim), (lin_grad k),
  (fun f => \sum_(d < dim) eg_normal (unit_geo F dim) f d * lin_grad k d); split=> //.
- by move=> t; apply: lin_affine.
- rewrite /lin_grad /= mulf_neq0 ?pnatr_eq0 //; apply/eqP => k0; move: hk; rewrite k0 expr0n /= => /esym/eqP.
  by rewrite pnatr_eq0.
- move=> t i j f /=; rewrite /bdr_nphiphi /bdr_nphipsi /= !mul1r; split; rewrite !mulr_sumr; apply: eq_bigr => s _;
    by rewrite -[X in c 0 * X = _]mulrA -[X in _ = c t * X]mulrA [LHS]mulrCA (mulrCA (c 0)) [RHS]mulrCA.
Qed.
Lemma ip_asym_exists src dirval types : exists (P : ip_data F) (x w : seq (seq F)),
  [/\ forall t, ip_ok 2 1 P t, is_trace (2 * 2) ((1 + 1) ^ (2 - 1)) x /\ is_trace (2 * 2) ((1 + 1) ^ (2 - 1)) w,
      [/\ ip_src P = src, ip_dirval P = dirval & ip_types P = types]
    & forall gesv dirs tau t o o', gesv_correct gesv -> ip_regular 2 1 tau P t -> (forall f, (f < 4)%N -> ~~ ip_mask dirs P f) ->
      is_trace (2 * 2) ((1 + 1) ^ (2 - 1)) o -> is_trace (2 * 2) ((1 + 1) ^ (2 - 1)) o' ->
      exists y z, [/\ ip_trace_to_flux gesv 2 1 dirs tau P w o t = Ok y, ip_trace_to_flux gesv 2 1 dirs tau P x o' t = Ok z,
        pairing (2 * 2) ((1 + 1) ^ (2 - 1)) x y = 0 & pairing (2 * 2) ((1 + 1) ^ (2 - 1)) w z != 0]].
Proof.
have [b hb] := @orthonormal_exists F 1; have [k hk [h1 hd]] := b1_affine hb.
exists (asym_P b src dirval types), (asym_x k), (asym_w k); split=> //.
- by move=> t; apply: ip_exP => // s; rewrite ltr01.
move=> gesv dirs tau t o o' hg hr hm ho ho'.
have [y [z [e1 e2 e3 e4]]] := asym_flux hb h1 hd hg hr hm ho ho'; exists y, z; split=> //.
rewrite e4 oppr_eq0 mulf_neq0 ?pnatr_eq0 //; apply/eqP => k0; move: hk; rewrite k0 expr0n /= => /esym/eqP.
by rewrite pnatr_eq0.
Qed.
Definition rim_type (v : nat) : nat := if v == 1%N then 0%N else 1%N.
Lemma ip_row_ok (t : F) : exists2 P : nat -> ip_data F,
  (exists2 C, 0 <= C & forall tau i, C < tau -> ip_stable 1 1 tau (P i) t) &
  [/\ valid_graph 1 3 (indexed row_nodes),
      forall e k, List.In e (indexed row_nodes) -> (k < size e.1)%N -> nth 0%N (ip_types (P e.2)) k = rim_type (nth 0%N e.1 k) &
      forall v, (v < 3)%N -> anchored (indexed row_nodes) (fun v => rim_type v \in [:: 1%N]) v].
Proof.
have hex i := @ip_ok_exists 1 (fun _ s => s.+1%:R) (fun _ _ _ => 1) (fun _ _ => 0) (fun _ _ _ => 0) (map rim_type (nth [::] row_nodes i)) (fun _ s => ltr0Sn F s).
have [P0 [h0 _ _ t0]] := hex 0%N; have [P1 [h1 _ _ t1]] := hex 1%N.
have [C0 c0 s0] := @ip_stable_large F 1 1 P0 t isT (h0 t); have [C1 c1 s1] := @ip_stable_large F 1 1 P1 t isT (h1 t).
exists (fun i => if i == 0%N then P0 else P1).
  exists (C0 + C1); first exact: addr_ge0.
  move=> tau i hC; case: eqP => _; [apply: s0 | apply: s1]; apply: le_lt_trans hC; by rewrite ?ler_addl ?ler_addr.
split=> //.
- by move=> e k [<-|[<-|[]]]; rewrite /= ?t0 ?t1; case: k => [|[|k]].
case=> [|[|[|v]]] // _; try exact: anchored_fixed.
apply: (@anchored_step _ _ _ ([:: 0; 1]%N, 0%N) 0%N) => //; first by left.
exact: anchored_fixed.
Qed.
End Ex.

(** The coefficient of the boundary terms is that of time 0. *)
Section Frozen.
Variable F : realFieldType.
Definition set_normal (P : ip_data F) (nbb nbp : F -> nat -> nat -> nat -> F) : ip_data F :=
  {| ip_stiff := ip_stiff P; ip_bb := ip_bb P; ip_bp := ip_bp P; ip_nbb := nbb; ip_nbp := nbp; ip_src := ip_src P;
     ip_dirval := ip_dirval P; ip_area := ip_area P; ip_diffsq := ip_diffsq P; ip_eval := ip_eval P; ip_types := ip_types P |}.
Lemma ip_frozen gesv dim p dirs tau P nbb nbp st x out t : nbb 0 = ip_nbb P 0 -> nbp 0 = ip_nbp P 0 ->
  ip_flux gesv dim p dirs tau (set_normal P nbb nbp) st x out t = ip_flux gesv dim p dirs tau P st x out t.
Proof.
move=> e1 e2; set P' := set_normal _ _ _.
have eA : ip_assemble_loc_matrix dim p tau P' t = ip_assemble_loc_matrix dim p tau P t.
  by rewrite /ip_assemble_loc_matrix /= e1.
have eD c : ip_dual dim p P' c = ip_dual dim p P c by rewrite /ip_dual /= e2.
have eS : ip_solve_local_problem gesv dim p dirs tau P' st x t = ip_solve_local_problem gesv dim p dirs tau P st x t.
  by rewrite /ip_solve_local_problem /ip_divide eA.
rewrite /ip_flux eS; case: ifP => // _; case: (ip_solve_local_problem _ _ _ _ _ _ _ _ _) => //= c.
by rewrite eD.
Qed.
End Frozen.
