(** Proofs about M_Timoshenko: form of the operator, rigid motions, equilibrium, for the arrays. *)
From mathcomp Require Import all_ssreflect all_algebra zify ring.
From Verif Require Import M_Base L_Base M_Lapack S_Lapack.
From Verif Require Import S_Tpp S_LocalSolver M_DiffusionUniform L_LocalLink.
From Verif Require Import S_Diffusion S_Beam L_Beam M_Timoshenko S_Timoshenko L_Segment L_TimoshenkoFlux L_Cross L_TimoshenkoMech.
Set Implicit Arguments. Unset Strict Implicit. Unset Printing Implicit Defensive.
Import Order.TTheory GRing.Theory Num.Theory.
Local Open Scope ring_scope.

Section Mech.
Variable F : realFieldType.
Variable gesv : nat -> nat -> seq F -> seq F -> sv_result F.
Variables (p : nat) (dirs : seq nat) (tau : F) (D : tb_data F) (b : nat -> {poly F}) (r : F).
Notation B := (tb_beam p D).
Notation k := (tb_k D).
Hypothesis hd : segment_data b p r D.
Hypothesis k0 : forall c, 0 < k c.
Hypothesis tau0 : 0 < tau.
Hypothesis hg : gesv_correct gesv.
Hypothesis fits : tb_extra_fits D.
Notation flux := (tb_trace_to_flux gesv p dirs tau D).
Notation residual := (tb_residual_flux gesv p dirs tau D).
Notation tflux := (tb_flux gesv p dirs tau D).
Notation zt := (zero_trace F 2 6).
Notation loc x := (ends x *m frame2 D).
Notation given f := (nth 0%N (tb_types D) f \in dirs).
Notation off := (vanishes (fun f => given f) 2 6).
Notation free := (forall f, (f < 2)%N -> ~~ given f).
Let okB := segment_ok hd.
Let flux_ok := @tb_flux_ok F gesv p dirs tau D b r hd k0 tau0 hg fits.

Lemma tb_uniq q u q' u' X Rq Ru : beam_eq B k tau q u X Rq Ru -> beam_eq B k tau q' u' X Rq Ru -> q = q' /\ u = u'.
Proof.
move=> h h'; have := beam_eq_comb 1 (-1) h h'; rewrite !scale1r !scaleN1r !subrr => h0.
by have [/eqP + /eqP] := beam_unique okB k0 tau0 h0; rewrite !subr_eq0 => /eqP -> /eqP ->.
Qed.
(** The result in terms of any solution of the beam equations. *)
Lemma tb_flux_by (t : bool) x y q u : is_trace 2 6 x -> is_trace 2 6 y ->
  beam_eq B k tau q u (loc x) (t%:R *: load_q dirs p D) (t%:R *: load_u dirs p tau D) ->
  exists2 z, tflux t x y = Ok z & is_trace 2 6 z /\
    ends z = masked dirs D (ends y + beam_flux B tau q u (loc x) *m (frame2 D)^T).
Proof.
move=> hx hy h; have [q' [u' [z [hz tz h' ez]]]] := flux_ok t hx hy.
by have [-> ->] := tb_uniq h h'; exists z.
Qed.
Lemma zero_load (Rq Ru : 'M[F]_(p + 1, 6)) q u X :
  beam_eq B k tau q u X (false%:R *: Rq) (false%:R *: Ru) <-> beam_eq B k tau q u X 0 0.
Proof. by rewrite !scale0r. Qed.
Lemma tb_affine (t : bool) c x x' y y' : is_trace 2 6 x -> is_trace 2 6 x' -> is_trace 2 6 y -> is_trace 2 6 y' ->
  exists z z', [/\ flux x y = Ok z, tflux t x' y' = Ok z' &
    tflux t (comb_trace c 2 6 x x') (comb_trace c 2 6 y y') = Ok (comb_trace c 2 6 z z')].
Proof.
move=> hx hx' hy hy'; have [q [u [z [hz tz h ez]]]] := flux_ok false hx hy.
have [q' [u' [z' [hz' tz' h' ez']]]] := flux_ok t hx' hy'; exists z, z'; split=> //.
have := beam_eq_comb c 1 h h'; rewrite !scale0r !scaler0 !add0r !scale1r => hc.
have cx : is_trace 2 6 (comb_trace c 2 6 x x') by exact: comb_is_trace.
have cy : is_trace 2 6 (comb_trace c 2 6 y y') by exact: comb_is_trace.
rewrite scalemxAl -mulmxDl -ends_comb in hc.
have [w -> [tw ew]] := tb_flux_by cx cy hc; congr Ok; apply: ends_inj; [exact: tw | exact: comb_is_trace |].
rewrite ew [RHS]ends_comb ez ez' -maskedZ -maskedD; congr masked.
have hf : beam_flux B tau (c *: q + q') (c *: u + u') (loc (comb_trace c 2 6 x x')) =
    c *: beam_flux B tau q u (loc x) + beam_flux B tau q' u' (loc x') :> 'M[F]_(2, 3 + 3).
  by have := beam_flux_comb B tau c 1 q u (loc x) q' u' (loc x'); rewrite !scale1r ends_comb mulmxDl -scalemxAl.
rewrite hf ends_comb mulmxDl -scalemxAl scalerDr.
by rewrite addrACA.
Qed.
Lemma tb_off (t : bool) x y z : is_trace 2 6 x -> is_trace 2 6 y -> tflux t x y = Ok z -> is_trace 2 6 z /\ off z.
Proof.
move=> hx hy hz; have [q [u [z' [hz' tz h ez]]]] := flux_ok t hx hy.
have -> : z = z' by congruence.
split=> // f c hf hc hgf.
by have /matrixP/(_ (Ordinal hf) (Ordinal hc : 'I_(3 + 3))) := ez; rewrite mxE [RHS]mxE hgf.
Qed.
(** Work of the flux against another motion. *)
Lemma tb_work (t : bool) x x' q u : is_trace 2 6 x -> off x' ->
  beam_eq B k tau q u (loc x) (t%:R *: load_q dirs p D) (t%:R *: load_u dirs p tau D) ->
  exists2 z, tflux t x zt = Ok z & pairing 2 6 x' z = mdot (loc x') (beam_flux B tau q u (loc x)).
Proof.
move=> hx hx' h; have [z hz [tz ez]] := tb_flux_by hx (@zero_is_trace F) h; exists z => //.
by rewrite pairing_mdot ez mdot_masked // ends_zero add0r mdot_r trmxK.
Qed.
Lemma tb_symmetric x x' : is_trace 2 6 x -> is_trace 2 6 x' -> off x -> off x' ->
  exists z z', [/\ flux x zt = Ok z, flux x' zt = Ok z' & pairing 2 6 x' z = pairing 2 6 x z'].
Proof.
move=> hx hx' ox ox'.
have [q [u [_ [_ _ h _]]]] := flux_ok false hx (@zero_is_trace F).
have [q' [u' [_ [_ _ h' _]]]] := flux_ok false hx' (@zero_is_trace F).
have [z hz ez] := tb_work hx ox' h; have [z' hz' ez'] := tb_work hx' ox h'.
exists z, z'; split=> //; rewrite ez ez' (beam_energy okB h h') (beam_energy okB h' h) !scale0r !mdot0r !addr0.
by rewrite (beam_form_sym _ _ okB).
Qed.
Lemma tb_energy x : is_trace 2 6 x -> off x -> exists z q u,
  [/\ flux x zt = Ok z, beam_eq B k tau q u (loc x) 0 0 & pairing 2 6 x z = - beam_form B k tau q u (loc x) q u (loc x)].
Proof.
move=> hx ox; have [q [u [_ [_ _ h _]]]] := flux_ok false hx (@zero_is_trace F).
have [z hz ez] := tb_work hx ox h; exists z, q, u; split=> //; first by rewrite !scale0r in h.
by rewrite ez (beam_energy okB h h) !scale0r !mdot0r !addr0.
Qed.
Lemma tb_nonpos x : is_trace 2 6 x -> off x -> exists2 z, flux x zt = Ok z & pairing 2 6 x z <= 0.
Proof.
move=> hx ox; have [z [q [u [hz h e]]]] := tb_energy hx ox; exists z => //.
by rewrite e oppr_le0; apply: (beam_form_ge0 okB).
Qed.
Lemma tb_unstrained x z : is_trace 2 6 x -> off x -> flux x zt = Ok z -> pairing 2 6 x z = 0 ->
  unstrained r (row 0 (loc x)) (loc x).
Proof.
move=> hx ox hz hp; have [q [u [_ [_ _ h _]]]] := flux_ok false hx (@zero_is_trace F).
have [z' hz' ez] := tb_work hx ox h; have [e] : Ok z = Ok z' by rewrite -hz -hz'.
rewrite -e hp in ez; rewrite !scale0r in h.
by have [_ _] := beam_kernel okB k0 tau0 h (esym ez).
Qed.
Variable P : 'I_2 -> 'cV[F]_3.
Hypotheses (hQ : orthonormal (frame D)) (hP : beam_ends D r P).
Notation e := (\det (frame D)).
Lemma tb_kernel x z : is_trace 2 6 x -> off x -> flux x zt = Ok z -> pairing 2 6 x z = 0 ->
  exists a w, rigid (- e) a w P x.
Proof. by move=> hx ox hz hp; apply/(rigid_iff hQ hP x); apply: (tb_unstrained hx ox hz). Qed.
Lemma tb_rigid x a w : (0 < p)%N -> is_trace 2 6 x -> rigid (- e) a w P x -> flux x zt = Ok zt.
Proof.
move=> p0 hx hr; have hu : unstrained r (row 0 (loc x)) (loc x) by apply/(rigid_iff hQ hP x); exists a, w.
have [q [u [z [hz tz h ez]]]] := flux_ok false hx (@zero_is_trace F).
rewrite {1}/tb_trace_to_flux hz; congr Ok; apply: ends_inj => //; rewrite !scale0r in h.
by rewrite ez (flux_rigid okB k0 tau0 (segment_linear hd p0) hu h) mul0mx addr0 ends_zero masked0.
Qed.
Lemma translate_row x a : (forall f, upper3 x f = a /\ lower3 x f = 0) ->
  let v := row_mx ((frame D)^T *m a)^T 0 : 'rV[F]_(3 + 3) in
  v *m (coupling F)^T = 0 /\ forall f, row f (loc x) = v.
Proof.
move=> h v; split.
  have := coupling_cross ((frame D)^T *m a) 0; rewrite trmx0 => ->.
  have -> : cross 0 (axis F) = 0 by rewrite crossC crossv0 oppr0.
  by rewrite trmx0 row_mx0.
by move=> f; have [hu hl] := h f; rewrite row_frame hu hl mulmx0 trmx0.
Qed.
Lemma tb_translate x a : is_trace 2 6 x -> (forall f, upper3 x f = a /\ lower3 x f = 0) -> flux x zt = Ok zt.
Proof.
move=> hx ha; have [hv hX] := translate_row ha.
have [h0 _] := beam_translate k tau okB hv hX.
have [] := @tb_flux_by false x zt 0 (seg_one F p *m row_mx ((frame D)^T *m a)^T 0) hx (@zero_is_trace F).
  by rewrite !scale0r.
move=> z hz [tz ez]; rewrite {1}/tb_trace_to_flux hz; congr Ok; apply: ends_inj => //.
have [_ e'] := beam_translate k tau okB hv hX.
by rewrite ez ends_zero /beam_flux e' subrr mulmx0 scaler0 addr0 mul0mx addr0 masked0.
Qed.
Lemma tb_forces (t : bool) x : free -> is_trace 2 6 x -> exists2 z, tflux t x zt = Ok z &
  \sum_f upper3 z f = t%:R *: (frame D *m \col_(c < 3) tb_load D c 0).
Proof.
move=> hf hx; have [q [u [_ [_ _ h _]]]] := flux_ok t hx (@zero_is_trace F).
have [z hz [tz ez]] := tb_flux_by hx (@zero_is_trace F) h; exists z => //.
set w := RHS; apply/eqP; rewrite -subr_eq0; apply/eqP.
suff key a : mdot a (\sum_f upper3 z f - w) = 0 by apply: mdot_eq0; exact: key.
rewrite mdotBr; pose x' := trace_six (fun=> a) (fun=> 0).
have [hv hX] := @translate_row x' a (fun f => conj (upper_six _ _ f) (lower_six _ _ f)).
have e1 : pairing 2 6 x' z = mdot a (\sum_f upper3 z f).
  rewrite pairing_mdot mdot_ends (big_morph _ (mdotDr a) (mdot0r a)); apply: eq_bigr => f _.
  by rewrite upper_six lower_six mdot0l addr0.
have ox' : off x' by move=> f c hf2 _ hgf; have := hf f hf2; rewrite hgf.
have [z' hz' ez'] := tb_work hx ox' h; have ee : z = z' by congruence.
rewrite -e1 {1}ee ez' (flux_translate okB hv hX h) mdotZr /w mdotZr -mulrBr.
apply/eqP; rewrite mulf_eq0; apply/orP; right; rewrite subr_eq0; apply/eqP.
have -> : load_u dirs p tau D = \matrix_(i, c) tb_load D c i.
  apply/matrixP => i c; rewrite !mxE big_pred0 ?mulr0 ?addr0 // => f; exact/negbTE/hf.
rewrite [RHS]mdot_l mdotC mdot_l /seg_one trmx_delta -rowE mdot_col.
rewrite /mdot big_ord1 (@big_split_ord _ _ _ 3 3) /= [X in _ + X]big1 ?addr0 => [|c _]; last first.
  by rewrite [X in _ * X](@row_mxEr _ 1 3 3) [X in _ * X]mxE mulr0.
apply: eq_bigr => c _; rewrite [X in _ * X](@row_mxEl _ 1 3 3) mulrC; move: ((frame D)^T *m a) => v.
by rewrite !mxE.
Qed.
Lemma tb_moments x : (0 < p)%N -> free -> is_trace 2 6 x -> exists2 z, flux x zt = Ok z &
  \sum_f cross (P f) (upper3 z f) = e *: \sum_f lower3 z f.
Proof.
move=> p0 hf hx; have [q [u [_ [_ _ h _]]]] := flux_ok false hx (@zero_is_trace F).
have [z hz [tz ez]] := tb_flux_by hx (@zero_is_trace F) h; exists z => //.
apply/eqP; rewrite -subr_eq0; apply/eqP.
suff key w : mdot w (\sum_f cross (P f) (upper3 z f) - e *: \sum_f lower3 z f) = 0 by apply: mdot_eq0; exact: key.
pose x' := trace_six (fun f => cross w (P f)) (fun=> - e *: w).
have hu : unstrained r (row 0 (loc x')) (loc x').
  by apply/(rigid_iff hQ hP x'); exists 0, w => f; rewrite upper_six lower_six add0r.
have ox' : off x' by move=> f c hf2 _ hgf; have := hf f hf2; rewrite hgf.
have [z' hz' ez'] := tb_work hx ox' h; have ee : z' = z by congruence.
rewrite ee (flux_balance okB (segment_linear hd p0) hu h) scale0r mdot0r pairing_mdot mdot_ends in ez'.
rewrite -[RHS]ez' mdotBr mdotZr !(big_morph _ (mdotDr w) (mdot0r w)) mulr_sumr -sumrB; apply: eq_bigr => f _.
by rewrite upper_six lower_six cross_triple mdotZl mulNr.
Qed.
(** A rotation without flux has the sign of the frame, unless it is about the beam. *)
Lemma tb_handed x s a w : free -> is_trace 2 6 x -> rigid s a w P x -> flux x zt = Ok zt ->
  s = - e \/ cross w (P 1 - P 0) = 0.
Proof.
move=> hf hx hr hz; have ox : off x by move=> f c hf2 _ hgf; have := hf f hf2; rewrite hgf.
have hp : pairing 2 6 x zt = 0 by rewrite pairing_mdot ends_zero mdot0r.
have /(unstrained_iff hQ hP x)[_ h1] := tb_unstrained hx ox hz hp.
have [u0 l0] := hr 0; have [u1 l1] := hr 1; rewrite l0 u0 u1 crossZl scalerA in h1.
have h2 : cross w (P 1 - P 0) = - (e * s *: cross w (P 1 - P 0)).
  apply: (@addrI _ (a + cross w (P 0))); rewrite -[RHS]h1 {1}crossBr -addrA [cross w (P 0) + _]addrC.
  by rewrite subrK.
have hw : (1 + e * s) *: cross w (P 1 - P 0) = 0 by rewrite scalerDl scale1r {1}h2 addNr.
move/eqP: hw; rewrite scaler_eq0 => /orP[/eqP hs|/eqP]; last by right.
left; have ee := det_orth hQ.
have : e * (1 + e * s) = 0 by rewrite hs mulr0.
by rewrite mulrDr mulr1 mulrA ee mul1r addrC => /eqP; rewrite addr_eq0 => /eqP.
Qed.
End Mech.
