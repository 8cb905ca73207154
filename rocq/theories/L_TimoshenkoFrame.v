(** The frames of the beams and their structural constants. *)
From mathcomp Require Import all_ssreflect all_algebra zify ring.
From Verif Require Import M_Base L_Base M_DenseLA S_DenseLA L_DenseLA M_Lapack S_Lapack L_Lapack M_Geometry L_Geometry8 L_Geometry9.
From Verif Require Import S_Tpp S_LocalSolver S_Diffusion S_Beam M_Timoshenko S_Timoshenko.
From Verif Require Import L_Cross L_TimoshenkoMech L_TimoshenkoMech2.
Set Implicit Arguments. Unset Strict Implicit. Unset Printing Implicit Defensive.
Import Order.TTheory GRing.Theory Num.Theory.
Local Open Scope ring_scope.

Lemma ok_inj (A : Type) (a b : A) : Ok a = Ok b -> a = b.
Proof. by case. Qed.

Section File.
Variable F : realFieldType.
Variable geqr2 : nat -> nat -> seq F -> qr_result F.
Variables (trans mat : seq F) (T : linear F) (D : tb_data F).
Notation g := (geqr2 3 1 mat).
Hypothesis hok : qr_info g -> geqr2_ok 3 1 mat (qr_fac g) (qr_tau g).
Hypotheses (hT : linear_new geqr2 3 1 trans mat = Ok T) (hD : on_file geqr2 T D).
Notation r := (mget 1 (l_r T) 0 0).
Let en : l_n T = 3%N. Proof. by have [] := linear_newE hT. Qed.
Let ed : l_d T = 1%N. Proof. by have [] := linear_newE hT. Qed.

Lemma file_frame : frame D = mx_of 3 3 (l_q T).
Proof.
case: hD => h1 h2 _; apply/matrixP => i j; rewrite [LHS]mxE [RHS]mx_ofE.
case: (posnP j) => hj.
  have e : get_column 3 (l_q T) 0 = mkseq (tb_tangent D) 3.
    by apply: ok_inj; rewrite -h1 /gf_inner_normal /linear_inner_normal en ed.
  by rewrite hj -(get_columnE _ _ (ltn_ord i)) e nth_mkseq.
have hj1 : (j - 1 < 2)%N by have := ltn_ord j; lia.
have e : get_column 3 (l_q T) (j - 1 + 1) = mkseq (tb_outer D (j - 1)) 3.
  by apply: ok_inj; rewrite -h2 // /gf_outer_normal /linear_outer_normal en ed hj1.
by have := congr1 (fun s => nth 0 s i) e; rewrite nth_mkseq // get_columnE // subnK // => ->; rewrite eqn0Ngt hj.
Qed.
Lemma file_orthonormal : orthonormal (frame D).
Proof. by rewrite /orthonormal file_frame; have [] := linear_newP hT isT isT hok. Qed.
Lemma file_ends : beam_ends D r (file_end T).
Proof.
have [_ h _ _] := linear_newP hT isT isT hok.
rewrite /beam_ends /file_end file_frame.
have [_ _ _ em] := linear_newE hT.
have lm v := @linear_mapE F T 1 v; rewrite en ed em in lm.
rewrite !lm opprD addrACA subrr addr0 -mulmxBr -h -mulmxA.
apply/colP => i; rewrite !mxE (bigD1 0) //= big1 ?addr0 => [|j hj].
  by rewrite !mxE big_ord1 !mxE /mget /loc /= subr0 mulr1 mulrC.
by rewrite !mxE big_ord1 !mxE; case: (j) hj => -[|n] //= *; rewrite mul0r mulr0.
Qed.
Lemma file_normals : r != 0 -> tb_normal D 0 = - Num.sg r /\ tb_normal D 1 = Num.sg r.
Proof.
move=> r0; case: hD => _ _ h; have := h 0%N isT; have := h 1%N isT.
rewrite /gf_local_normal /linear_local_normal ed /= => -[<-] [<-].
by case: (ltgtP r 0) r0 => // h0 _; rewrite ?(gtr0_sg h0) ?(ltr0_sg h0) ?mul1r ?mulN1r ?opprK.
Qed.
Lemma file_det : \det (frame D) = if (qr_tau g)`_0 == 0 then -1 else 1.
Proof.
rewrite file_frame.
have hi : qr_info g.
  by move: hT; rewrite /linear_new /qr_decomp /lapack_qr_decomp; case: (qr_info _).
have hc : r_clean 3 1 (zeros F 1 1) by constructor 2.
have [m [Q [R [e _ _ _ hdet]]]] := @qr_decomp_correct F geqr2 3 1 mat (zeros F 1 1) isT (erefl _) isT hc hi (hok hi).
have -> : l_q T = Q by move: hT; rewrite /linear_new e => -[<-].
by rewrite hdet /n_reflections /=; case: eqP => _ /=; rewrite ?expr0 ?expr1 -signr_odd /= ?expr0 ?expr1.
Qed.
(** Without a reflection the beam lies on the first axis. *)
Lemma file_reflection : (qr_tau g)`_0 = 0 -> mat`_1 = 0 /\ mat`_2 = 0.
Proof.
have hi : qr_info g.
  by move: hT; rewrite /linear_new /qr_decomp /lapack_qr_decomp; case: (qr_info _).
have [_ _ _ hA] := hok hi => t0.
have e1 : refl_prod 3 (qr_fac g) (qr_tau g) (minn 3 1) = 1%:M.
  by rewrite (_ : minn 3 1 = 1%N) // [LHS]mul1mx /reflector t0 scale0r subr0.
move: hA; rewrite e1 mul1mx => hA.
by split; [have /matrixP/(_ (inord 1) 0) := hA|have /matrixP/(_ (inord 2) 0) := hA]; rewrite !mxE inordK.
Qed.
End File.

(** Two beams whose frames have different hands agree on no rule for rigid rotations. *)
Section Hands.
Variable F : realFieldType.
Variable gesv : nat -> nat -> seq F -> seq F -> sv_result F.
Variables (dirs : seq nat) (tau : F) (p : nat) (b : nat -> {poly F}).
Hypotheses (tau0 : 0 < tau) (hg : gesv_correct gesv).
Notation zt := (zero_trace F 2 6).
Definition good_beam (D : tb_data F) (r : F) (P : 'I_2 -> 'cV[F]_3) : Prop :=
  [/\ segment_data b p r D, forall c, 0 < tb_k D c, tb_extra_fits D, orthonormal (frame D) & beam_ends D r P].
Lemma turn_ne0 (D : tb_data F) r P : good_beam D r P -> cross (col 1 (frame D)) (P 1 - P 0) != 0.
Proof.
case=> -[_ r0 _ _ _] _ _ hQ ->; rewrite crossZr scaler_eq0 (negbTE r0) /=.
rewrite !colE cross_orth // scaler_eq0 negb_or; apply/andP; split.
  by apply/eqP => h; have /eqP := det_orth hQ; rewrite h mul0r eq_sym oner_eq0.
apply/eqP => /(congr1 (mulmx (frame D)^T)); rewrite mulmx0 mulmxA hQ mul1mx => /colP/(_ (inord 2)).
rewrite !mxE !inordK //= => /eqP.
have d1 (i j : nat) : (i < 3)%N -> (j < 3)%N -> ((inord i : 'I_3) == inord j) = (i == j) by move=> h1 h2; rewrite -val_eqE /= !inordK.
have -> : (0 : 'I_3) = inord 0 by apply: val_inj; rewrite /= inordK.
have -> : (1 : 'I_3) = inord 1 by apply: val_inj; rewrite /= inordK.
by rewrite !mxE !d1 //= !mul0r sub0r mul1r oppr_eq0 oner_eq0.
Qed.
Lemma turn_flux (D : tb_data F) r P s : good_beam D r P -> (forall f, (f < 2)%N -> nth 0%N (tb_types D) f \notin dirs) ->
  (forall w x, is_trace 2 6 x -> rigid s 0 w P x -> tb_trace_to_flux gesv p dirs tau D x zt = Ok zt) ->
  s = - \det (frame D).
Proof.
move=> hG hf h; have [hd k0 fits hQ hP] := hG; pose w := col 1 (frame D).
pose x := trace_six (fun f => 0 + cross w (P f)) (fun _ => s *: w).
have hx : rigid s 0 w P x by move=> f; rewrite upper_six lower_six.
have tx : is_trace 2 6 x by [].
have [//|h0] := tb_handed hd k0 tau0 hg fits hQ hP hf tx hx (h w x tx hx).
by have := turn_ne0 hG; rewrite -/w h0 eqxx.
Qed.
Lemma hands_differ (D1 D2 : tb_data F) r1 r2 P1 P2 s : good_beam D1 r1 P1 -> good_beam D2 r2 P2 ->
  (forall f, (f < 2)%N -> nth 0%N (tb_types D1) f \notin dirs /\ nth 0%N (tb_types D2) f \notin dirs) ->
  \det (frame D1) <> \det (frame D2) ->
  ~ ((forall w x, is_trace 2 6 x -> rigid s 0 w P1 x -> tb_trace_to_flux gesv p dirs tau D1 x zt = Ok zt) /\
     (forall w x, is_trace 2 6 x -> rigid s 0 w P2 x -> tb_trace_to_flux gesv p dirs tau D2 x zt = Ok zt)).
Proof.
move=> g1 g2 hf hne [h1 h2]; apply: hne; apply: oppr_inj.
rewrite -(turn_flux g1 _ h1) ?(turn_flux g2 _ h2) // => f /hf[] //.
Qed.
End Hands.

Lemma file_hands_differ (F : realFieldType) (geqr2 : nat -> nat -> seq F -> qr_result F)
    (gesv : nat -> nat -> seq F -> seq F -> sv_result F) (p : nat) (dirs : seq nat) (tau : F) (b : nat -> {poly F})
    (t1 t2 m1 m2 : seq F) (T1 T2 : linear F) (D1 D2 : tb_data F) (s : F) :
  (forall nr nc A, qr_info (geqr2 nr nc A) -> geqr2_ok nr nc A (qr_fac (geqr2 nr nc A)) (qr_tau (geqr2 nr nc A))) ->
  gesv_correct gesv -> 0 < tau ->
  linear_new geqr2 3 1 t1 m1 = Ok T1 -> linear_new geqr2 3 1 t2 m2 = Ok T2 ->
  on_file geqr2 T1 D1 /\ on_file geqr2 T2 D2 ->
  segment_data b p (mget 1 (l_r T1) 0 0) D1 /\ segment_data b p (mget 1 (l_r T2) 0 0) D2 ->
  (forall c, 0 < tb_k D1 c /\ 0 < tb_k D2 c) -> tb_extra_fits D1 && tb_extra_fits D2 ->
  (forall f, (f < 2)%N -> nth 0%N (tb_types D1) f \notin dirs /\ nth 0%N (tb_types D2) f \notin dirs) ->
  (qr_tau (geqr2 3%N 1%N m1))`_0 = 0 -> (qr_tau (geqr2 3%N 1%N m2))`_0 != 0 ->
  let zt := zero_trace F 2 6 in
  ~ ((forall w x, is_trace 2 6 x -> rigid s 0 w (file_end T1) x -> tb_trace_to_flux gesv p dirs tau D1 x zt = Ok zt) /\
     (forall w x, is_trace 2 6 x -> rigid s 0 w (file_end T2) x -> tb_trace_to_flux gesv p dirs tau D2 x zt = Ok zt)).
Proof.
move=> hok hg tau0 e1 e2 [f1 f2] [d1 d2] hk /andP[x1 x2] hf r1 r2 zt.
have g1 : good_beam p b D1 (mget 1 (l_r T1) 0 0) (file_end T1).
  by split=> //; [move=> c; have [] := hk c|exact: (file_orthonormal (hok _ _ _) e1 f1)|exact: (file_ends (hok _ _ _) e1 f1)].
have g2 : good_beam p b D2 (mget 1 (l_r T2) 0 0) (file_end T2).
  by split=> //; [move=> c; have [] := hk c|exact: (file_orthonormal (hok _ _ _) e2 f2)|exact: (file_ends (hok _ _ _) e2 f2)].
apply: (hands_differ tau0 hg g1 g2 hf).
rewrite (file_det (hok _ _ _) e1 f1) (file_det (hok _ _ _) e2 f2) r1 eqxx (negbTE r2) => /eqP.
by rewrite eq_sym -addr_eq0 (_ : 1 + 1 = 2%:R) ?pnatr_eq0 // -natrD.
Qed.

(** Structural constants. *)
Section Constants.
Variable F : realFieldType.
Lemma tb_coeffsE (D : tb_data F) : tb_coeffs D = match tb_extra D with
  | None => nseq 6 1
  | Some e => let o i k := \sum_(d < 3) tb_outer D i d * nth 0 e (k + d) in
     let s := 10%:R ^+ 4 : F in let t := 10%:R ^+ 12 : F in
     [:: `|nth 0 e 0| * s; `|nth 0 e 1 * o 0%N 6%N + nth 0 e 2 * o 0%N 9%N| * s;
         `|nth 0 e 1 * o 1%N 6%N + nth 0 e 2 * o 1%N 9%N| * s; `|nth 0 e 3| * t;
         `|nth 0 e 4 * o 0%N 6%N + nth 0 e 5 * o 0%N 9%N| * t; `|nth 0 e 4 * o 1%N 6%N + nth 0 e 5 * o 1%N 9%N| * t]
  end.
Proof.
have sE v e k : @tb_scalar F v e k = \sum_(d < 3) v d * nth 0 e (k + d).
  by rewrite /tb_scalar /for_ /= !big_ord_recr big_ord0 /=.
rewrite /tb_coeffs; case: (tb_extra D) => [e|]; last by rewrite /for_ /= !normr1.
rewrite !sE; move: (10%:R ^+ 4) (10%:R ^+ 12) (exprn_ge0 4 (ler0n F 10)) (exprn_ge0 12 (ler0n F 10)) => s t hs ht.
move: (_ * _ + _) (_ * _ + _) (_ * _ + _) (_ * _ + _) => c1 c2 c4 c5.
by rewrite /for_ /= !normrM (ger0_norm hs) (ger0_norm ht).
Qed.
(** The outer normals are axes of the section. *)
Lemma aligned_coeffs sw (D : tb_data F) (e : seq F) : section_axes D e -> aligned sw D e -> tb_extra D = Some e ->
  tb_coeffs D = let s := 10%:R ^+ 4 : F in let t := 10%:R ^+ 12 : F in
    [:: `|nth 0 e 0| * s; `|nth 0 e (if sw then 2 else 1)%N| * s; `|nth 0 e (if sw then 1 else 2)%N| * s;
        `|nth 0 e 3| * t; `|nth 0 e (if sw then 5 else 4)%N| * t; `|nth 0 e (if sw then 4 else 5)%N| * t].
Proof.
move=> [n6 n9 n69 _ _] [s hs] he; rewrite tb_coeffsE he.
have m3 (v w : nat -> F) : mdot (\col_(d < 3) v d) (\col_(d < 3) w d) = \sum_(d < 3) v d * w d.
  by apply: eq_bigr => d _; rewrite big_ord1 !mxE.
rewrite (m3 (fun d => nth 0 e (6 + d)) (fun d => nth 0 e (6 + d))) in n6.
rewrite (m3 (fun d => nth 0 e (9 + d)) (fun d => nth 0 e (9 + d))) in n9.
rewrite (m3 (fun d => nth 0 e (6 + d)) (fun d => nth 0 e (9 + d))) in n69.
have n96 : \sum_(d < 3) nth 0 e (9 + d) * nth 0 e (6 + d) = 0.
  by rewrite -[RHS]n69; apply: eq_bigr => d _; rewrite mulrC.
have oE i k : (i < 2)%N -> \sum_(d < 3) tb_outer D i d * nth 0 e (k + d) =
    s i * \sum_(d < 3) nth 0 e ((if sw (+) (i == 1%N) then 9 else 6) + d)%N * nth 0 e (k + d)%N.
  move=> hi; rewrite mulr_sumr; apply: eq_bigr => d _; rewrite mulrA.
  by have [_ h] := hs i hi; rewrite h.
have [s0 _] := hs 0%N isT; have [s1 _] := hs 1%N isT; cbv beta zeta; rewrite !oE //.
have nm (a : F) i : `|s i| = 1 -> `|a * s i| = `|a| by move=> h; rewrite normrM h mulr1.
by case: (sw) => /=; rewrite ?n6 ?n9 ?n69 ?n96 !mulr0 !mulr1 ?add0r ?addr0 !nm.
Qed.
End Constants.
