(** The coupled problems with a reaction term: Green operator, irregular values, nearby values. *)
From mathcomp Require Import all_ssreflect all_algebra zify ring.
From Verif Require Import S_Hdg S_Tpp S_LocalSolver M_DiffusionUniform M_Diffusion S_Diffusion S_TppGeo.
From Verif Require Import L_Hdg L_HdgSrc L_LocalBase L_LocalLink L_EigHdg.
From Verif Require Import M_Bilaplacian S_Bilaplacian L_Bilaplacian L_Bilaplacian3 L_Bilaplacian5 S_BiReact L_BilapReact L_BiReg.
Set Implicit Arguments. Unset Strict Implicit. Unset Printing Implicit Defensive.
Import Order.TTheory GRing.Theory Num.Theory.
Local Open Scope ring_scope.

(** ** Fixed points near a solution *)
Section Near.
Variables (F : realFieldType) (nf : nat) (G : 'M[F]_nf) (b : F) (u0 u1 : 'cV[F]_nf).
Lemma fixed_near : exists K delta, [/\ 0 <= K, 0 < delta,
    forall t (u : 'cV[F]_nf), `|t| <= delta -> u = G *m ((t * b) *: u) -> u = 0 &
    forall t (u : 'cV[F]_nf), `|t| <= delta -> u = t *: u1 + u0 + G *m ((t * b) *: u) -> nrm ((t * b) *: (u - u0)) <= K * t ^+ 2].
Proof.
pose delta := (2%:R * (`|b| * nrm G + 1))^-1.
have bG : 0 <= `|b| * nrm G by rewrite mulr_ge0 ?nrm_ge0.
have d0 : 0 < delta by rewrite invr_gt0 mulr_gt0 ?ltr0n // ltr_paddl.
have d1 : delta <= 1.
  rewrite invf_le1 ?mulr_gt0 ?ltr0n ?ltr_paddl //.
  by apply: mulr_ege1; rewrite ?ler1n // ler_addr.
have half t : `|t| <= delta -> 2%:R * (`|t * b| * nrm G) <= 1.
  move=> ht; rewrite normrM -mulrA.
  have : `|t| * (2%:R * (`|b| * nrm G + 1)) <= 1.
    by rewrite -ler_pdivl_mulr ?mulr_gt0 ?ltr0n ?ltr_paddl // div1r.
  apply: le_trans; rewrite mulrCA ler_wpmul2l // ler_wpmul2l ?ler0n // ler_addl.
  exact: ler01.
exists (`|b| * nrm u1 + b ^+ 2 * (nrm G * (2%:R * (nrm u0 + nrm u1)))), delta; split=> // [|t u ht hu|t u ht eut].
- apply: addr_ge0; apply: mulr_ge0; rewrite ?nrm_ge0 ?sqr_ge0 //.
  apply: mulr_ge0; rewrite ?nrm_ge0 //; apply: mulr_ge0; rewrite ?ler0n // addr_ge0 ?nrm_ge0 //.
- apply: nrm_eq0.
  have hn : nrm u <= `|t * b| * nrm G * nrm u.
    rewrite {1}hu -scalemxAr nrmZ -mulrA ler_wpmul2l //; exact: nrmM.
  have : 2%:R * nrm u <= nrm u.
    apply: (le_trans (y := 2%:R * (`|t * b| * nrm G * nrm u))); first by rewrite ler_wpmul2l ?ler0n.
    by rewrite mulrA ler_pimull ?nrm_ge0 // half.
  by rewrite mulr_natl mulr2n ger_addl.
pose r := b *: u1 + b ^+ 2 *: (G *m u).
have er : (t * b) *: (u - u0) = t ^+ 2 *: r.
  have -> : u - u0 = t *: (u1 + b *: (G *m u)).
    by rewrite {1}eut addrAC addrK scalerDr -scalemxAr scalerA.
  by rewrite /r expr2 !scalerDr !scalerA; congr (_ *: _ + _ *: _); ring.
have hu : nrm u <= 2%:R * (nrm u0 + nrm u1).
  have hn : nrm u <= nrm u1 + nrm u0 + `|t * b| * nrm G * nrm u.
    rewrite {1}eut; apply: (le_trans (nrmD _ _)); apply: ler_add.
      apply: (le_trans (nrmD _ _)); rewrite nrmZ ler_add2r ler_pimull ?nrm_ge0 //.
      exact: le_trans ht d1.
    by rewrite -scalemxAr nrmZ -mulrA ler_wpmul2l // nrmM.
  have hh : 2%:R * (`|t * b| * nrm G * nrm u) <= nrm u by rewrite mulrA ler_pimull ?nrm_ge0 ?half.
  have : 2%:R * nrm u <= 2%:R * (nrm u1 + nrm u0) + nrm u.
    apply: (le_trans (y := 2%:R * (nrm u1 + nrm u0 + `|t * b| * nrm G * nrm u))); first by rewrite ler_wpmul2l ?ler0n.
    by rewrite mulrDr ler_add2l.
  by rewrite {1}mulr_natl mulr2n ler_add2r [nrm u1 + _]addrC.
rewrite er nrmZ ger0_norm ?sqr_ge0 // mulrC ler_wpmul2r ?sqr_ge0 //.
rewrite /r; apply: (le_trans (nrmD _ _)); rewrite !nrmZ [`|b ^+ 2|]ger0_norm ?sqr_ge0 // ler_add2l ler_wpmul2l ?sqr_ge0 //.
by apply: (le_trans (nrmM _ _)); rewrite ler_wpmul2l ?nrm_ge0.
Qed.
End Near.

Section React.
Variable F : realFieldType.
Variables (dim p : nat) (tau : F) (P : bl_data F) (m : F).
Hypotheses (dim0 : (0 < dim)%N) (m0 : m != 0) (hM : df_mass_mx dim p (bl_df P) = m%:M).
Notation H := (bl_hdg dim p P).
Notation W := (bl_coef dim p P).
Notation M := (df_mass_mx dim p (bl_df P)).
Notation nf := ((p + 1) ^ dim)%N.
Notation nb := ((p + 1) ^ (dim - 1))%N.
Notation nF := (2 * dim)%N.
Notation zero := (fun _ : 'I_dim => 0 : 'cV[F]_nf).
Notation loc c q u r w x y rw := (bi_react dim p tau P c q u r w x y zero 0 zero rw).
Notation reg := (bi_regular dim p tau P).
Implicit Types (q r rq rr : 'I_dim -> 'cV[F]_nf) (u w ru rw : 'cV[F]_nf) (x y : 'I_nF -> 'cV[F]_nb).

Lemma react_shift c s q u r w x y : loc (c + s) q u r w x y 0 <-> loc c q u r w x y ((s * m) *: u).
Proof. by rewrite /bi_react hM !mul_scalar_mx !scalerA mulrDl scalerDl add0r [_ + (s * m) *: u]addrC. Qed.
Lemma rlin c a q u r w x y rw q' u' r' w' x' y' rw' :
  loc c q u r w x y rw -> loc c q' u' r' w' x' y' rw' ->
  loc c (fun d => a *: q d + q' d) (a *: u + u') (fun d => a *: r d + r' d) (a *: w + w')
    (fun f => a *: x f + x' f) (fun f => a *: y f + y' f) (a *: rw + rw').
Proof. by move=> h1 h2; apply: react_ext (react_lin a h1 h2) => // [d||d]; rewrite scaler0 addr0. Qed.
Lemma rext c q u r w x y rw q' u' r' w' x' y' rw' :
  (forall d, q d = q' d) -> u = u' -> (forall d, r d = r' d) -> w = w' ->
  (forall f, x f = x' f) -> (forall f, y f = y' f) -> rw = rw' ->
  loc c q u r w x y rw -> loc c q' u' r' w' x' y' rw'.
Proof.
move=> hq <- hr <- hx hy <- [h1 h2]; split; [apply: src_ext h1 | apply: src_ext h2] => //.
Qed.
Lemma rzero_loc c : loc c zero 0 zero 0 (fun=> 0) (fun=> 0) 0.
Proof. by split; rewrite mulmx0 ?scaler0 addr0; exact: zero_loc. Qed.

Section Green.
Variable c : F.
Hypothesis hex : forall rw, exists q u r w, loc c q u r w (fun=> 0) (fun=> 0) rw.
Lemma bi_green : exists (Q R : 'I_dim -> 'M[F]_nf) (G Z : 'M[F]_nf), forall v : 'cV[F]_nf,
  loc c (fun d => Q d *m v) (G *m v) (fun d => R d *m v) (Z *m v) (fun=> 0) (fun=> 0) v.
Proof.
have /fin_all_exists[qs /fin_all_exists[us /fin_all_exists[rs /fin_all_exists[ws hs]]]] :
  forall k : 'I_nf, exists q u r w, loc c q u r w (fun=> 0) (fun=> 0) (delta_mx k 0).
  by move=> k; exact: hex.
exists (fun d => \matrix_(i, k) qs k d i 0), (fun d => \matrix_(i, k) rs k d i 0),
  (\matrix_(i, k) us k i 0), (\matrix_(i, k) ws k i 0) => v.
have hsum (l : seq 'I_nf) : loc c (fun d => \sum_(k <- l) v k 0 *: qs k d) (\sum_(k <- l) v k 0 *: us k)
    (fun d => \sum_(k <- l) v k 0 *: rs k d) (\sum_(k <- l) v k 0 *: ws k)
    (fun=> 0) (fun=> 0) (\sum_(k <- l) v k 0 *: delta_mx k 0).
  elim: l => [|k l IH]; first by apply: rext (rzero_loc c) => // [d||d||]; rewrite big_nil.
  by apply: rext (rlin (v k 0) (hs k) IH) => // [d||d||f|f|]; rewrite ?big_cons // scaler0 addr0.
apply: rext (hsum (index_enum _)) => // [d||d||]; last first.
  apply/colP => i; rewrite summxE (bigD1 i) //= big1 => [|k hk]; first by rewrite !mxE eqxx mulr1 addr0.
  by rewrite !mxE eq_sym (negbTE hk) mulr0.
all: by apply/colP => i; rewrite summxE mxE; apply: eq_bigr => k _; rewrite !mxE mulrC.
Qed.

Hypothesis hreg : reg c.
(** Irregular values are few. *)
Lemma bi_irregular_few (s : seq F) : uniq s -> (forall a, a \in s -> ~ reg a) -> (size s <= nf)%N.
Proof.
move=> us hs; have [Q [R [G [Z hG]]]] := bi_green.
pose roots := [seq ((a - c) * m)^-1 | a <- s].
have ne a : a \in s -> (a - c) * m != 0.
  move=> ha; rewrite mulf_neq0 // subr_eq0; apply/eqP => eac; apply: (hs a ha); rewrite eac //.
have ur : uniq roots.
  rewrite map_inj_in_uniq // => a a' _ _ /invr_inj /(mulIf m0) /(congr1 (fun z => z + c)).
  by rewrite !subrK.
have hroot : all (root (char_poly G^T)) roots.
  apply/allP => z /mapP[a ha ->]; rewrite -eigenvalue_root_char.
  have : ~ (forall u : 'cV[F]_nf, ((a - c) * m) *: (G *m u) = u -> u = 0).
    move=> h0; apply: (hs a ha) => q u r w h1.
    have h2 : loc c q u r w (fun=> 0) (fun=> 0) (((a - c) * m) *: u) by apply/react_shift; rewrite addrC subrK.
    have [hq hu hr hw] := react_unique hreg h2 (hG _).
    have u0 : u = 0 by apply: h0; rewrite {2}hu -scalemxAr.
    by split=> [d||d|]; rewrite ?hq ?hr ?hw u0 // scaler0 mulmx0.
  apply: contra_notT => /eigenvalueP hne u hu.
  apply/eqP; apply: contraT => u0; case: hne; exists u^T; last first.
    by apply: contraNneq u0 => /(congr1 trmx); rewrite trmxK trmx0 => ->.
  rewrite -trmx_mul -linearZ /=; congr trmx.
  by rewrite -{2}hu scalerA mulVf ?scale1r ?ne.
have c0 : char_poly G^T != 0 by rewrite monic_neq0 ?char_poly_monic.
have := max_poly_roots c0 hroot ur.
by rewrite size_char_poly ltnS size_map.
Qed.

(** ** Nearby values of c *)
Section Near.
Variables (e : F) (x y eta zeta : 'I_nF -> 'cV[F]_nb) (q0 q1 q2 r0 r1 r2 : 'I_dim -> 'cV[F]_nf) (u0 u1 u2 w0 w1 w2 : 'cV[F]_nf).
Hypotheses (h0 : loc c q0 u0 r0 w0 x y 0) (h1 : loc c q1 u1 r1 w1 eta zeta 0).
Hypothesis h2 : loc c q2 u2 r2 w2 (fun=> 0) (fun=> 0) ((e * m) *: u0).
Lemma react_near : exists K delta, [/\ 0 < delta, forall t, `|t| <= delta -> reg (c + t * e) &
  forall t q u r w, `|t| <= delta ->
    loc (c + t * e) q u r w (fun f => t *: eta f + x f) (fun f => t *: zeta f + y f) 0 ->
    forall f j,
     `|num_flux H tau q u (fun f => t *: eta f + x f) f j 0 - num_flux H tau q0 u0 x f j 0 -
       t * (num_flux H tau q1 u1 eta f j 0 + num_flux H tau q2 u2 (fun=> 0) f j 0)| <= K * t ^+ 2 /\
     `|num_flux H tau r w (fun f => t *: zeta f + y f) f j 0 - num_flux H tau r0 w0 y f j 0 -
       t * (num_flux H tau r1 w1 zeta f j 0 + num_flux H tau r2 w2 (fun=> 0) f j 0)| <= K * t ^+ 2].
Proof.
have [Q [R [G [Z hG]]]] := bi_green.
pose L (Q : 'I_dim -> 'M[F]_nf) (G : 'M[F]_nf) f : 'M[F]_(nb, nf) := \sum_d hnu H f d *: ((hE H f)^T *m Q d) + tau *: ((hE H f)^T *m G).
have hL (Q' : 'I_dim -> 'M[F]_nf) (G' : 'M[F]_nf) f v :
    num_flux H tau (fun d => Q' d *m v) (G' *m v) (fun=> 0) f = L Q' G' f *m v.
  rewrite /num_flux scaler0 subr0 /L mulmxDl mulmx_suml -scalemxAl mulmxA; congr (_ + _).
  by apply: eq_bigr => d _; rewrite -scalemxAl mulmxA.
have [K [delta [K0 d0 n1 n2]]] := fixed_near G (e * m) u0 u1.
exists ((\sum_f nrm (L Q G f) + \sum_f nrm (L R Z f)) * K), delta; split=> // [t ht q u r w|t q u r w ht].
  move/react_shift => h3; have [hq hu hr hw] := react_unique hreg h3 (hG _).
  have u00 : u = 0 by apply: (n1 t u ht); rewrite {1}hu mulrA.
  by split=> [d||d|]; rewrite ?hq ?hr ?hw u00 // scaler0 mulmx0.
move/react_shift => h3 f j.
have e1 := rlin t h1 h0.
have e2 : loc c (fun d => -1 *: (t *: q1 d + q0 d) + q d) (-1 *: (t *: u1 + u0) + u)
    (fun d => -1 *: (t *: r1 d + r0 d) + r d) (-1 *: (t *: w1 + w0) + w) (fun=> 0) (fun=> 0) ((t * (e * m)) *: u).
  by apply: rext (rlin (-1) e1 h3) => // [g|g|]; rewrite ?scaler0 ?add0r ?mulrA // ?addr0 ?scaler0 ?add0r // scaleN1r addNr.
have [_ eu _ _] := react_unique hreg e2 (hG _).
have eut : u = t *: u1 + u0 + G *m ((t * (e * m)) *: u) by rewrite -eu scaleN1r addrA subrr add0r.
have e3 : loc c (fun d => - t *: q2 d + (-1 *: (t *: q1 d + q0 d) + q d)) (- t *: u2 + (-1 *: (t *: u1 + u0) + u))
   (fun d => - t *: r2 d + (-1 *: (t *: r1 d + r0 d) + r d)) (- t *: w2 + (-1 *: (t *: w1 + w0) + w))
   (fun=> 0) (fun=> 0) ((t * (e * m)) *: (u - u0)).
  apply: rext (rlin (- t) h2 e2) => // [g|g|]; rewrite ?scaler0 ?addr0 //.
  by rewrite scalerA mulNr scaleNr scalerBr addrC.
have [eq3 eu3 er3 ew3] := react_unique hreg e3 (hG _).
have hv := n2 t u ht eut; move: eq3 eu3 er3 ew3 hv; set v := (t * (e * m)) *: (u - u0) => eq3 eu3 er3 ew3 hv.
have part (Q' : 'I_dim -> 'M[F]_nf) (G' : 'M[F]_nf) z z0 z1 z2 s s0 s1 s2 (a b : 'I_nF -> 'cV[F]_nb) :
    (forall d, - t *: z2 d + (-1 *: (t *: z1 d + z0 d) + z d) = Q' d *m v) ->
    - t *: s2 + (-1 *: (t *: s1 + s0) + s) = G' *m v ->
  num_flux H tau z s (fun f => t *: a f + b f) f j 0 - num_flux H tau z0 s0 b f j 0 -
       t * (num_flux H tau z1 s1 a f j 0 + num_flux H tau z2 s2 (fun=> 0) f j 0) = (L Q' G' f *m v) j 0.
  move=> ez es; rewrite -hL.
  have -> : num_flux H tau (fun d => Q' d *m v) (G' *m v) (fun=> 0) f =
     num_flux H tau (fun d => - t *: z2 d + (-1 *: (t *: z1 d + z0 d) + z d))
       (- t *: s2 + (-1 *: (t *: s1 + s0) + s))
       (fun f => - t *: 0 + (-1 *: (t *: a f + b f) + (t *: a f + b f))) f.
    by apply: flux_ext => [d||]; rewrite ?ez ?es // scaler0 add0r scaleN1r addNr.
  rewrite (flux_lin H tau (- t) z2 s2 (fun=> 0)) (flux_lin H tau (-1) (fun d => t *: z1 d + z0 d)).
  rewrite (flux_lin H tau t z1 s1 a z0 s0 b).
  set A := num_flux _ _ _ _ _ _; set B := num_flux _ _ _ _ _ _; set C := num_flux _ _ _ _ _ _.
  set D := num_flux _ _ _ _ _ _; clearbody A B C D; rewrite !mxE.
  move: (A j 0) (B j 0) (C j 0) (D j 0) => a1 b1 c1 d3; clear; ring.
have sum_ge (T : 'I_nF -> 'M[F]_(nb, nf)) : 0 <= \sum_f nrm (T f) by apply: sumr_ge0 => g _; exact: nrm_ge0.
have one (T : 'I_nF -> 'M[F]_(nb, nf)) : nrm (T f) <= \sum_f nrm (T f).
  by rewrite [X in _ <= X](bigD1 f) //= ler_addl; apply: sumr_ge0 => g _; exact: nrm_ge0.
have bound (T : 'M[F]_(nb, nf)) : nrm T <= \sum_f nrm (L Q G f) + \sum_f nrm (L R Z f) ->
    `|(T *m v) j 0| <= (\sum_f nrm (L Q G f) + \sum_f nrm (L R Z f)) * K * t ^+ 2.
  move=> hT; apply: (le_trans (nrm_entry _ j 0)); apply: (le_trans (nrmM _ _)).
  by rewrite -mulrA; apply: ler_pmul; rewrite ?nrm_ge0.
split; first rewrite (part Q G) // bound //; last rewrite (part R Z) // bound //.
  by apply: (le_trans (one (L Q G))); rewrite ler_addl.
by apply: (le_trans (one (L R Z))); rewrite ler_addr.
Qed.
End Near.
End Green.
End React.
