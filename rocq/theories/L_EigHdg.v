(** The local HDG problem with source c u: Green operator, nearby values of c, orthogonality. *)
From mathcomp Require Import all_ssreflect all_algebra ring.
From Verif Require Import S_Hdg L_Hdg S_LocalSolver L_LocalLink S_Diffusion L_HdgSrc.
Set Implicit Arguments. Unset Strict Implicit. Unset Printing Implicit Defensive.
Import Order.TTheory GRing.Theory Num.Theory.
Local Open Scope ring_scope.

Section Norm.
Variable F : realFieldType.
Definition nrm m n (A : 'M[F]_(m, n)) : F := \sum_i \sum_j `|A i j|.
Lemma nrm_ge0 m n (A : 'M[F]_(m, n)) : 0 <= nrm A.
Proof. by apply: sumr_ge0 => i _; apply: sumr_ge0 => j _; exact: normr_ge0. Qed.
Lemma nrm_entry m n (A : 'M[F]_(m, n)) i j : `|A i j| <= nrm A.
Proof.
rewrite /nrm (bigD1 i) //= (bigD1 j) //= -addrA ler_addl addr_ge0 //.
  by apply: sumr_ge0 => k _; exact: normr_ge0.
by apply: sumr_ge0 => k _; apply: sumr_ge0 => l _; exact: normr_ge0.
Qed.
Lemma nrmD m n (A B : 'M[F]_(m, n)) : nrm (A + B) <= nrm A + nrm B.
Proof.
rewrite /nrm -big_split; apply: ler_sum => i _; rewrite -big_split; apply: ler_sum => j _.
by rewrite mxE; exact: ler_norm_add.
Qed.
Lemma nrmZ m n c (A : 'M[F]_(m, n)) : nrm (c *: A) = `|c| * nrm A.
Proof.
rewrite /nrm mulr_sumr; apply: eq_bigr => i _; rewrite mulr_sumr; apply: eq_bigr => j _.
by rewrite mxE normrM.
Qed.
Lemma nrmM m n (A : 'M[F]_(m, n)) (v : 'cV[F]_n) : nrm (A *m v) <= nrm A * nrm v.
Proof.
rewrite /nrm mulr_suml; apply: ler_sum => i _; rewrite big_ord1 mxE.
apply: (le_trans (ler_norm_sum _ _ _)); rewrite mulr_suml; apply: ler_sum => j _.
rewrite normrM ler_wpmul2l // (bigD1 j) //= big_ord1 ler_addl.
by apply: sumr_ge0 => k _; rewrite big_ord1.
Qed.
Lemma nrm_eq0 m n (A : 'M[F]_(m, n)) : nrm A <= 0 -> A = 0.
Proof.
move=> h; apply/matrixP => i j; rewrite mxE; apply/eqP; rewrite -normr_le0.
exact: le_trans (nrm_entry A i j) h.
Qed.
End Norm.

Section Theory.
Variable F : realFieldType.
Variables (nf nb dim nF : nat) (h : hdg F nf nb dim nF) (tau : F).
Implicit Types (q rq : 'I_dim -> 'cV[F]_nf) (u ru : 'cV[F]_nf) (x y : 'I_nF -> 'cV[F]_nb).
Definition eloc (c : F) q u x ru : Prop := loc_src h tau q u x (fun=> 0) (c *: u + ru).
Definition ereg c : Prop := forall q u, eloc c q u (fun=> 0) 0 -> (forall d, q d = 0) /\ u = 0.

Lemma eloc_lin c a q u x ru q' u' x' ru' : eloc c q u x ru -> eloc c q' u' x' ru' ->
  eloc c (fun d => a *: q d + q' d) (a *: u + u') (fun f => a *: x f + x' f) (a *: ru + ru').
Proof.
move=> h1 h2; apply: src_ext (src_lin a h1 h2) => // [d|]; first by rewrite scaler0 addr0.
by rewrite !scalerDr !scalerA [c * a]mulrC addrACA.
Qed.
Lemma eloc_ext c q u x ru q' u' x' ru' : (forall d, q d = q' d) -> u = u' -> (forall f, x f = x' f) ->
  ru = ru' -> eloc c q u x ru -> eloc c q' u' x' ru'.
Proof. by move=> hq <- hx <-; apply: src_ext. Qed.
Lemma eloc_shift c s q u x : eloc (c + s) q u x 0 <-> eloc c q u x (s *: u).
Proof. by rewrite /eloc addr0 scalerDl. Qed.
Lemma eloc0 c : eloc c (fun=> 0) 0 (fun=> 0) 0.
Proof.
split=> [d|]; first by rewrite !mulmx0 big1 ?subrr ?addr0 ?oppr0 // => f _; rewrite mulmx0 scaler0.
rewrite !big1 ?scaler0 ?addr0 ?scaler0 // => f _; by rewrite mulmx0.
Qed.
Lemma eloc_scale c a q u x ru : eloc c q u x ru ->
  eloc c (fun d => a *: q d) (a *: u) (fun f => a *: x f) (a *: ru).
Proof. by move=> h1; apply: eloc_ext (eloc_lin a h1 (eloc0 c)) => // [d||f|]; rewrite addr0. Qed.
Lemma eloc_unique c q u x ru q' u' : ereg c -> eloc c q u x ru -> eloc c q' u' x ru ->
  (forall d, q d = q' d) /\ u = u'.
Proof.
move=> hr h1 h2; have [|hq hu] := hr (fun d => -1 *: q' d + q d) (-1 *: u' + u).
  by apply: eloc_ext (eloc_lin (-1) h2 h1) => // [f|]; rewrite scaleN1r addNr.
split=> [d|]; apply/eqP; rewrite -subr_eq0 addrC -scaleN1r; [by rewrite hq | by rewrite hu].
Qed.

Lemma op_src c q u x ru : eloc c q u x ru <->
  (forall d, op_q h q u d = - (\sum_f hnu h f d *: (hE h f *m x f))) /\
  op_u h tau q u - c *: u = tau *: (\sum_f (hE h f *m x f)) + ru.
Proof.
split=> -[h1 h2]; split; try move=> d.
- by rewrite /op_q h1 addr0.
- by apply/eqP; rewrite subr_eq -addrA [ru + _]addrC -h2.
- by rewrite addr0 -h1.
by rewrite addrCA -h2 [RHS]addrC subrK.
Qed.

(** ** Energy *)
Lemma eloc_pair c q u x ru q' u' x' c' ru' : hdg_ok h -> eloc c q u x ru -> eloc c' q' u' x' ru' ->
  \sum_f dotv (x' f) (num_flux h tau q u x f) =
  - form h tau q' q u' u x' x + c * dotv u' u + dotv u' ru.
Proof.
move=> hok h1 h2; rewrite (energy_src hok h1 h2) big1 => [|d _]; last by rewrite dotv0l.
by rewrite addr0 dotvDr dotvZr addrA.
Qed.
Lemma ereg_neg c : hdg_ok h -> 0 < tau -> c <= 0 -> ereg c.
Proof.
move=> hok t0 hc q u h1; have := eloc_pair hok h1 h1.
rewrite big1 => [|f _]; last by rewrite dotv0l.
rewrite dotv0r addr0 addrC => /eqP; rewrite eq_sym subr_eq0 => /eqP h2.
have f0 : form h tau q q u u (fun=> 0) (fun=> 0) = 0.
  have ge := form_ge0 hok q u (fun=> 0) (ltW t0).
  apply/eqP; rewrite eq_le ge andbT -h2.
  by rewrite mulr_le0_ge0 // dotv_ge0.
have [hq hu] := form_eq0 hok t0 f0; split=> //.
case: hok => _ _ _ _; apply=> [d|f]; last by rewrite hu scaler0.
case: h1 => /(_ d); rewrite hq mulmx0 sub0r addr0 => /eqP; rewrite eqr_opp => /eqP -> _.
by rewrite big1 // => f _; rewrite mulmx0 scaler0.
Qed.

(** ** Green operator *)
Section Green.
Variable c : F.
Hypothesis hex : forall x ru, exists q u, eloc c q u x ru.
Lemma green : exists (Q : 'I_dim -> 'M[F]_nf) (G : 'M[F]_nf), forall r : 'cV[F]_nf,
  eloc c (fun d => Q d *m r) (G *m r) (fun=> 0) r.
Proof.
have /fin_all_exists[qs /fin_all_exists[us hs]] : forall k : 'I_nf, exists q u, eloc c q u (fun=> 0) (delta_mx k 0).
  by move=> k; exact: hex.
exists (fun d => \matrix_(i, k) qs k d i 0), (\matrix_(i, k) us k i 0) => r.
have hsum (l : seq 'I_nf) : eloc c (fun d => \sum_(k <- l) r k 0 *: qs k d) (\sum_(k <- l) r k 0 *: us k)
    (fun=> 0) (\sum_(k <- l) r k 0 *: delta_mx k 0).
  elim: l => [|k l IH]; first by apply: eloc_ext (eloc0 c) => // [d||]; rewrite big_nil.
  by apply: eloc_ext (eloc_lin (r k 0) (hs k) IH) => // [d||f|]; rewrite ?big_cons // scaler0 addr0.
apply: eloc_ext (hsum (index_enum _)) => // [d||].
- by apply/colP => i; rewrite summxE mxE; apply: eq_bigr => k _; rewrite !mxE mulrC.
- by apply/colP => i; rewrite summxE mxE; apply: eq_bigr => k _; rewrite !mxE mulrC.
apply/colP => i; rewrite summxE (bigD1 i) //= big1 => [|k hk]; first by rewrite !mxE eqxx mulr1 addr0.
by rewrite !mxE eq_sym (negbTE hk) mulr0.
Qed.

Hypothesis hreg : ereg c.
(** Irregular values are few. *)
Lemma irregular_few (s : seq F) : uniq s -> (forall a, a \in s -> ~ ereg a) -> (size s <= nf)%N.
Proof.
move=> us hs; have [Q [G hG]] := green.
pose roots := [seq (a - c)^-1 | a <- s].
have ne a : a \in s -> a - c != 0.
  by move=> ha; rewrite subr_eq0; apply/eqP => eac; apply: (hs a ha); rewrite eac.
have ur : uniq roots.
  rewrite map_inj_in_uniq // => a a' _ _ /invr_inj /(congr1 (fun z => z + c)).
  by rewrite !subrK.
have hroot : all (root (char_poly G^T)) roots.
  apply/allP => z /mapP[a ha ->]; rewrite -eigenvalue_root_char.
  have : ~ (forall u : 'cV[F]_nf, (a - c) *: (G *m u) = u -> u = 0).
    move=> h0; apply: (hs a ha) => q u h1.
    have h2 : eloc c q u (fun=> 0) ((a - c) *: u) by apply/eloc_shift; rewrite addrC subrK.
    have [hq hu] := eloc_unique hreg h2 (hG _).
    have u0 : u = 0 by apply: h0; rewrite {2}hu -scalemxAr.
    by split=> // d; rewrite hq u0 scaler0 mulmx0.
  apply: contra_notT => /eigenvalueP hne u hu.
  apply/eqP; apply: contraT => u0; case: hne; exists u^T; last first.
    by apply: contraNneq u0 => /(congr1 trmx); rewrite trmxK trmx0 => ->.
  rewrite -trmx_mul -linearZ /=; congr trmx.
  by rewrite -{2}hu scalerA mulVf ?scale1r ?ne.
have c0 : char_poly G^T != 0 by rewrite monic_neq0 ?char_poly_monic.
have := max_poly_roots c0 hroot ur.
by rewrite size_char_poly ltnS size_map.
Qed.

(** ** Nearby values of c *)
Section Near.
Variables (b : F) (x eta : 'I_nF -> 'cV[F]_nb) (q0 q1 q2 : 'I_dim -> 'cV[F]_nf) (u0 u1 u2 : 'cV[F]_nf).
Hypotheses (h0 : eloc c q0 u0 x 0) (h1 : eloc c q1 u1 eta 0) (h2 : eloc c q2 u2 (fun=> 0) (b *: u0)).
Lemma eloc_near : exists K delta, [/\ 0 < delta, forall t, `|t| <= delta -> ereg (c + t * b) &
  forall t q u, `|t| <= delta -> eloc (c + t * b) q u (fun f => t *: eta f + x f) 0 ->
    forall f j, `|num_flux h tau q u (fun f => t *: eta f + x f) f j 0 - num_flux h tau q0 u0 x f j 0 -
       t * (num_flux h tau q1 u1 eta f j 0 + num_flux h tau q2 u2 (fun=> 0) f j 0)| <= K * t ^+ 2].
Proof.
have [Q [G hG]] := green.
pose L f : 'M[F]_(nb, nf) := \sum_d hnu h f d *: ((hE h f)^T *m Q d) + tau *: ((hE h f)^T *m G).
have hL f r : num_flux h tau (fun d => Q d *m r) (G *m r) (fun=> 0) f = L f *m r.
  rewrite /num_flux scaler0 subr0 /L mulmxDl mulmx_suml -scalemxAl mulmxA; congr (_ + _).
  by apply: eq_bigr => d _; rewrite -scalemxAl mulmxA.
pose delta := (2%:R * (`|b| * nrm G + 1))^-1.
have bG : 0 <= `|b| * nrm G by rewrite mulr_ge0 ?nrm_ge0.
have d0 : 0 < delta by rewrite invr_gt0 mulr_gt0 ?ltr0n // ltr_paddl.
have d1 : delta <= 1.
  rewrite invf_le1 ?mulr_gt0 ?ltr0n ?ltr_paddl //.
  by apply: mulr_ege1; rewrite ?ler1n // ler_addr.
have half t : `|t| <= delta -> 2%:R * (`|t * b| * nrm G) <= 1.
  move=> ht; rewrite normrM -mulrA.
  have : `|t| * (2%:R * (`|b| * nrm G + 1)) <= 1.
    by rewrite -ler_pdivl_mulr ?mulr_gt0 ?ltr0n ?ltr_paddl // div1r.
  apply: le_trans; rewrite mulrCA ler_wpmul2l // ler_wpmul2l ?ler0n // ler_addl.
  exact: ler01.
pose K := (\sum_f nrm (L f)) * (`|b| * nrm u1 + b ^+ 2 * (nrm G * (2%:R * (nrm u0 + nrm u1)))).
exists K, delta; split=> // [t ht q u|t q u ht].
  move/eloc_shift => h3; have [hq hu] := eloc_unique hreg h3 (hG _).
  have u00 : u = 0.
    apply: nrm_eq0.
    have : nrm u <= `|t * b| * nrm G * nrm u.
      rewrite {1}hu -scalemxAr nrmZ -mulrA ler_wpmul2l //; exact: nrmM.
    move=> hn; have : 2%:R * nrm u <= nrm u.
      apply: (le_trans (y := 2%:R * (`|t * b| * nrm G * nrm u))); first by rewrite ler_wpmul2l ?ler0n.
      by rewrite mulrA ler_pimull ?nrm_ge0 // half.
    by rewrite mulr_natl mulr2n ger_addl.
  by split=> // d; rewrite hq u00 scaler0 mulmx0.
move/eloc_shift => h3 f j.
(* ut = u0 + t u1 + G (t b ut) *)
have e1 : eloc c (fun d => t *: q1 d + q0 d) (t *: u1 + u0) (fun f => t *: eta f + x f) 0.
  by apply: eloc_ext (eloc_lin t h1 h0) => //; rewrite scaler0 addr0.
have e2 : eloc c (fun d => -1 *: (t *: q1 d + q0 d) + q d) (-1 *: (t *: u1 + u0) + u) (fun=> 0) ((t * b) *: u).
  by apply: eloc_ext (eloc_lin (-1) e1 h3) => // [g|]; rewrite ?scaler0 ?add0r // scaleN1r addNr.
have [_ eu] := eloc_unique hreg e2 (hG _).
have eut : u = t *: u1 + u0 + G *m ((t * b) *: u) by rewrite -eu scaleN1r addrA subrr add0r.
have e3 : eloc c (fun d => - t *: q2 d + (-1 *: (t *: q1 d + q0 d) + q d))
   (- t *: u2 + (-1 *: (t *: u1 + u0) + u)) (fun=> 0) ((t * b) *: (u - u0)).
  apply: eloc_ext (eloc_lin (- t) h2 e2) => // [g|]; first by rewrite scaler0 addr0.
  by rewrite scalerA mulNr scaleNr scalerBr addrC.
have [eq3 eu3] := eloc_unique hreg e3 (hG _).
pose r := b *: u1 + b ^+ 2 *: (G *m u).
have er : (t * b) *: (u - u0) = t ^+ 2 *: r.
  have -> : u - u0 = t *: (u1 + b *: (G *m u)).
    by rewrite {1}eut addrAC addrK scalerDr -scalemxAr scalerA.
  by rewrite /r expr2 !scalerDr !scalerA; congr (_ *: _ + _ *: _); ring.
have -> : num_flux h tau q u (fun f => t *: eta f + x f) f j 0 - num_flux h tau q0 u0 x f j 0 -
       t * (num_flux h tau q1 u1 eta f j 0 + num_flux h tau q2 u2 (fun=> 0) f j 0) =
    (L f *m (t ^+ 2 *: r)) j 0.
  rewrite -er -hL.
  have -> : num_flux h tau (fun d => Q d *m ((t * b) *: (u - u0))) (G *m ((t * b) *: (u - u0))) (fun=> 0) f =
     num_flux h tau (fun d => - t *: q2 d + (-1 *: (t *: q1 d + q0 d) + q d))
       (- t *: u2 + (-1 *: (t *: u1 + u0) + u))
       (fun f => - t *: 0 + (-1 *: (t *: eta f + x f) + (t *: eta f + x f))) f.
    by apply: flux_ext => [d||]; rewrite ?eq3 ?eu3 // scaler0 add0r scaleN1r addNr.
  rewrite (flux_lin h tau (- t) q2 u2 (fun=> 0)) (flux_lin h tau (-1) (fun d => t *: q1 d + q0 d)).
  rewrite (flux_lin h tau t q1 u1 eta q0 u0 x).
  set A := num_flux _ _ _ _ _ _; set B := num_flux _ _ _ _ _ _; set C := num_flux _ _ _ _ _ _.
  set D := num_flux _ _ _ _ _ _; clearbody A B C D; rewrite !mxE.
  move: (A j 0) (B j 0) (C j 0) (D j 0) => a1 b1 c1 d3; clear; ring.
rewrite -scalemxAr mxE normrM ger0_norm ?sqr_ge0 // mulrC ler_wpmul2r ?sqr_ge0 //.
have hu : nrm u <= 2%:R * (nrm u0 + nrm u1).
  have : nrm u <= nrm u1 + nrm u0 + `|t * b| * nrm G * nrm u.
    rewrite {1}eut; apply: (le_trans (nrmD _ _)); apply: ler_add.
      apply: (le_trans (nrmD _ _)); rewrite nrmZ ler_add2r ler_pimull ?nrm_ge0 //.
      exact: le_trans ht d1.
    by rewrite -scalemxAr nrmZ -mulrA ler_wpmul2l // nrmM.
  move=> hn.
  have hh : 2%:R * (`|t * b| * nrm G * nrm u) <= nrm u by rewrite mulrA ler_pimull ?nrm_ge0 ?half.
  have : 2%:R * nrm u <= 2%:R * (nrm u1 + nrm u0) + nrm u.
    apply: (le_trans (y := 2%:R * (nrm u1 + nrm u0 + `|t * b| * nrm G * nrm u))); first by rewrite ler_wpmul2l ?ler0n.
    by rewrite mulrDr ler_add2l.
  by rewrite {1}mulr_natl mulr2n ler_add2r [nrm u1 + _]addrC.
apply: (le_trans (nrm_entry _ j 0)); apply: (le_trans (nrmM _ _)); rewrite /K.
apply: ler_pmul; rewrite ?nrm_ge0 //.
  rewrite (bigD1 f) //= ler_addl; apply: sumr_ge0 => g _; exact: nrm_ge0.
rewrite /r; apply: (le_trans (nrmD _ _)); rewrite !nrmZ [`|b ^+ 2|]ger0_norm ?sqr_ge0 // ler_add2l ler_wpmul2l ?sqr_ge0 //.
by apply: (le_trans (nrmM _ _)); rewrite ler_wpmul2l ?nrm_ge0.
Qed.
End Near.
End Green.
End Theory.
