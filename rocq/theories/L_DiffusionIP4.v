(** The fluxes of DiffusionIP: affine functions, time of the coefficient, symmetry in one dimension. *)
From mathcomp Require Import all_ssreflect all_algebra zify ring.
From Verif Require Import M_Base L_Base M_Lapack S_Lapack M_DiffusionUniform S_Hdg S_Tpp S_LocalSolver S_Diffusion S_TppGeo S_Gradient.
From Verif Require Import L_Hdg L_HdgSrc L_LocalBase L_LocalLink L_DiffusionUniform L_DiffusionUniform2 L_Diffusion2.
From Verif Require Import S_DiffusionEigs M_DiffusionIP S_DiffusionIP L_DiffusionIP L_DiffusionIP2 L_IpGeo L_IpEnergy L_IpConsist L_DiffusionIP3.
Set Implicit Arguments. Unset Strict Implicit. Unset Printing Implicit Defensive.
Import Order.TTheory GRing.Theory Num.Theory.
Local Open Scope ring_scope.

Section IP.
Variable F : realFieldType.
Variables (gesv : nat -> nat -> seq F -> seq F -> sv_result F).
Variables (dim p : nat) (dirs : seq nat) (tau : F) (P : ip_data F) (t : F).
Hypotheses (dim0 : (0 < dim)%N) (hg : gesv_correct gesv).
Notation nf := ((p + 1) ^ dim)%N.
Notation nb := ((p + 1) ^ (dim - 1))%N.
Notation is_tr := (is_trace (2 * dim) nb).
Notation mask := (ip_mask dirs P).
Notation ttf x out := (ip_trace_to_flux gesv dim p dirs tau P x out t).
Notation pair := (pairing (2 * dim) nb).
Notation one := (cube_one F dim p).
Notation e := (unit_vec F nb).
Notation num := (ip_num_flux dim p tau P).
Implicit Types (x y out : seq (seq F)) (u r : 'cV[F]_nf).

(** ** Affine functions *)
Definition affine_flux_tr c (out : nat -> F) : seq (seq F) :=
  mkseq (fun f => mkseq (fun j => if (j == 0)%N && ~~ mask f then - (c * out f * ip_area P f) else 0) nb) (2 * dim).
Lemma affine_tr c (out : nat -> F) : is_tr (affine_flux_tr c out).
Proof. by split; [exact: size_mkseq | apply/allP => l /mapP[f _ ->]; rewrite size_mkseq]. Qed.
Lemma ip_affineP c u gamma (out : nat -> F) x o : ip_affine dim p c c u gamma out P t -> ip_regular dim p tau P t ->
  is_tr x -> is_tr o -> (forall f : 'I_(2 * dim), tr nb x f = ip_trace dim p P u f) ->
  ttf x o = Ok (affine_flux_tr c out) /\ forall u', ip_loc dim p tau P t u' (tr nb x) 0 -> u' = u.
Proof.
move=> [b [Q [xs [ws [cv [cb [g [hb hq hc hgo [hP [h1 h2 h3 h4]]]]]]]]]] hr hx ho hu.
have hl : ip_loc dim p tau P t u (tr nb x) 0.
  have [_] := affine_loc dim0 hb hq hc hgo hP h1 h2 h3 h4 tau 0.
  by rewrite subrr scale0r => /(_ erefl) h; apply: (iploc_ext _ _ h) => // f; rewrite hu.
have uu u' : ip_loc dim p tau P t u' (tr nb x) 0 -> u' = u by move=> h; exact: (ip_unique hr h hl).
split=> //; have [y [u' [hy /uu -> [sy f1]]]] := ip_fluxP dirs dim0 hg hr hx ho.
rewrite hy; congr Ok; apply: trace_ext sy (affine_tr _ _) _ => f; rewrite f1.
have := affine_flux dim0 hb hq hc hgo hP h2 h3 h4 tau f; rewrite /ip_num_flux -hu => ->.
apply/colP => j; rewrite [RHS]mxE (nth_mkseq [::]) // nth_mkseq //.
by case: (mask f); rewrite !mxE ?andbF ?andbT //; case: (_ == _); rewrite ?mulr1 ?mulr0.
Qed.
Lemma ip_affine_fails c c0 u gamma (out : nat -> F) x u' d : ip_affine dim p c c0 u gamma out P t ->
  (forall f : 'I_(2 * dim), tr nb x f = ip_trace dim p P u f) -> c != c0 -> (d < dim)%N -> gamma d != 0 ->
  ip_loc dim p tau P t u' (tr nb x) 0 -> u' <> u.
Proof.
move=> [b [Q [xs [ws [cv [cb [g [hb hq hc hgo [hP [h1 h2 h3 h4]]]]]]]]]] hu hcc hd hgd hl eu.
have : ip_loc dim p tau P t u (ip_trace dim p P u) 0.
  by rewrite -eu; apply: (iploc_ext _ _ hl) => // f; rewrite hu eu.
move=> /(affine_loc dim0 hb hq hc hgo hP h1 h2 h3 h4 tau 0) /esym/eqP.
rewrite scaler_eq0 subr_eq0 (negbTE hcc) /= => /eqP h0.
by have := affine_zero dim0 hb hq hc hgo hP h1 h3 h4 h0 hd => /eqP; rewrite (negbTE hgd).
Qed.
End IP.

(** ** One dimension *)
Section One.
Variable F : realFieldType.
Variables (gesv : nat -> nat -> seq F -> seq F -> sv_result F).
Variables (p : nat) (dirs : seq nat) (tau : F) (P : ip_data F) (t : F).
Hypotheses (hg : gesv_correct gesv) (hreg : ip_regular 1 p tau P t) (hok : ip_ok 1 p P t).
Notation nf := ((p + 1) ^ 1)%N.
Notation nb := ((p + 1) ^ (1 - 1))%N.
Notation num := (ip_num_flux 1 p tau P).
Notation loc := (ip_loc 1 p tau P t).
Let hF : ip_facts 1 p P t := ip_factsP (ltn0Sn 0) hok.
Let nb1 : nb = 1%N. Proof. by rewrite subnn expn0. Qed.
Let i0 : 'I_nb := Ordinal (ltn0Sn 0 : (0 < nb)%N).
Let ord_nb (k : 'I_nb) : k = i0. Proof. by apply: val_inj; case: k => k hk /=; move: (hk); rewrite nb1; case: k hk. Qed.
Let dot1 (x y : 'cV[F]_nb) : dotv x y = x i0 0 * y i0 0.
Proof. by rewrite /dotv (sum_ord1 (i := i0)) // => k; rewrite (ord_nb k) eqxx. Qed.
Let vec1 (x : 'cV[F]_nb) : x = x i0 0 *: unit_vec F nb.
Proof. by apply/colP => k; rewrite (ord_nb k) !mxE mulr1. Qed.
Lemma num_lin c u (x x' : 'I_(2 * 1) -> 'cV[F]_nb) u' f : num (c *: u + u') (fun f => c *: x f + x' f) f = c *: num u x f + num u' x' f.
Proof.
rewrite !(ip_numE tau hF) (ip_traceD _ _ _) mulmxDr -scalemxAr.
move: (ip_trace _ _ _ _ _) (ip_trace _ _ _ _ _) (_ *m u) (_ *m u') => A B C D; apply/colP => j; rewrite !mxE.
move: (A j 0) (B j 0) (C j 0) (D j 0) (x f j 0) (x' f j 0) (ip_area P f) => *; ring.
Qed.
Let f0 : 'I_(2 * 1) := @Ordinal 2 0 isT.
Let f1 : 'I_(2 * 1) := @Ordinal 2 1 isT.
Let sum2 (z : 'I_(2 * 1) -> F) : \sum_f z f = z f0 + z f1.
Proof. by rewrite !big_ord_recl big_ord0 addr0; congr (z _ + z _); apply: val_inj. Qed.
Lemma num_sym u u' (x x' : 'I_(2 * 1) -> 'cV[F]_nb) : loc u x 0 -> loc u' x' 0 ->
  \sum_f dotv (x' f) (num u x f) = \sum_f dotv (x f) (num u' x' f).
Proof.
move=> h1 h2; have c1 := ip_conserve hF h1; have c2 := ip_conserve hF h2.
pose a f := x f i0 0; pose a' f := x' f i0 0.
pose k := a' f1 - a' f0; pose k' := a f1 - a f0; pose m := a f0 * a' f1 - a' f0 * a f1.
have hc : forall f, k *: num u x f = k' *: num u' x' f.
  move=> f; have h3 := iploc_lin (- k') h2 (iploc_lin k h1 (ip_const tau hF 0).1).
  have [h4 hz] := ip_const tau hF m.
  have ex f' : - k' *: x' f' + (k *: x f' + 0 *: unit_vec F nb) = m *: unit_vec F nb.
    rewrite scale0r addr0 [x' f']vec1 [x f']vec1 !scalerA -scalerDl; congr (_ *: _).
    have [->|->] : f' = f0 \/ f' = f1 by case: f' => -[|[|//]] hf; [left|right]; apply: val_inj.
      by rewrite -/(a f0) -/(a' f0) /m /k /k'; move: (a f0) (a f1) (a' f0) (a' f1) => *; ring.
    by rewrite -/(a f1) -/(a' f1) /m /k /k'; move: (a f0) (a f1) (a' f0) (a' f1) => *; ring.
  have eu : - k' *: u' + (k *: u + 0 *: cube_one F 1 p) = m *: cube_one F 1 p.
    apply: (ip_unique hreg h3); apply: (iploc_ext _ _ h4) => [f'|]; first by rewrite ex.
    by rewrite !scaler0 !addr0.
  have := num_lin (- k') u' x' (fun f => k *: x f + 0 *: unit_vec F nb) (k *: u + 0 *: cube_one F 1 p) f.
  rewrite eu num_lin; have -> : num (m *: cube_one F 1 p) (fun f => - k' *: x' f + (k *: x f + 0 *: unit_vec F nb)) f = 0.
    by rewrite -[RHS](hz f) /ip_num_flux ex.
  have -> : num (0 *: cube_one F 1 p) (fun=> 0 *: unit_vec F nb) f = 0 by exact: (ip_const tau hF 0).2.
  by rewrite addr0 scaleNr addrC => /esym/eqP; rewrite subr_eq0 => /eqP.
have e1 : unit_vec F nb i0 0 = 1 by rewrite mxE.
move: c1 c2; rewrite !sum2 !dot1 dotv0r e1 !mul1r -/(a f0) -/(a f1) -/(a' f0) -/(a' f1).
have := congr1 (fun v : 'cV[F]_nb => v i0 0) (hc f1); rewrite [LHS]mxE [RHS]mxE /k /k'.
move: (num u x f0 i0 0) (num u x f1 i0 0) (num u' x' f0 i0 0) (num u' x' f1 i0 0) (a f0) (a f1) (a' f0) (a' f1).
move=> z0 z1 w0 w1 b0 b1 d0 d1 h /eqP; rewrite addr_eq0 => /eqP -> /eqP; rewrite addr_eq0 => /eqP ->.
by rewrite !mulrN ![- _ + _]addrC -!mulrBl.
Qed.
Lemma ip_symmetric1 x x' out out' : is_trace 2 nb x -> is_trace 2 nb x' -> is_trace 2 nb out -> is_trace 2 nb out' ->
  vanishes (ip_mask dirs P) 2 nb x -> vanishes (ip_mask dirs P) 2 nb x' ->
  exists y y', [/\ ip_trace_to_flux gesv 1 p dirs tau P x out t = Ok y, ip_trace_to_flux gesv 1 p dirs tau P x' out' t = Ok y' &
    pairing 2 nb x' y = pairing 2 nb x y'].
Proof.
move=> hx hx' ho ho' vx vx'.
have [y [u [hy h1 [_ fy]]]] := ip_fluxP dirs (ltn0Sn 0) hg hreg hx ho.
have [y' [u' [hy' h1' [_ fy']]]] := ip_fluxP dirs (ltn0Sn 0) hg hreg hx' ho'.
exists y, y'; split=> //.
by rewrite (ip_pairE (dim := 1) vx' fy) (ip_pairE (dim := 1) vx fy') (num_sym h1 h1').
Qed.
End One.
