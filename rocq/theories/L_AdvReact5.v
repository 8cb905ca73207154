(** Constant functions under a steady wind; the flux is not symmetric. *)
From mathcomp Require Import all_ssreflect all_algebra zify ring.
From Verif Require Import M_Base L_Base M_Lapack S_Lapack M_DiffusionUniform M_Diffusion S_Hdg S_Tpp S_LocalSolver S_Diffusion S_TppGeo.
From Verif Require Import L_Hdg L_HdgSrc L_LocalBase L_LocalLink L_DiffusionUniform L_DiffusionUniform2 L_Diffusion L_TppGeo L_Diffusion2.
From Verif Require Import S_DiffusionEigs M_AdvReact S_AdvReact L_ArHdg L_AdvReact2 L_AdvReact3 L_AdvReact4.
Set Implicit Arguments. Unset Strict Implicit. Unset Printing Implicit Defensive.
Import Order.TTheory GRing.Theory Num.Theory.
Local Open Scope ring_scope.

Section Const.
Variable F : realFieldType.
Variables (dim p : nat) (tau : F) (P : ar_data F) (t : F) (w : nat -> F).
Notation nf := ((p + 1) ^ dim)%N.
Notation nb := ((p + 1) ^ (dim - 1))%N.
Hypothesis dim0 : (0 < dim)%N.
Hypothesis hw : ar_wind dim p tau w P t.
Hypothesis hR : forall i j, (i < nf)%N -> (j < nf)%N -> ar_react P t i j = 0.
Notation D := (ar_df P t).
Notation H := (ar_hdg dim p P t).
Notation is_tr := (is_trace (2 * dim) nb).
Notation pair := (pairing (2 * dim) nb).
Variables (gesv : nat -> nat -> seq F -> seq F -> sv_result F) (dirs : seq nat).
Hypothesis hg : gesv_correct gesv.
Notation mask := (ar_mask dirs P t).
Notation ttf x out := (ar_trace_to_flux gesv dim p dirs tau P x out t).
Notation u0 := (cube_one F dim p).
Notation e := (unit_vec F nb).
Let hdat := ar_wind_data hw.
Let hok : hdg_ok H := data_ok dim0 hdat.
Let hreg : ar_regular dim p tau P t := ar_stable_regular dim0 (or_intror hw : ar_stable dim p tau w P t).

Lemma wind_const : ar_loc dim p tau P t (fun d => w d *: u0) u0 (fun=> e) (fun=> 0) 0.
Proof.
have [hA _ _] := ar_windE hw.
have hc := data_const dim0 hdat; have [h1 h2] := loc_const tau hok hc.
have hR0 : ar_R dim p P t = 0 by apply/matrixP => i j; rewrite !mxE hR.
have hl d : - hD H d + \sum_f hnu H f d *: hB H f = (hD H d)^T by rewrite (lower_left hok).
split=> [d|].
  by rewrite addr0 hA -scalemxAr -scalemxAl subrr -(h1 d) mulmx0.
rewrite hR0 mul0mx !addr0 -h2; congr (_ + _).
apply: eq_bigr => d _; rewrite mulmx0 hl -scalemxAr; case: hc => -> _; exact: scaler0.
Qed.
Lemma wind_const_flux f : num_flux H tau (fun d : 'I_dim => w d *: u0) u0 (fun=> e) f = face_outflow dim w P t f *: e.
Proof.
have hc := data_const dim0 hdat; have [_ hE] := hc.
have h0 : num_flux H tau (fun=> 0) u0 (fun=> e) f = 0 := flux_const tau hc f.
move: h0; rewrite /num_flux big1 => [|d _]; last by rewrite mulmx0 scaler0.
rewrite add0r => h0; rewrite -addrA h0 addr0.
under eq_bigr => d _ do rewrite -scalemxAr hE !scalerA.
rewrite -scaler_suml; congr (_ *: _); rewrite /face_outflow mulr_sumr; apply: eq_bigr => d _.
by rewrite mulrC.
Qed.
Definition outflow_trace (c : F) : seq (seq F) :=
  mkseq (fun f => mkseq (fun j => if (j == 0)%N && ~~ mask f then c * face_outflow dim w P t f else 0) nb) (2 * dim).
Lemma outflow_is_trace c : is_tr (outflow_trace c).
Proof.
split; first by rewrite size_mkseq.
by apply/allP => l /mapP[f _ ->]; rewrite size_mkseq.
Qed.
Lemma ar_constant c out : is_tr out -> ttf (const_trace c (2 * dim) nb) out = Ok (outflow_trace c).
Proof.
move=> ho; have hx := const_is_trace dim p c.
have [y [q [u [-> h1 f1]]]] := ar_fluxP dirs dim0 hg hreg hx ho; congr Ok.
have h0 : ar_loc dim p tau P t (fun=> 0) 0 (fun=> 0) (fun=> 0) 0.
  split=> [d|]; first by rewrite !mulmx0 !subr0 big1 ?oppr0 ?addr0 // => f _; rewrite mulmx0 scaler0.
  by rewrite !big1 ?mulmx0 ?scaler0 ?addr0 // => f _; rewrite mulmx0.
have h2 := aloc_lin c wind_const h0.
have h3 : ar_loc dim p tau P t (fun d => c *: (w d *: u0) + 0) (c *: u0 + 0) (tr nb (const_trace c (2 * dim) nb)) (fun=> 0) 0.
  by apply: aloc_ext h2 => // [f|d|]; rewrite ?tr_const ?scaler0 ?addr0.
have [eq eu] := ar_unique hreg h1 h3.
case: f1 => sy f1; apply: trace_ext sy (outflow_is_trace c) _ => f; rewrite f1.
have -> : num_flux H tau q u (tr nb (const_trace c (2 * dim) nb)) f = (c * face_outflow dim w P t f) *: e.
  rewrite -scalerA -wind_const_flux.
  have := flux_lin H tau c (fun d : 'I_dim => w d *: u0) u0 (fun=> e) (fun=> 0) 0 (fun=> 0) f.
  have -> : num_flux H tau (fun=> 0) 0 (fun=> 0) f = 0.
    by rewrite /num_flux !mulmx0 !scaler0 addr0 subr0 big1 // => d _; rewrite scaler0.
  move=> /esym; rewrite [X in X = _]addr0 => ->; apply: flux_ext => //.
  by rewrite tr_const addr0.
apply/colP => j; rewrite [RHS]mxE nth_mkseq // nth_mkseq //.
case: (mask f); rewrite ?mxE ?andbF //= andbT.
by case: eqP => _; rewrite ?mulr1 ?mulr0.
Qed.
(** Without Dirichlet faces: the fluxes of any trace are orthogonal to the constants, the flux of a constant is
    not orthogonal to every trace. *)
Lemma ar_orthogonal x out : (forall f, (f < 2 * dim)%N -> ~~ mask f) -> is_tr x -> is_tr out ->
  exists2 y, ttf x out = Ok y & pair (const_trace 1 (2 * dim) nb) y = 0.
Proof.
move=> nm hx ho; have [y [q [u [hy h1 f1]]]] := ar_fluxP dirs dim0 hg hreg hx ho; exists y => //.
rewrite pairing_const (ar_sum_flux nm f1) (adv_balance hok (data_const dim0 hdat) h1) dotv0r sub0r.
have -> : ar_R dim p P t = 0 by apply/matrixP => i j; rewrite !mxE hR.
by rewrite mul0mx dotv0r oppr0.
Qed.
Lemma ar_asymmetric f out out' : (forall f, (f < 2 * dim)%N -> ~~ mask f) -> is_tr out -> is_tr out' ->
  (f < 2 * dim)%N -> face_outflow dim w P t f != 0 ->
  exists x x' y y', [/\ is_tr x, is_tr x', ttf x out = Ok y, ttf x' out' = Ok y' & pair x' y != pair x y'].
Proof.
move=> nm ho ho' hf o0.
pose x := outflow_trace 1; pose x' := const_trace (1 : F) (2 * dim) nb.
have hx : is_tr x := outflow_is_trace 1; have hx' : is_tr x' := const_is_trace dim p 1.
have [y hy h0] := ar_orthogonal nm hx ho.
exists x, x', y, x; split=> //; first exact: ar_constant.
rewrite h0 eq_sym; apply: lt0r_neq0; rewrite pairing_dotv.
have nb0 : (0 < nb)%N by rewrite expn_gt0 addn1.
rewrite (bigD1 (Ordinal hf)) //=; apply: ltr_paddr; first by apply: sumr_ge0 => k _; exact: dotv_ge0.
rewrite lt_neqAle dotv_ge0 andbT eq_sym dotv_eq0; apply: contra o0 => /eqP/colP/(_ (Ordinal nb0)).
by rewrite !mxE !nth_mkseq //= nm // mul1r => ->.
Qed.
End Const.
