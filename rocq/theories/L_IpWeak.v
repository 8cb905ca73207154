(** The equations of DiffusionIP as a weak form. *)
From mathcomp Require Import all_ssreflect all_algebra zify ring.
From Verif Require Import L_DenseLA S_Hdg L_Hdg S_Tpp L_Poly L_Tens S_LocalSolver L_LocalBase M_Diffusion S_Diffusion S_TppGeo S_Gradient.
From Verif Require Import L_LocalLink L_DiffusionUniform2 L_TppGeo L_Gradient M_DiffusionIP S_DiffusionIP L_IpGeo L_IpEnergy.
Set Implicit Arguments. Unset Strict Implicit. Unset Printing Implicit Defensive.
Import Order.TTheory GRing.Theory Num.Theory.
Local Open Scope ring_scope.

Lemma bilin (F : realFieldType) n m q (k : F) (w : 'I_q -> F) (al : 'I_m -> 'I_q -> F) (be : 'I_n -> 'I_q -> F)
    (M : 'M[F]_(n, m)) (v : 'cV[F]_n) (u : 'cV[F]_m) :
  (forall i j, M i j = k * (\sum_s w s * (al j s * be i s))) ->
  dotv v (M *m u) = k * (\sum_s w s * ((\sum_j u j 0 * al j s) * (\sum_i v i 0 * be i s))).
Proof.
move=> h; rewrite mulr_sumr.
transitivity (\sum_i \sum_j \sum_s k * (w s * ((u j 0 * al j s) * (v i 0 * be i s)))).
  apply: eq_bigr => i _; rewrite mxE mulr_sumr; apply: eq_bigr => j _.
  rewrite h !mulr_sumr mulr_suml !mulr_sumr; apply: eq_bigr => s _.
  move: (v i 0) (u j 0) (w s) (al j s) (be i s) => *; ring.
rewrite exchange_big; under eq_bigr => j _ do rewrite exchange_big.
rewrite exchange_big; apply: eq_bigr => s _ /=.
rewrite !mulr_suml !mulr_sumr; apply: eq_bigr => j _; rewrite !mulr_sumr; by apply: eq_bigr.
Qed.

Section Weak.
Variable F : realFieldType.
Variables (dim p Q : nat) (b : nat -> {poly F}) (xs ws cv : nat -> F) (cb : nat -> nat -> F) (g : edge_geo F dim).
Variables (P : ip_data F) (t tau : F).
Hypotheses (dim0 : (0 < dim)%N) (hb : orthonormal_basis (p + 1) b) (hq : quad_ok (p + 1) b Q xs ws).
Hypotheses (hP : ip_contract p b Q xs ws cv cb g P t).
Notation n := (p + 1)%N.
Notation nf := (n ^ dim)%N.
Notation nb := (n ^ (dim - 1))%N.
Notation w := (quad_weight Q ws (dim - 1)).
Notation fshape := (fshape_at dim n b Q xs).
Notation psi := (shape_at n b Q xs (dim - 1)).

Lemma phipsi_quad (i : 'I_nf) (k : 'I_nb) (f : 'I_(2 * dim)) :
  bdr_phipsi n b dim i k f = \sum_(s < Q ^ (dim - 1)) w s * (psi k s * fshape i f s).
Proof.
transitivity (\sum_(l < nb) bdr_phipsi n b dim i l f * (\sum_(s < Q ^ (dim - 1)) w s * (psi k s * psi l s))).
  under eq_bigr => l _ do rewrite (quad_orthonormal hb hq).
  by rewrite (bigD1 k) //= eqxx mulr1 big1 ?addr0 // => l hl; rewrite eq_sym (negbTE hl) mulr0.
under eq_bigr => l _ do rewrite mulr_sumr.
rewrite exchange_big; apply: eq_bigr => s _; rewrite (fshape_expand Q xs dim0 hb) !mulr_sumr.
by apply: eq_bigr => l _; move: (bdr_phipsi _ _ _ _ _ _) (w s) (psi k s) (psi l s) => *; ring.
Qed.
Lemma phiphi_quad (i j : 'I_nf) (f : 'I_(2 * dim)) :
  bdr_phiphi n b dim i j f = \sum_(s < Q ^ (dim - 1)) w s * (fshape j f s * fshape i f s).
Proof.
have [_ _ _ /(_ f)[_ h] _] := cube_ok dim0 hb; move: h => /matrixP/(_ i j); rewrite /cube_hdg /hdg_of /= scale1r !mxE => ->.
under eq_bigr => k _ do rewrite !mxE (phipsi_quad i) mulr_suml.
rewrite exchange_big; apply: eq_bigr => s _; rewrite (fshape_expand Q xs dim0 hb j) mulr_suml mulr_sumr.
by apply: eq_bigr => k _; move: (bdr_phipsi _ _ _ _ _ _) (w s) (psi k s) (fshape i f s) => *; ring.
Qed.
Lemma form_N (u v : 'cV[F]_nf) (f : 'I_(2 * dim)) : dotv v (ip_N dim p P f *m u) =
  eg_face g f * (\sum_(s < Q ^ (dim - 1)) w s * cb f s * (face_normal b Q xs g u f s * face_fn b Q xs v f s)).
Proof.
case: hP => _ h _ _.
by apply: (@bilin F nf nf _ _ (fun s : 'I__ => w s * cb f s) (fun j s => fnormal_at n b Q xs g j f s) (fun i s => fshape i f s)) => i j; rewrite mxE (h j i f).2.
Qed.
Lemma form_B (u v : 'cV[F]_nf) (f : 'I_(2 * dim)) : dotv v (ip_B dim p P f *m u) =
  eg_face g f * (\sum_(s < Q ^ (dim - 1)) w s * (face_fn b Q xs u f s * face_fn b Q xs v f s)).
Proof.
case: hP => _ h _ _.
by apply: (@bilin F nf nf _ _ (fun s : 'I__ => w s) (fun j s => fshape j f s) (fun i s => fshape i f s)) => i j; rewrite mxE (h i j f).1 phiphi_quad.
Qed.
Lemma form_E (y : 'cV[F]_nb) (v : 'cV[F]_nf) (f : 'I_(2 * dim)) : dotv v (ip_E dim p P f *m y) =
  eg_face g f * (\sum_(s < Q ^ (dim - 1)) w s * (trace_fn b Q xs y s * face_fn b Q xs v f s)).
Proof.
case: hP => _ _ h _.
by apply: (@bilin F nf nb _ _ (fun s : 'I__ => w s) (fun k s => psi k s) (fun i s => fshape i f s)) => i k; rewrite mxE (h i k f).1 phipsi_quad.
Qed.
Lemma form_G (u : 'cV[F]_nf) (y : 'cV[F]_nb) (f : 'I_(2 * dim)) : dotv y (ip_G dim p P f *m u) =
  eg_face g f * (\sum_(s < Q ^ (dim - 1)) w s * cb f s * (face_normal b Q xs g u f s * trace_fn b Q xs y s)).
Proof.
case: hP => _ _ h _.
by apply: (@bilin F nb nf _ _ (fun s : 'I__ => w s * cb f s) (fun j s => fnormal_at n b Q xs g j f s) (fun k s => psi k s)) => k j; rewrite mxE (h j k f).2.
Qed.
Lemma form_M (y z : 'cV[F]_nb) : dotv y z = \sum_(s < Q ^ (dim - 1)) w s * (trace_fn b Q xs z s * trace_fn b Q xs y s).
Proof.
rewrite -[z in LHS]mul1mx -[RHS]mul1r.
apply: (@bilin F nb nb (Q ^ (dim - 1))%N 1 (fun s => w s) (fun k s => psi k s) (fun k s => psi k s)) => i j.
by rewrite mul1r (quad_orthonormal hb hq) mxE eq_sym.
Qed.
Lemma ip_weakE u x r : ip_loc dim p tau P t u x r <-> ip_weak b Q xs ws g tau cv cb u x r.
Proof.
have e v : dotv v (ip_S dim p P t *m u - \sum_f ip_N dim p P f *m u + tau *: (\sum_f ip_B dim p P f *m u)) - dotv v (tau *: (\sum_f ip_E dim p P f *m x f)) =
    eg_area g * (\sum_(s < Q ^ dim) quad_weight Q ws dim s * cv s * (\sum_d fn_grad b Q xs g v d s * fn_grad b Q xs g u d s))
    - \sum_(f < 2 * dim) eg_face g f * (\sum_(s < Q ^ (dim - 1)) w s * cb f s * (face_normal b Q xs g u f s * face_fn b Q xs v f s))
    + tau * (\sum_(f < 2 * dim) eg_face g f * (\sum_(s < Q ^ (dim - 1)) w s *
        ((face_fn b Q xs u f s - trace_fn b Q xs (x f) s) * face_fn b Q xs v f s))).
  rewrite !(dotvDr, dotvNr, dotvZr, dotv_sumr) (ip_SE hP) stiff_form -addrA -mulrBr -sumrB.
  congr (_ - _ + _ * _); first by apply: eq_bigr => f _; rewrite form_N.
  apply: eq_bigr => f _; rewrite form_B form_E -mulrBr -sumrB; congr (_ * _); apply: eq_bigr => s _.
  by rewrite -mulrBr -mulrBl.
rewrite /ip_loc /ip_weak; split=> [h v|h].
  by rewrite -e h dotvDr [LHS]addrC addKr.
have hv v : dotv v (ip_S dim p P t *m u - \sum_f ip_N dim p P f *m u + tau *: (\sum_f ip_B dim p P f *m u)) =
    dotv v (tau *: (\sum_f ip_E dim p P f *m x f) + r).
  by rewrite [RHS]dotvDr -(h v) -e [RHS]addrC subrK.
by apply/eqP; rewrite -subr_eq0 -dotv_eq0 dotvBr hv subrr.
Qed.
Lemma ip_weak_fluxE u x y (f : 'I_(2 * dim)) : dotv y (ip_num_flux dim p tau P u x f) = ip_weak_flux b Q xs ws g tau cb u x y f.
Proof.
case: (hP) => _ _ _ ha; rewrite /ip_num_flux dotvDr dotvNr dotvZr dotvBr dotvZr form_G ha.
have -> : dotv y ((ip_E dim p P f)^T *m u) = eg_face g f * (\sum_(s < Q ^ (dim - 1)) w s * (face_fn b Q xs u f s * trace_fn b Q xs y s)).
  by rewrite -dotv_mxl dotvC form_E; congr (_ * _); apply: eq_bigr => s _; rewrite [trace_fn _ _ _ _ _ * _]mulrC.
rewrite form_M -mulrBr mulrCA -mulrN -mulrDr; congr (_ * _).
rewrite -sumrB mulr_sumr -sumrN -big_split; apply: eq_bigr => s _ /=.
by move: (w s) (cb f s) (face_normal _ _ _ _ _ _ _) (face_fn _ _ _ _ _ _) (trace_fn _ _ _ _ _) (trace_fn _ _ _ _ _) => *; ring.
Qed.
End Weak.
