(** What the contract of TPP says about the matrices of DiffusionIP. *)
From mathcomp Require Import all_ssreflect all_algebra zify ring.
From Verif Require Import L_DenseLA S_Hdg L_Hdg S_Tpp L_Poly L_Tens S_LocalSolver L_LocalBase M_Diffusion S_Diffusion S_TppGeo S_Gradient.
From Verif Require Import L_LocalLink L_DiffusionUniform2 L_TppGeo L_Gradient M_DiffusionIP S_DiffusionIP.
Set Implicit Arguments. Unset Strict Implicit. Unset Printing Implicit Defensive.
Import Order.TTheory GRing.Theory Num.Theory.
Local Open Scope ring_scope.

Section Geo.
Variable F : realFieldType.
Variables (dim p Q : nat) (b : nat -> {poly F}) (xs ws cv : nat -> F) (cb : nat -> nat -> F) (g : edge_geo F dim).
Variables (P : ip_data F) (t : F).
Hypotheses (dim0 : (0 < dim)%N) (hb : orthonormal_basis (p + 1) b) (hq : quad_ok (p + 1) b Q xs ws).
Hypotheses (hcv : forall s, (s < Q ^ dim)%N -> 0 < cv s) (hg : geo_ok g) (hP : ip_contract p b Q xs ws cv cb g P t).
Notation n := (p + 1)%N.
Notation nf := (n ^ dim)%N.
Notation nb := (n ^ (dim - 1))%N.
Notation one := (cube_one F dim p).
Notation e := (unit_vec F nb).
Notation S := (ip_S dim p P t).
Notation B := (ip_B dim p P).
Notation E := (ip_E dim p P).
Notation N := (ip_N dim p P).
Notation G := (ip_G dim p P).
Notation a := (ip_area P).
Let n0 : (0 < n)%N. Proof. by rewrite addn1. Qed.

(** Diffusion's data with the same face integrals. *)
Definition ip_df : df_data F :=
  {| df_vol := fun i j => eg_area g * (\sum_(s < Q ^ dim) quad_weight Q ws dim s * 1 *
           (shape_at n b Q xs dim i s * shape_at n b Q xs dim j s));
     df_mass := fun i j => eg_area g * vol_phiphi n b dim i j;
     df_grad := fun i j d => eg_area g *
        (\sum_(k < dim) (\sum_(e < dim | e == d :> nat) invmx (eg_R g) k e) * vol_Dphiphi n b dim i j k);
     df_bb := ip_bb P; df_bp := ip_bp P;
     df_src := fun=> 0; df_dirval := fun _ _ => 0; df_initial := fun _ _ => 0;
     df_normal := eg_normal g; df_area := ip_area P; df_diffsq := fun=> 0; df_eval := fun _ _ _ => 0; df_types := [::] |}.
Notation H := (df_hdg dim p ip_df).
Lemma ip_dfP : tpp_contract b p Q xs ws (fun=> 1) g ip_df.
Proof.
case: hP => _ h1 h2 h3; split=> // [i j d|i f|f].
- rewrite /=; congr (_ * _); apply: eq_bigr => k _; congr (_ * _).
  by rewrite (eq_bigl (fun e => e == d)) ?big_pred1_eq.
- by split=> j; [case: (h1 i j f) | case: (h2 i j f)].
by split=> //; exact: h3.
Qed.
Lemma ip_H : hdg_ok H. Proof. exact: (df_hdg_ok dim0 hb hq (fun _ _ => ltr01) hg ip_dfP). Qed.
Lemma ip_Hc : hdg_const H one e. Proof. exact: (df_hdg_const dim0 hb ip_dfP). Qed.
Lemma ip_a0 (f : 'I_(2 * dim)) : 0 < a f.
Proof. by have [_ _ _ /(_ f)[]] := ip_H. Qed.
Lemma ip_aB (f : 'I_(2 * dim)) : a f *: B f = E f *m (E f)^T.
Proof. by have [_ _ _ /(_ f)[]] := ip_H. Qed.
Lemma ip_Eone (f : 'I_(2 * dim)) : (E f)^T *m one = a f *: e.
Proof. by have [_ ->] := ip_Hc. Qed.
Lemma ip_SE : S = @stiff F dim p Q b xs ws g cv.
Proof. by case: hP => h _ _ _; apply/matrixP => i j; rewrite !mxE h. Qed.

(** On a face, a shape function is a multiple of a face function. *)
Lemma fshape_expand (i : 'I_nf) (f : 'I_(2 * dim)) s :
  fshape_at dim n b Q xs i f s = \sum_(k < nb) bdr_phipsi n b dim i k f * shape_at n b Q xs (dim - 1) k s.
Proof.
move: i f; case: (dim) dim0 => // m _ i f; rewrite !subn1 /=.
rewrite (bigD1 (proj n0 (face_dir f) i)) // big1 => [|k hk]; last first.
  by rewrite (bdr_phipsiE n0 hb) (negbTE hk) mulr0 mul0r.
rewrite (bdr_phipsiE n0 hb) eqxx mulr1 /fshape_at (bigD1_ord (face_dir f)) // [RHS]addr0; congr (_ * _).
  by rewrite /face_val /face_coord (face_dirE n0) eqxx.
apply: eq_bigr => d _; rewrite dig_proj /face_coord -(face_dirE n0) /=.
have -> : (bump (face_dir f) d == face_dir f) = false by rewrite /bump; lia.
by have -> : (bump (face_dir f) d - (face_dir f < bump (face_dir f) d))%N = d by rewrite /bump; lia.
Qed.
Lemma ip_aN (f : 'I_(2 * dim)) : a f *: N f = E f *m G f.
Proof.
case: hP => _ h1 h2 h3; apply/matrixP => i j; rewrite !mxE; have [_ ->] := h1 j i f.
rewrite h3 /bdr_nphiphi.
under [RHS]eq_bigr => k _ do rewrite !mxE (h2 i k f).1 (h2 j k f).2 /bdr_nphipsi -mulrA.
rewrite -mulr_sumr; congr (_ * _).
transitivity (\sum_(s < Q ^ (dim - 1)) \sum_(k < nb) eg_face g f * (quad_weight Q ws (dim - 1) s * cb f s *
    (fnormal_at n b Q xs g j f s * (bdr_phipsi n b dim i k f * shape_at n b Q xs (dim - 1) k s)))).
  by rewrite mulr_sumr; apply: eq_bigr => s _; rewrite fshape_expand !mulr_sumr.
rewrite exchange_big; apply: eq_bigr => k _; rewrite mulrCA !mulr_sumr; apply: eq_bigr => s _.
move: (eg_face g f) (quad_weight _ _ _ _) (cb _ _) (fnormal_at _ _ _ _ _ _ _ _) (bdr_phipsi _ _ _ _ _ _) (shape_at _ _ _ _ _ _ _).
by move=> *; ring.
Qed.
Lemma ip_Gone f : G f *m one = 0.
Proof.
case: hP => _ _ h2 _; have nf0 : (0 < nf)%N by rewrite expn_gt0 n0.
apply/colP => j; rewrite !mxE (sum_ord1 (i := Ordinal nf0)) => [|i hi].
  rewrite !mxE eqxx mulr1 (h2 (Ordinal nf0) j f).2 /bdr_nphipsi big1 ?mulr0 // => s _.
  rewrite /fnormal_at big1 ?mul0r ?mulr0 // => d _; rewrite big1 ?mulr0 // => k _.
  rewrite /fdshape_at (bigD1 k) //= eqxx dig0; case: hb => -> _ _.
  by rewrite -polyC1 derivC horner0 mul0r mulr0.
by rewrite !mxE (negbTE hi) mulr0.
Qed.
Lemma ip_Ssym : S^T = S. Proof. by rewrite ip_SE stiff_sym. Qed.
Lemma ip_Sge0 u : 0 <= dotv u (S *m u). Proof. by rewrite ip_SE; exact: stiff_ge0. Qed.
Lemma ip_Seq0 u : dotv u (S *m u) = 0 -> exists c, u = c *: one. Proof. rewrite ip_SE; exact: stiff_eq0. Qed.
Lemma ip_Sone : S *m one = 0. Proof. by rewrite ip_SE stiff_one. Qed.
End Geo.

(** The facts used below. *)
Record ip_facts (F : realFieldType) (dim p : nat) (P : ip_data F) (t : F) : Prop := IpFacts {
  fa0 : forall f : 'I_(2 * dim), 0 < ip_area P f;
  faB : forall f : 'I_(2 * dim), ip_area P f *: ip_B dim p P f = ip_E dim p P f *m (ip_E dim p P f)^T;
  faN : forall f : 'I_(2 * dim), ip_area P f *: ip_N dim p P f = ip_E dim p P f *m ip_G dim p P f;
  fEone : forall f : 'I_(2 * dim), (ip_E dim p P f)^T *m cube_one F dim p = ip_area P f *: unit_vec F ((p + 1) ^ (dim - 1));
  fGone : forall f, ip_G dim p P f *m cube_one F dim p = 0;
  fSsym : (ip_S dim p P t)^T = ip_S dim p P t;
  fSge0 : forall u, 0 <= dotv u (ip_S dim p P t *m u);
  fSeq0 : forall u, dotv u (ip_S dim p P t *m u) = 0 -> exists c, u = c *: cube_one F dim p;
  fSone : ip_S dim p P t *m cube_one F dim p = 0 }.
Lemma ip_factsP (F : realFieldType) dim p ok (P : ip_data F) t : (0 < dim)%N -> @ip_integrals F dim p ok P t -> ip_facts dim p P t.
Proof.
move=> dim0 [b [Q [xs [ws [cv [cb [g [hb hq hc hg [hP _]]]]]]]]]; split.
- exact: (ip_a0 dim0 hb hq hg hP).
- exact: (ip_aB dim0 hb hq hg hP).
- exact: (ip_aN dim0 hb hP).
- exact: (ip_Eone dim0 hb hP).
- exact: (ip_Gone hb hP).
- exact: (ip_Ssym hP).
- exact: (ip_Sge0 hq hc hg hP).
- exact: (ip_Seq0 dim0 hb hq hc hg hP).
exact: (ip_Sone dim0 hb hP).
Qed.
