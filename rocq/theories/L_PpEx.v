(** The contracts of DiffusionPostprocess are satisfiable: Boole's rule, the unit hypercube, degree 1. *)
From mathcomp Require Import all_ssreflect all_algebra zify ring.
From Verif Require Import S_Hdg S_Tpp L_Poly S_LocalSolver M_Diffusion S_Diffusion S_TppGeo S_Gradient M_DiffusionPp S_DiffusionPp.
From Verif Require Import L_DiffusionEx.
Set Implicit Arguments. Unset Strict Implicit. Unset Printing Implicit Defensive.
Import Order.TTheory GRing.Theory Num.Theory.
Local Open Scope ring_scope.

Section Ex.
Variable F : rcfType.
Definition boole_pt (s : nat) : F := s%:R / 4%:R.
Definition boole_wt (s : nat) : F := (nth 0%N [:: 7; 32; 12; 32; 7]%N s)%:R / 90%:R.
Lemma sum5 (f : nat -> F) : \sum_(i < 5) f i = f 0%N + f 1%N + f 2%N + f 3%N + f 4%N.
Proof. by rewrite !big_ord_recr big_ord0 /= add0r. Qed.
Lemma boole_exact (p : {poly F}) : (size p <= 5)%N ->
  \sum_(s < 5) boole_wt s * p.[boole_pt s] = integ p.
Proof.
move=> hp; rewrite (integE hp) (sum5 (fun s => boole_wt s * p.[boole_pt s])) (sum5 (fun i => p`_i / i.+1%:R)).
have hc x : p.[x] = p`_0 + p`_1 * x + p`_2 * x ^+ 2 + p`_3 * x ^+ 3 + p`_4 * x ^+ 4.
  by rewrite (horner_coef_wide _ hp) (sum5 (fun i => p`_i * x ^+ i)) expr0 mulr1 expr1.
rewrite !hc /boole_wt /boole_pt /=.
by move: p`_0 p`_1 p`_2 p`_3 p`_4 => x y z t w; field; rewrite ?pnatr_eq0.
Qed.
Lemma boole_ok m b : (m <= 3)%N -> orthonormal_basis 3 b -> quad_ok m b 5 boole_pt boole_wt.
Proof.
move=> hm [_ hs _]; split=> [s hs'|i j hi hj].
  rewrite /boole_wt divr_gt0 ?ltr0n //.
  by do 5! [case: s hs' => [//|s] hs'].
rewrite -boole_exact; first by apply: eq_bigr => s _; rewrite hornerM.
have := size_mul_leq (b i) (b j); rewrite !hs; [|lia|lia] => h; apply: leq_trans h _.
by rewrite addnS /=; lia.
Qed.
(** For every dimension, source, boundary values and node types; the diffusion coefficient varies and is not the
    inverse of the other one. *)
Lemma pp_setting_exists dim src dirval (init : nat -> nat -> F) (diffsq : seq F -> F) (eval : seq F -> seq F -> nat -> F) types ppsq :
  exists (S : pp_setting F dim) (P : pp_data F), [/\ setting_ok 1 S P, df_src (pp_df P) = src,
    df_dirval (pp_df P) = dirval, df_types (pp_df P) = types & pp_diffsq P = ppsq].
Proof.
have [b hb] := @orthonormal_exists F 2.
pose S := {| st_b := b; st_Q := 5; st_xs := boole_pt; st_ws := boole_wt; st_kappa := fun s => s.+1%:R;
  st_Qp := 5; st_xp := boole_pt; st_wp := boole_wt; st_coef := fun s => s.+2%:R; st_geo := unit_geo F dim |}.
pose D := tpp_data b 1 5 boole_pt boole_wt (fun s => s.+1%:R) (unit_geo F dim) src dirval init diffsq eval types.
pose P := {| pp_df := D;
  pp_stiff := vol_stiffness 3 b 5 boole_pt boole_wt (unit_geo F dim) (fun s => s.+2%:R);
  pp_vol00 := 1 * vol_phiphi 3 b dim 0 0;
  pp_grad := fun i j d => 1 * (\sum_(k < dim) (\sum_(e < dim | e == d :> nat) invmx (1%:M : 'M[F]_dim) k e) * mixed_Dphiphi dim 3 b 2 i j k);
  pp_diffsq := ppsq |}.
exists S, P; split=> //; split.
- exact: hb.
- exact: unit_geo_ok.
- by split; [exact: boole_ok | move=> s _; rewrite ltr0n].
- by split; [exact: boole_ok | move=> s _; rewrite ltr0n].
split; first exact: tpp_dataP.
split=> // i j d /=; congr (_ * _); apply: eq_bigr => k _; congr (_ * _).
by rewrite (eq_bigl (fun e => e == d)) ?big_pred1_eq.
Qed.
End Ex.
