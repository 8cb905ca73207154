(** The contracts of Diffusion are satisfiable: Simpson's rule and the unit hypercube. *)
From mathcomp Require Import all_ssreflect all_algebra zify ring.
From Verif Require Import S_Hdg S_Tpp L_Poly S_LocalSolver M_Diffusion S_Diffusion S_TppGeo.
Set Implicit Arguments. Unset Strict Implicit. Unset Printing Implicit Defensive.
Import Order.TTheory GRing.Theory Num.Theory.
Local Open Scope ring_scope.

Section Ex.
Variable F : rcfType.
Definition simpson_pt (s : nat) : F := s%:R / 2%:R.
Definition simpson_wt (s : nat) : F := (if s == 1%N then 4%:R else 1) / 6%:R.

Lemma sum3 (f : nat -> F) : \sum_(i < 3) f i = f 0%N + f 1%N + f 2%N.
Proof. by rewrite !big_ord_recr big_ord0 /= add0r. Qed.
Lemma simpson_exact (p : {poly F}) : (size p <= 3)%N ->
  \sum_(s < 3) simpson_wt s * p.[simpson_pt s] = integ p.
Proof.
move=> hp; rewrite (integE hp) (sum3 (fun s => simpson_wt s * p.[simpson_pt s])) (sum3 (fun i => p`_i / i.+1%:R)).
have hc x : p.[x] = p`_0 + p`_1 * x + p`_2 * x ^+ 2.
  by rewrite (horner_coef_wide _ hp) (sum3 (fun i => p`_i * x ^+ i)) expr0 mulr1 expr1.
rewrite !hc /simpson_wt /simpson_pt /=.
by move: p`_0 p`_1 p`_2 => x y z; field; rewrite ?pnatr_eq0.
Qed.
Lemma simpson_ok b : orthonormal_basis 2 b -> quad_ok 2 b 3 simpson_pt simpson_wt.
Proof.
case=> _ hs _; split=> [s hs'|i j hi hj].
  by rewrite /simpson_wt divr_gt0 ?ltr0n //; case: ifP; rewrite ?ltr0n ?ltr01.
rewrite -simpson_exact; first by apply: eq_bigr => s _; rewrite hornerM.
have := size_mul_leq (b i) (b j); rewrite !hs // => h; apply: leq_trans h _.
by rewrite addnS /=; lia.
Qed.

(** The data of a hyperedge for given integrals of the parameter functions. *)
Definition tpp_data (b : nat -> {poly F}) (dim p Q : nat) (xs ws kappa : nat -> F) (g : edge_geo F dim)
    (src : nat -> F) (dirval init : nat -> nat -> F) (diffsq : seq F -> F)
    (eval : seq F -> seq F -> nat -> F) (types : seq nat) : df_data F :=
  let n := (p + 1)%N in
  {| df_vol := fun i j => eg_area g * (\sum_(s < Q ^ dim) quad_weight Q ws dim s * kappa s *
           (shape_at n b Q xs dim i s * shape_at n b Q xs dim j s));
     df_mass := fun i j => eg_area g * vol_phiphi n b dim i j;
     df_grad := fun i j d => eg_area g *
        (\sum_(k < dim) (\sum_(e < dim | e == d :> nat) invmx (eg_R g) k e) * vol_Dphiphi n b dim i j k);
     df_bb := fun i j f => eg_face g f * bdr_phiphi n b dim i j f;
     df_bp := fun i j f => eg_face g f * bdr_phipsi n b dim i j f;
     df_src := src; df_dirval := dirval; df_initial := init;
     df_normal := eg_normal g; df_area := eg_face g; df_diffsq := diffsq; df_eval := eval; df_types := types |}.
Lemma tpp_dataP b dim p Q xs ws kappa (g : edge_geo F dim) src dirval init diffsq eval types :
  tpp_contract b p Q xs ws kappa g (tpp_data b p Q xs ws kappa g src dirval init diffsq eval types).
Proof.
split=> // i j d /=; congr (_ * _); apply: eq_bigr => k _; congr (_ * _).
by rewrite (eq_bigl (fun e => e == d)) ?big_pred1_eq.
Qed.

Definition unit_geo (dim : nat) : edge_geo F dim :=
  EdgeGeo 1%:M 1 (fun _ => 1) (fun f d => if d == (f %/ 2)%N then (if odd f then 1 else -1) else 0).
Lemma unit_geo_ok dim : geo_ok (unit_geo dim).
Proof.
split=> /=; [exact: unitmx1 | exact: ltr01 | by move=> *; exact: ltr01 |].
move=> k d s; rewrite invmx1 mxE !mul1r.
have -> : ((2 * k + s) %/ 2 = k)%N by case: s; lia.
have -> : odd (2 * k + s) = s by rewrite oddD oddM; case: s.
by rewrite eq_sym val_eqE; case: (_ == _); rewrite ?mulr1 ?mulr0.
Qed.
(** For every dimension, source, boundary values and node types, with degree 1. *)
Lemma diffusion_data_exists dim src dirval init diffsq eval types : exists D : df_data F,
  [/\ diffusion_data dim 1 D, df_src D = src, df_dirval D = dirval & df_types D = types] /\
  [/\ df_initial D = init, df_diffsq D = diffsq & df_eval D = eval].
Proof.
have [b hb] := @orthonormal_exists F 1.
exists (tpp_data b 1 3 simpson_pt simpson_wt (fun s => s.+1%:R) (unit_geo dim) src dirval init diffsq eval types).
split; last by []; split=> //.
exists b, 3%N, simpson_pt, simpson_wt, (fun s => s.+1%:R), (unit_geo dim); split.
- exact: hb.
- exact: simpson_ok.
- by move=> s _; rewrite ltr0n.
- exact: unit_geo_ok.
exact: tpp_dataP.
Qed.
End Ex.
