(** The contracts of DiffusionAdvectionReaction are satisfiable, on one hyperedge and on a hypergraph. *)
From mathcomp Require Import all_ssreflect all_algebra zify ring.
From Verif Require Import S_Hdg S_Tpp L_Poly S_LocalSolver M_Diffusion S_Diffusion S_TppGeo L_DiffusionEx L_ParabEx.
From Verif Require Import M_Base M_Global S_Global M_Lapack S_Lapack L_Lapack L_DiffusionUniform2 M_AdvReact S_AdvReact S_GlobalParab L_AdvReact5.
Set Implicit Arguments. Unset Strict Implicit. Unset Printing Implicit Defensive.
Import Order.TTheory GRing.Theory Num.Theory.
Local Open Scope ring_scope.

Section Ex.
Variable F : rcfType.
(** The integrals of given values of the parameter functions, by Simpson's rule on the unit hypercube. *)
Definition ar_ex (b : nat -> {poly F}) (dim : nat) (kappa rho : nat -> F) (vel : nat -> nat -> F) (src : nat -> F)
    (dirval : nat -> nat -> F) (types : seq nat) : ar_data F :=
  let g := unit_geo F dim in
  let int v i j := eg_area g * (\sum_(s < 3 ^ dim) quad_weight 3 (@simpson_wt F) dim s * v s *
        (shape_at 2 b 3 (@simpson_pt F) dim i s * shape_at 2 b 3 (@simpson_pt F) dim j s)) in
  {| ar_df := fun=> tpp_data b 1 3 (@simpson_pt F) (@simpson_wt F) kappa g src dirval (fun _ _ => 0) (fun=> 0)
       (fun _ _ _ => 0) types;
     ar_react := fun _ i j => int rho i j;
     ar_adv := fun _ i j d => int (fun s => vel s d) i j |}.
Lemma ar_exP (dim : nat) (ok : nat -> (nat -> F) -> (nat -> F) -> (nat -> nat -> F) -> edge_geo F dim -> Prop) b kappa rho vel src dirval types t : orthonormal_basis 2 b -> (forall s, 0 < kappa s) ->
  ok (3 ^ dim)%N kappa rho vel (unit_geo F dim) ->
  @ar_integrals F dim 1 ok (ar_ex b dim kappa rho vel src dirval types) t.
Proof.
move=> hb hk hok; exists b, 3%N, (@simpson_pt F), (@simpson_wt F), kappa, rho, vel, (unit_geo F dim); split=> //.
- exact: simpson_ok.
- exact: unit_geo_ok.
by split=> //; split=> //; exact: tpp_dataP.
Qed.
(** A velocity that is not constant, small against the reaction. *)
Lemma ar_small_exists dim src dirval types : exists P : ar_data F, forall t,
  [/\ ar_small dim 1 P t, df_src (ar_df P t) = src, df_dirval (ar_df P t) = dirval & df_types (ar_df P t) = types].
Proof.
have [b hb] := @orthonormal_exists F 1.
exists (ar_ex b dim (fun s => s.+1%:R) (fun s => s.+1%:R * (dim.+1)%:R) (fun s d => s.+1%:R) src dirval types) => t.
split=> //; apply: ar_exP => // [s|s hs]; first by rewrite ltr0n.
left; rewrite sumr_const card_ord -mulr_natr -!natrX -!natrM ltr_nat /=.
by rewrite expnS expn1 -!mulnA ; nia.
Qed.
(** A wind along the diagonal, without reaction. *)
Lemma ar_wind_exists dim src dirval types : exists P : ar_data F, forall t,
  [/\ ar_wind dim 1 1 (fun=> 1) P t, df_src (ar_df P t) = src, df_dirval (ar_df P t) = dirval & df_types (ar_df P t) = types]
  /\ (forall i j, ar_react P t i j = 0) /\ (forall f, (f < 2 * dim)%N -> face_outflow dim (fun=> 1) P t f = if odd f then 1 else -1).
Proof.
have [b hb] := @orthonormal_exists F 1.
exists (ar_ex b dim (fun s => s.+1%:R) (fun=> 0) (fun s d => s.+1%:R) src dirval types) => t.
have hout f : (f < 2 * dim)%N -> \sum_(d < dim) eg_normal (unit_geo F dim) f d * 1 = if odd f then 1 else -1.
  move=> hf; have hd : (f %/ 2 < dim)%N by rewrite ltn_divLR // mulnC.
  rewrite (bigD1 (Ordinal hd)) //= eqxx mulr1 big1 ?addr0 // => d hne.
  by rewrite -val_eqE /= in hne; rewrite (negbTE hne) mul0r.
split.
  split=> //; apply: ar_exP => // [s|]; first by rewrite ltr0n.
  split=> // [s d _ _|f hf]; first by rewrite mulr1.
  rewrite hout //; case: (odd f); first by rewrite addr_gt0 ?divr_gt0 ?ltr0n ?ltr01.
  have -> : 1 + (-1) / 2%:R = 2%:R^-1 :> F by field.
  by rewrite invr_gt0 ltr0n.
split=> [i j|f hf]; first by rewrite /ar_ex /= big1 ?mulr0 // => s _; rewrite mulr0 mul0r.
by rewrite /face_outflow -hout // /ar_ex /= mul1r.
Qed.

Lemma ar_symmetry_fails dim : (0 < dim)%N -> exists (P : ar_data F) (gesv : nat -> nat -> seq F -> seq F -> sv_result F),
  gesv_correct gesv /\ forall t, ar_stable dim 1 1 (fun=> 1) P t /\
  exists x x' y y', [/\ is_trace (2 * dim) (2 ^ (dim - 1)) x /\ is_trace (2 * dim) (2 ^ (dim - 1)) x',
    ar_trace_to_flux gesv dim 1 [::] 1 P x (zero_trace F (2 * dim) (2 ^ (dim - 1))) t = Ok y,
    ar_trace_to_flux gesv dim 1 [::] 1 P x' (zero_trace F (2 * dim) (2 ^ (dim - 1))) t = Ok y' &
    pairing (2 * dim) (2 ^ (dim - 1)) x' y != pairing (2 * dim) (2 ^ (dim - 1)) x y'].
Proof.
move=> dim0; have [P hP] := ar_wind_exists dim (fun=> 0) (fun _ _ => 0) [::].
exists P, (@inv_gesv F); split; first exact: inv_gesv_correct.
move=> t; have [[hw _ _ _] [hR ho]] := hP t; split; first by right.
have f0 : (1 < 2 * dim)%N by lia.
have zt : is_trace (2 * dim) (2 ^ (dim - 1)) (zero_trace F (2 * dim) (2 ^ (dim - 1))).
  by split; [exact: size_nseq | apply/allP => l /nseqP[-> _]; rewrite size_nseq].
have [|||x [x' [y [y' [h1 h2 h3 h4 h5]]]]] := @ar_asymmetric F dim 1 1 P t (fun=> 1) dim0 hw _ (@inv_gesv F) [::]
  (@inv_gesv_correct F) 1%N _ _ _ zt zt f0; try by [].
- by rewrite ho // oner_neq0.
- by exists x, x', y, y'.
Qed.

(** Two hyperedges in a row with a wind through both; the ends are Dirichlet nodes. *)
Definition ends_type (v : nat) : nat := if v == 1%N then 0%N else 1%N.
Lemma ar_row_ok (t : F) : exists P : nat -> ar_data F, (forall i, ar_stable 1 1 1 (fun=> 1) (P i) t) /\
  [/\ valid_graph 1 3 (indexed row_nodes), types_agree (fun i => ar_df (P i) t) ends_type (indexed row_nodes),
      forall v, (v < 3)%N -> ends_type v \notin [:: 1%N] -> \sum_(e <- indexed row_nodes)
        \sum_(k < 2 * 1 | nth 0%N e.1 k == v) face_outflow 1 (fun=> 1) (P e.2) t k <= 0 &
      forall v, (v < 3)%N -> anchored (indexed row_nodes) (fun v => ends_type v \in [:: 1%N]) v].
Proof.
have hex i := ar_wind_exists 1 (fun=> 0) (fun _ _ => 0) (map ends_type (nth [::] row_nodes i)).
have [P0 h0] := hex 0%N; have [P1 h1] := hex 1%N.
exists (fun i => if i == 0%N then P0 else P1); split.
  by move=> i; right; case: eqP => _; [have [[]] := h0 t | have [[]] := h1 t].
have [[_ _ _ t0] [_ o0]] := h0 t; have [[_ _ _ t1] [_ o1]] := h1 t.
split=> //.
- by move=> e k [<-|[<-|[]]]; rewrite /= ?t0 ?t1; case: k => [|[|k]].
- case=> [|[|[|v]]] // _ _; rewrite /indexed /= !big_cons big_nil /=.
  rewrite big_mkcond /= [X in _ + (X + _)]big_mkcond /= !big_ord_recr !big_ord0 /= !o0 ?o1 //= !add0r !addr0.
  by rewrite subrr.
case=> [|[|[|v]]] // _; try exact: anchored_fixed.
apply: (@anchored_step _ _ _ ([:: 0; 1]%N, 0%N) 0%N) => //; first by left.
exact: anchored_fixed.
Qed.
End Ex.
