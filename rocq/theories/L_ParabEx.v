(** The contracts of DiffusionParab are satisfiable, on one hyperedge and on a hypergraph. *)
From mathcomp Require Import all_ssreflect all_algebra zify ring.
From Verif Require Import S_Hdg S_Tpp L_Poly S_LocalSolver M_Diffusion S_Diffusion S_TppGeo L_DiffusionEx.
From Verif Require Import M_Base M_Global S_Global M_DiffusionParab S_DiffusionParab S_GlobalParab.
Set Implicit Arguments. Unset Strict Implicit. Unset Printing Implicit Defensive.
Import Order.TTheory GRing.Theory Num.Theory.
Local Open Scope ring_scope.

Section Ex.
Variable F : rcfType.
(** Hyperedges of every dimension, with any sources, Dirichlet and initial values and face types. *)
Lemma parab_data_exists dim (src : nat -> nat -> F) dirval dirold init iphi ider ibdr (types : nat -> seq nat) :
  exists P : nat -> dp_data F, forall i,
  [/\ parab_data dim 1 (P i), df_src (dp_df (P i)) = src i, df_dirval (dp_df (P i)) = dirval i,
      df_types (dp_df (P i)) = types i & df_initial (dp_df (P i)) = init i] /\
  [/\ dp_dirold (P i) = dirold i, dp_init_phi (P i) = iphi i, dp_init_der (P i) = ider i & dp_init_bdr (P i) = ibdr i].
Proof.
have [b hb] := @orthonormal_exists F 1.
exists (fun i => DpData (tpp_data b 1 3 (@simpson_pt F) (@simpson_wt F) (fun s => s.+1%:R) (unit_geo F dim)
   (src i) (dirval i) (init i) (fun=> 0) (fun _ _ _ => 0) (types i)) (dirold i) 1 (iphi i) (ider i) (ibdr i)) => i.
split; last by []; split=> //.
exists b, 3%N, (@simpson_pt F), (@simpson_wt F), (fun s => s.+1%:R), (unit_geo F dim); split.
- exact: hb.
- exact: simpson_ok.
- by move=> s _; rewrite ltr0n.
- exact: unit_geo_ok.
by split=> //; exact: tpp_dataP.
Qed.

(** Two hyperedges in a row; hypernode 0 is a Dirichlet node. *)
Definition row_nodes : seq (seq nat) := [:: [:: 0; 1]; [:: 1; 2]]%N.
Definition row_type (v : nat) : nat := if v == 0%N then 1%N else 0%N.
Lemma row_ok : [/\ valid_graph 1 3 (indexed row_nodes), covered [:: 1%N] row_nodes 3 row_type &
  exists P : nat -> dp_data F, (forall i, parab_data 1 1 (P i)) /\ face_types 1 row_nodes row_type P /\
    zero_data 1 1 row_nodes P].
Proof.
split=> //; first by case=> [|[|[|v]]].
have [P hP] := parab_data_exists 1 (fun _ _ => 0) (fun _ _ _ => 0) (fun _ _ _ => 0) (fun _ _ _ => 0)
  (fun _ _ => 0) (fun _ _ _ => 0) (fun _ _ _ => 0) (fun i => map row_type (nth [::] row_nodes i)).
exists P; split=> [i|]; first by have [[]] := hP i.
split=> [i k hi hk|i hi]; have [[h1 h2 h3 h4 h5] [h6 h7 h8 h9]] := hP i.
  by rewrite h4 (nth_map 0%N) //; case: i hi {h1 h2 h3 h4 h5 h6 h7 h8 h9} => [|[]].
by split=> [j _|j f _ _]; rewrite ?h2 ?h3 ?h6.
Qed.
End Ex.
