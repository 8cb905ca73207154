(** Data that meet the hypotheses of the properties of BilaplacianParab. *)
From mathcomp Require Import all_ssreflect all_algebra.
From Verif Require Import M_Base M_Lapack S_Lapack S_Hdg S_Tpp M_DiffusionUniform M_Diffusion S_LocalSolver S_Diffusion S_TppGeo.
From Verif Require Import M_Global S_Global M_Bilaplacian S_Bilaplacian L_DiffusionUniform2 L_DiffusionEx M_BilapParab S_BilapParab.
Set Implicit Arguments. Unset Strict Implicit. Unset Printing Implicit Defensive.
Import Order.TTheory GRing.Theory Num.Theory.
Local Open Scope ring_scope.

Lemma parab_example (F : rcfType) (dim : nat) (types : seq nat) (src srco : nat -> F) :
  gesv_correct (@inv_gesv F) /\
  exists P : bp_data F, [/\ diffusion_data dim 1 (bl_df (bp_bl P)), df_types (bl_df (bp_bl P)) = types,
    df_src (bl_df (bp_bl P)) = src, bp_src_old P = srco &
    (forall i, src i = 0) -> (forall i, srco i = 0) -> bp_no_data dim 1 P].
Proof.
split; first exact: inv_gesv_correct.
have [D [[h1 h2 h3 h4] _]] := diffusion_data_exists dim src (fun _ _ => 0) (fun _ _ => 0) (fun=> 0) (fun _ _ _ => 0) types.
exists (BpData (BlData D (fun _ _ => 0) (fun _ _ => 0)) srco (fun=> 0)); split=> // s1 s2.
by split=> [i _|i f _ _] /=; rewrite ?h2 ?h3 ?s1 ?s2.
Qed.
Lemma parab_row (F : rcfType) : let edges := [:: ([:: 0; 1], false); ([:: 1; 2], true)]%N in
  let nt v := if v == 0%N then 1%N else 0%N in
  exists dat : bool -> bp_data F, [/\ forall e, diffusion_data 1 1 (bl_df (bp_bl (dat e))), valid_graph 1 3 edges,
    types_agree (fun e => bl_df (bp_bl (dat e))) nt edges, forall e, bp_no_data 1 1 (dat e) &
    forall v, (v < 3)%N -> (nt v \in [:: 1%N]) || has (fun e => v \in e.1) edges].
Proof.
move=> edges nt.
have [_ [P0 [hP0 h0 _ _ n0]]] := @parab_example F 1 [:: 1; 0]%N (fun=> 0) (fun=> 0).
have [_ [P1 [hP1 h1 _ _ n1]]] := @parab_example F 1 [:: 0; 0]%N (fun=> 0) (fun=> 0).
exists (fun e => if e then P1 else P0); split=> //; [by case | | by case; [exact: n1 | exact: n0] |].
  by move=> e k /= [<-|[<-|[]]]; case: k => [|[|k]] //=; rewrite ?h0 ?h1.
by case=> [|[|[|]]].
Qed.
