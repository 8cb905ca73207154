(** Bilaplacian: failures, initial values, errors and values in the bulk. *)
From mathcomp Require Import all_ssreflect all_algebra zify ring.
From Verif Require Import M_Base L_Base M_Index L_Index M_DenseLA M_Lapack S_Lapack M_DiffusionUniform M_Diffusion S_Hdg S_Tpp S_LocalSolver S_Diffusion S_TppGeo.
From Verif Require Import L_Hdg L_HdgSrc L_LocalBase L_LocalLink L_DiffusionUniform L_DiffusionUniform2 L_Diffusion L_TppGeo L_Diffusion2 L_Diffusion3.
From Verif Require Import M_Bilaplacian S_Bilaplacian L_Bilaplacian L_Bilaplacian2 L_Bilaplacian3 L_Bilaplacian4.
Set Implicit Arguments. Unset Strict Implicit. Unset Printing Implicit Defensive.
Import Order.TTheory GRing.Theory Num.Theory.
Local Open Scope ring_scope.

Section Failures.
Variable F : realFieldType.
Variables (gesv : nat -> nat -> seq F -> seq F -> sv_result F).
Variables (dim p : nat) (dirs laps : seq nat) (tau : F) (P : bl_data F).
Notation nb := ((p + 1) ^ (dim - 1))%N.
Implicit Types (x out : seq (seq F)).
Lemma bl_not_trace x : ~ is_trace (2 * dim) (2 * nb) x -> bl_lambda_ok dim p x = false.
Proof. by move=> h; apply/negP => /(is_trP dim p). Qed.
Lemma bilap_checked st x out : ~ is_trace (2 * dim) (2 * nb) x \/ ~ is_trace (2 * dim) (2 * nb) out ->
  [/\ bl_trace_to_flux gesv dim p dirs laps tau P x out = Abort,
      bl_residual_flux gesv dim p dirs laps tau P x out = Abort
    & bl_mass_flux gesv dim p dirs laps tau P st x out = Abort].
Proof.
by rewrite /bl_trace_to_flux /bl_residual_flux /bl_mass_flux => -[/bl_not_trace ->|/bl_not_trace ->] //; rewrite andbF.
Qed.
Lemma bilap_lapack st x out : (forall n nc A b, ~~ sv_info (gesv n nc A b)) ->
  [/\ bl_trace_to_flux gesv dim p dirs laps tau P x out = Abort,
      bl_residual_flux gesv dim p dirs laps tau P x out = Abort
    & bl_mass_flux gesv dim p dirs laps tau P st x out = Abort].
Proof.
move=> hf; have hd A r : bl_divide gesv dim p A r = Abort.
  by rewrite /bl_divide /solve_const /solve_mut /= (negbTE (hf _ _ _ _)).
have hs st' : bl_solve_local_problem gesv dim p dirs laps tau P st' x = Abort.
  rewrite /bl_solve_local_problem /bl_rhs_lambda.
  by case: eqP => // _; case: bl_lambda_ok; rewrite //= ?hd //; case: eqP => //= _; rewrite hd.
by rewrite /bl_trace_to_flux /bl_residual_flux /bl_mass_flux !hs /=; case: (_ && _).
Qed.
Lemma bilap_node_types : bl_node_types dim dirs (bl_df P) =
  mkseq (fun f => if nth 0%N (df_types (bl_df P)) f \in dirs then 1%N else 0%N) (2 * dim).
Proof. exact: (diffusion_node_types dim dirs (bl_df P)). Qed.
(** make_initial passes the face and the function in exchanged order. *)
Lemma bilap_initial out : is_trace (2 * dim) (2 * nb) out ->
  bl_make_initial dirs P out =
  mkseq (fun f => mkseq (fun j => if nth 0%N (df_types (bl_df P)) f \in dirs then 0
                                  else if (j < nb)%N then df_initial (bl_df P) f j else bl_initlap P f j)
                    (2 * nb)) (2 * dim).
Proof.
move=> [so /allP ao]; rewrite /bl_make_initial.
pose R f (r : seq F) := if bl_dirichlet dirs (bl_df P) f then for_ (size r) (fun j r => upd r (0 + j) 0) r
  else let r1 := for_ (size r %/ 2) (fun j r => upd r (0 + j) (df_initial (bl_df P) f j)) r in
       for_ (size r - size r %/ 2) (fun j s => upd s (size r %/ 2 + j) (bl_initlap P f (size r %/ 2 + j)%N)) r1.
rewrite (@rows_loop _ _ R); last first.
  move=> i o hi ho.
  have l0 n (g : nat -> F) q : (i < size q)%N -> for_ n (fun j out => upd2 out i j (g j)) q =
     upd q i (for_ n (fun j r => upd r (0 + j) (g j)) (nth [::] q i)).
    by move=> hq; rewrite -row_loop.
  rewrite /R; case: ifP => _; first by rewrite l0 ?ho.
  rewrite l0 ?ho // (row_loop _ _ (fun j => bl_initlap P i (size (nth [::] o i) %/ 2 + j)%N)); last by rewrite size_upd ho.
  by rewrite nth_upd eqxx ho hi /= size_row upd_upd.
rewrite so; apply: (@eq_from_nth _ [::]); rewrite ?size_mkseq // => f hf; rewrite !nth_mkseq //.
have sr : size (nth [::] out f) = (2 * nb)%N by apply/eqP/ao/mem_nth; rewrite so.
have h2 : ((2 * nb) %/ 2 = nb)%N by rewrite mulKn.
rewrite /R sr h2 -/(bl_dirichlet dirs (bl_df P) f); case: ifP => _.
  apply: (@eq_from_nth _ 0); rewrite ?size_row ?sr ?size_mkseq // => j hj.
  by rewrite nth_row ?sr // hj nth_mkseq.
apply: (@eq_from_nth _ 0); rewrite /= ?size_row ?sr ?size_mkseq // => j hj.
rewrite nth_mkseq // nth_row ?size_row ?sr; last by lia.
have -> : (j < nb + (2 * nb - nb))%N by lia.
rewrite andbT leqNgt; case: (boolP (j < nb)%N) => hjb /=; last by rewrite subnKC // leqNgt.
by rewrite nth_row ?sr /= ?add0n ?hjb ?subn0 //; lia.
Qed.
End Failures.

Section Bilaplacian.
Variable F : realFieldType.
Variables (gesv : nat -> nat -> seq F -> seq F -> sv_result F).
Variables (dim p : nat) (dirs laps : seq nat) (tau : F).
Hypotheses (dim0 : (0 < dim)%N) (hg : gesv_correct gesv) (tau0 : 0 < tau).
Notation nf := ((p + 1) ^ dim)%N.
Notation nb := ((p + 1) ^ (dim - 1))%N.
Notation is_tr := (is_trace (2 * dim) (2 * nb)).
Notation lo x := (tr nb (lower nb x)).
Notation hi x := (tr nb (upper nb x)).
Notation full P := (bi_full dim p dirs laps tau P).
Implicit Types (P : bl_data F) (x : seq (seq F)).

Lemma bl_u_coeffsE (X : seq F) : bl_u_coeffs dim p X = coeffs_of (upart nf dim X).
Proof.
rewrite /bl_u_coeffs (bl_nf p dim0) (n_shape_fctE p dim0) coeffs_mkseq; congr coeffs_of.
by apply/colP => i; rewrite !mxE addnC.
Qed.
Lemma bilap_unique P x : diffusion_data dim p (bl_df P) -> is_tr x ->
  exists q u r w, full P x q u r w /\
    forall q' u' r' w', full P x q' u' r' w' -> [/\ forall d, q' d = q d, u' = u, forall d, r' d = r d & w' = w].
Proof.
move=> hD hx; have [X _ [_ l]] := bilap_solve1 dirs laps dim0 hD hg tau0 hx.
do 4 eexists; split; first exact: l.
by move=> q' u' r' w' l'; exact: (bi_unique dim0 hD tau0 l' l).
Qed.
Lemma bilap_errors P x : diffusion_data dim p (bl_df P) -> is_tr x ->
  exists q u r w, full P x q u r w /\
    bl_errors gesv dim p dirs laps tau P x =
    if 0 <= df_diffsq (bl_df P) (coeffs_of u) then Ok [:: df_diffsq (bl_df P) (coeffs_of u)] else Abort.
Proof.
move=> hD hx; have [X hX [_ l]] := bilap_solve1 dirs laps dim0 hD hg tau0 hx.
do 4 eexists; split; first exact: l.
by rewrite /bl_errors hX /= bl_u_coeffsE.
Qed.
Lemma bilap_bulk P x absc : diffusion_data dim p (bl_df P) -> is_tr x ->
  exists q u r w, full P x q u r w /\
    bl_bulk_values gesv dim p dirs laps tau P absc x =
    Ok (rcons [seq mkseq (df_eval (bl_df P) absc (coeffs_of (q d))) (size absc ^ dim) | d <- enum 'I_dim]
              (mkseq (df_eval (bl_df P) absc (coeffs_of u)) (size absc ^ dim))).
Proof.
move=> hD hx; have [X h1 [_ l]] := bilap_solve1 dirs laps dim0 hD hg tau0 hx.
do 4 eexists; split; first exact: l.
rewrite /bl_bulk_values h1 /= hc_powE; congr Ok.
have hc d : mkseq (fun i => nth 0 X (d * bl_shape_fct dim p + i)) (bl_shape_fct dim p) =
    coeffs_of (\col_(i < nf) nth 0 X (d * nf + i)) by rewrite (bl_nf p dim0) (n_shape_fctE p dim0) coeffs_mkseq.
rewrite {1}/mkseq iotaD map_cat cats1; congr rcons; last by rewrite hc.
by rewrite -(val_enum_ord dim) -map_comp; apply: eq_map => d /=; rewrite hc.
Qed.
(** The solution at the new time with the difference quotient in time as an additional source. *)
Lemma bilap_errors_temp P Po dt x xo : diffusion_data dim p (bl_df P) -> diffusion_data dim p (bl_df Po) ->
  dt != 0 -> is_tr x -> is_tr xo ->
  exists q u r w qo uo ro wo q' u' r' w', [/\ full P x q u r w, full Po xo qo uo ro wo,
    bi_loc dim p tau P q' u' r' w' (lo x) (hi x)
      (df_rq p (u_problem P) (face_dirichlet dirs (bl_df P))) (df_ru dim p (u_problem P) tau (face_dirichlet dirs (bl_df P)))
      (df_rq p (w_problem P) (face_dirichlet laps (bl_df P)))
      (df_ru dim p (w_problem P) tau (face_dirichlet laps (bl_df P)) + df_mass_mx dim p (bl_df P) *m (dt^-1 *: (uo - u))) &
    bl_errors_temp gesv dim p dirs laps tau P Po dt x xo = Ok (df_diffsq (bl_df P) (coeffs_of u'))].
Proof.
move=> hD hDo t0 hx hxo; have [X h1 [s1 l1]] := bilap_solve1 dirs laps dim0 hD hg tau0 hx.
have [Xo h1o [s1o l1o]] := bilap_solve1 dirs laps dim0 hDo hg tau0 hxo.
pose X0 := mkseq (fun i => nth 0 Xo i - nth 0 X i) (bl_loc_dofs dim p).
have [Y hY [sY lY]] := bilap_solve_cor dirs laps dim0 hD hg tau0 X0 t0 hx.
exists (qpart nf X), (upart nf dim X); do 2 eexists; exists (qpart nf Xo), (upart nf dim Xo); do 6 eexists.
split; [exact: l1 | exact: l1o | | by rewrite /bl_errors_temp h1 h1o /= -/X0 hY /= bl_u_coeffsE].
have hX0 : upart nf dim X0 = upart nf dim Xo - upart nf dim X :> 'cV[F]_nf.
  apply/colP => i; rewrite !mxE nth_mkseq // (bl_nl p dim0) (n_shape_fctE p dim0).
  by apply: block_lt; rewrite // addn1; lia.
by rewrite hX0 in lY; rewrite -scalemxAr; exact: lY.
Qed.
End Bilaplacian.
