(** BilaplacianParab: comparison with the theta scheme, steady states, what is shown after a step. *)
From mathcomp Require Import all_ssreflect all_algebra zify ring.
From Verif Require Import M_Base L_Base M_Index L_Index M_Lapack S_Lapack M_DiffusionUniform M_Diffusion S_Hdg S_Tpp S_LocalSolver S_Diffusion S_TppGeo.
From Verif Require Import L_Hdg L_HdgSrc L_LocalBase L_LocalLink L_DiffusionUniform L_DiffusionUniform2 L_Diffusion L_TppGeo L_Diffusion2 L_Diffusion3.
From Verif Require Import M_Bilaplacian S_Bilaplacian L_Bilaplacian L_Bilaplacian2 L_Bilaplacian3 L_Bilaplacian4 L_Bilaplacian5 L_Bilaplacian6.
From Verif Require Import S_BiReact L_BilapReact L_BiReg L_BiFlux M_BilapParab S_BilapParab L_BilapParab L_BilapParab2.
Set Implicit Arguments. Unset Strict Implicit. Unset Printing Implicit Defensive.
Import Order.TTheory GRing.Theory Num.Theory.
Local Open Scope ring_scope.

Section Parab.
Variables (F : realFieldType) (gesv : nat -> nat -> seq F -> seq F -> sv_result F).
Variables (dim p : nat) (dirs laps : seq nat) (tau theta dt : F) (P : bp_data F).
Hypotheses (dim0 : (0 < dim)%N) (hD : diffusion_data dim p (bl_df (bp_bl P))) (hg : gesv_correct gesv).
Hypotheses (tau0 : 0 < tau) (k0 : 0 < theta * dt).
Notation B := (bp_bl P).
Notation D := (bl_df B).
Notation M := (df_mass_mx dim p D).
Notation nf := ((p + 1) ^ dim)%N.
Notation nb := ((p + 1) ^ (dim - 1))%N.
Notation nF := (2 * dim)%N.
Notation is_tr := (is_trace nF (2 * nb)).
Notation lo x := (tr nb (lower nb x)).
Notation hi x := (tr nb (upper nb x)).
Notation kap := (theta * dt).
Notation full := (step_full dim p dirs laps tau theta dt P).
Notation set := (bp_set_data gesv dim p dirs laps tau theta dt P).
Notation zt := (zero_trace F nF (2 * nb)).
Notation mask := (face_dirichlet dirs D).
Notation mask2 := (face_dirichlet laps D).
Notation Q := (bp_eff theta P).
Notation rq := (df_rq p (u_problem Q) mask).
Notation ru := (df_ru dim p (u_problem Q) tau mask).
Notation rr := (df_rq p (w_problem Q) mask2).
Notation rw := (df_ru dim p (w_problem Q) tau mask2).
Implicit Types (x out : seq (seq F)) (old : seq F).

(** The fluxes depend on theta and dt by their product, and not on the stored state. *)
Lemma parab_euler theta' dt' old old' x out out' : theta' * dt' = theta * dt -> is_tr x -> is_tr out -> is_tr out' ->
  bp_trace_to_flux gesv dim p dirs laps tau theta' dt' P old' x out' =
  bp_trace_to_flux gesv dim p dirs laps tau theta dt P old x out.
Proof.
move=> ek hx ho ho'; have k0' : 0 < theta' * dt' by rewrite ek.
have [y -> [q [u [r [w [l1 f1]]]]]] := parab_flux_ dirs laps dim0 hD hg tau0 k0 old hx ho.
have [y' -> [q' [u' [r' [w' [l2 f2]]]]]] := parab_flux_ dirs laps dim0 hD hg tau0 k0' old' hx ho'.
congr Ok; rewrite /step_hom ek in l2.
apply: (flux_bi_unique _ _ _ f2 f1) => //.
exact: (react_unique (step_regular dim0 hD tau0 k0) l2 l1).
Qed.
Lemma rw_eff : rw = df_ru dim p (w_problem B) tau mask2 + ((1 - theta) / theta) *: \col_i bp_src_old P i.
Proof.
rewrite /df_ru addrAC; congr (_ + _); apply/colP => i; by rewrite !mxE.
Qed.
Lemma th0 : theta != 0. Proof. by apply: contraTneq k0 => ->; rewrite mul0r ltxx. Qed.
(** Implicit Euler keeps steady states. *)
Lemma parab_steady_ old x q u r w : theta = 1 -> is_tr x -> bi_full dim p dirs laps tau B x q u r w ->
  bp_block dim p old dim = u ->
  exists2 X, set x old = Ok X & [/\ forall d : 'I_dim, bp_block dim p X d = q d, bp_block dim p X dim = u,
    forall d : 'I_dim, bp_block dim p X (dim + 1 + d) = r d & bp_block dim p X (dim + 1 + dim) = w].
Proof.
move=> t1 hx hs ho; have [X hX [_ l]] := parab_set_data_ dirs laps dim0 hD hg tau0 k0 old hx.
exists X => //; rewrite /bp_step ho in l.
have l2 : full u x q u r w.
  apply: bi_ext hs => //; rewrite rw_eff.
  have -> : (1 - theta) / theta = 0 by rewrite t1 subrr mul0r.
  by rewrite scale0r addr0 subrr mulmx0 scaler0 addr0.
have [e1 e2 e3 e4] := parab_unique dim0 hD tau0 k0 l l2.
by split.
Qed.
(** Otherwise a steady state with a source is left. *)
Lemma parab_unsteady old x q u r w i : theta != 1 -> is_tr x -> bi_full dim p dirs laps tau B x q u r w ->
  bp_block dim p old dim = u -> (forall i, (i < nf)%N -> bp_src_old P i = df_src D i) -> (i < nf)%N -> df_src D i != 0 ->
  exists2 X, set x old = Ok X & bp_block dim p X dim <> u.
Proof.
move=> t1 hx hs ho hso hin si; have [X hX [_ /(step_react _) l]] := parab_set_data_ dirs laps dim0 hD hg tau0 k0 old hx.
exists X => // eu; rewrite ho in l.
have hs' : bi_loc dim p tau B q u r w (lo x) (hi x) rq ru rr (df_ru dim p (w_problem B) tau mask2 + 0 *: (M *m u)).
  by apply: bi_ext hs => //; rewrite scale0r addr0.
have := problem_eq dim0 hD hs' l (esym eu).
rewrite scale0r addr0 scaleNr addrK rw_eff => /eqP; rewrite eq_sym addrC -subr_eq0 addrK => /eqP/colP/(_ (Ordinal hin)).
rewrite !mxE hso // => /eqP; rewrite !mulf_eq0 invr_eq0 (negbTE th0) (negbTE si) !orbF subr_eq0 eq_sym.
by rewrite (negbTE t1).
Qed.

(** ** Without data *)
Lemma no_dataE : bp_no_data dim p P -> [/\ forall d : 'I_dim, rq d = 0, ru = 0, forall d : 'I_dim, rr d = 0 & rw = 0].
Proof.
move=> [h1 h2].
have hd (f : 'I_nF) : df_dir_vec dim p (u_problem Q) f = 0 /\ df_dir_vec dim p (w_problem Q) f = 0.
  by split; apply/colP => i; rewrite !mxE /=; have [] := h2 i f (ltn_ord _) (ltn_ord _).
rewrite /df_rq /df_ru; split=> [d||d|].
- by rewrite big1 ?oppr0 // => f _; have [-> _] := hd f; rewrite scaler0.
- rewrite big1 ?scaler0 ?addr0 => [|f _]; last by have [] := hd f.
  by apply/colP => i; rewrite !mxE.
- by rewrite big1 ?oppr0 // => f _; have [_ ->] := hd f; rewrite scaler0.
- rewrite big1 ?scaler0 ?addr0 => [|f _]; last by have [] := hd f.
  by apply/colP => i; rewrite !mxE /=; have [-> ->] := h1 i (ltn_ord _); rewrite mulr0 addr0.
Qed.
Lemma step_no_data (uo : 'cV[F]_nf) x q u r w : bp_no_data dim p P -> full uo x q u r w ->
  bi_react dim p tau B (- kap^-1) q u r w (lo x) (hi x) (fun=> 0) 0 (fun=> 0) (kap^-1 *: (M *m uo)).
Proof.
move=> /no_dataE[e1 e2 e3 e4] /step_react l; apply: react_ext l => //; by rewrite e4 add0r.
Qed.
(** After set_data the stored function has changed: the functions that solve again show a further step. *)
Lemma parab_again old : bp_no_data dim p P -> bp_block dim p old dim != 0 -> exists X q u r w,
  [/\ set zt old = Ok X, full (bp_block dim p X dim) zt q u r w, u <> bp_block dim p X dim &
    bp_errors gesv dim p dirs laps tau theta dt P X zt =
    if 0 <= df_diffsq D (coeffs_of u) then Ok [:: df_diffsq D (coeffs_of u)] else Abort].
Proof.
move=> nd ho; have hz := zt_trace F dim (2 * nb).
have [X hX [_ l1]] := parab_set_data_ dirs laps dim0 hD hg tau0 k0 old hz.
have [q [u [r [w [l2 e2]]]]] := parab_errors_ dirs laps dim0 hD hg tau0 k0 X hz.
exists X, q, u, r, w; split=> // eu; move: ho; apply/negP; rewrite negbK; apply/eqP.
have [e1 e3 e4 e5] := no_dataE nd.
(* the second step is stationary, hence zero *)
have u0 : u = 0.
  have := step_no_data nd l2; rewrite -eu => l.
  have [|_ -> //] := @regular_neg F dim p tau B dim0 hD tau0 0 (lexx _) q u r w.
  apply: bi_ext l => [f|f|d||d|]; rewrite ?zt_lo ?zt_hi //.
  by rewrite scaleNr subrr scale0r addr0.
have /step_react l3 := l1.
have l0 : bi_loc dim p tau B (fun=> 0) 0 (fun=> 0) 0 (lo zt) (hi zt) rq ru rr (0 + 0 *: (M *m 0)).
  apply: (bi_ext (rq := fun=> 0) (rr := fun=> 0) (ru := 0) (rw := 0) (x := lo zt) (y := hi zt)) => //.
    by rewrite scale0r addr0.
  split; first by apply: zero_loc => f; rewrite zt_hi.
  by rewrite mulmx0 addr0; apply: zero_loc => f; rewrite zt_lo.
have := problem_eq dim0 hD l0 l3; rewrite -eu u0 => /(_ erefl).
rewrite mulmx0 !scaler0 !addr0 e5 add0r => /esym/eqP; rewrite scaler_eq0 invr_eq0 (gt_eqF k0) /= => /eqP h.
by apply: (mass_zero hD); rewrite h dotv0r.
Qed.
End Parab.
