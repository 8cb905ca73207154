(** Proofs about M_Bilaplacian: the solves and the fluxes. *)
From mathcomp Require Import all_ssreflect all_algebra zify ring.
From Verif Require Import M_Base L_Base M_Index L_Index M_DenseLA S_DenseLA L_DenseLA M_Lapack S_Lapack L_Lapack.
From Verif Require Import S_Hdg L_Hdg S_Tpp S_LocalSolver M_DiffusionUniform M_Diffusion S_Diffusion.
From Verif Require Import L_LocalBase L_LocalBlock L_LocalLink L_HdgSrc L_DiffusionUniform L_Diffusion L_BlockLink.
From Verif Require Import M_Bilaplacian S_Bilaplacian L_BiLink L_Bilaplacian.
Set Implicit Arguments. Unset Strict Implicit. Unset Printing Implicit Defensive.
Import Order.TTheory GRing.Theory Num.Theory.
Local Open Scope ring_scope.

Section Bilaplacian.
Variable F : realFieldType.
Variable gesv : nat -> nat -> seq F -> seq F -> sv_result F.
Variables (dim poly_deg : nat) (dirs laps : seq nat) (tau : F) (P : bl_data F).
Hypothesis dim0 : (0 < dim)%N.
Notation D := (bl_df P).
Notation nf := (n_shape_fct dim poly_deg).
Notation nb := (n_shape_bdr dim poly_deg).
Notation L := (dim + 1)%N.
Notation nl := ((L + L) * nf)%N.
Notation A := (bl_assemble_loc_matrix dim poly_deg tau D).
Notation second X := (drop (L * nf) X).
Notation H := (hdg_of nf nb dim (2 * dim) (df_mass D) (df_grad D) (df_bp D) (df_bb D)
  (df_normal D) (df_area D)).
Notation W := (\matrix_(i, j) df_vol D i j : 'M[F]_nf).
Notation M := (\matrix_(i, j) df_mass D i j : 'M[F]_nf).
Notation mask := (face_dirichlet dirs D).
Notation mask2 := (face_dirichlet laps D).
Notation rq := (df_rq_ poly_deg dirs (u_problem P)).
Notation ru := (df_ru_ dim poly_deg dirs tau (u_problem P)).
Notation rr := (df_rq_ poly_deg laps (w_problem P)).
Notation rw := (df_ru_ dim poly_deg laps tau (w_problem P)).

(** The two halves of an array in terms of two smaller arrays. *)
Definition halves (r a b : seq F) : Prop :=
  forall k i, (k <= dim)%N -> (i < nf)%N ->
    nth 0 r (k * nf + i) = nth 0 a (k * nf + i) /\ nth 0 (second r) (k * nf + i) = nth 0 b (k * nf + i).
Lemma halves_parts r a b : halves r a b ->
  [/\ forall d : 'I_dim, qpart nf r d = qpart nf a d :> 'cV[F]_nf, upart nf dim r = upart nf dim a :> 'cV[F]_nf,
      forall d : 'I_dim, qpart nf (second r) d = qpart nf b d :> 'cV[F]_nf
    & upart nf dim (second r) = upart nf dim b :> 'cV[F]_nf].
Proof.
move=> h; have [h1 h2] := part_ext (fun k i hk hi => (h k i hk hi).1).
by have [h3 h4] := part_ext (fun k i hk hi => (h k i hk hi).2).
Qed.
Lemma nth_add (r s : seq F) k : size r = nl -> (k < nl)%N ->
  nth 0 (mat_add nl 1 1 r s) k = nth 0 r k + nth 0 s k.
Proof.
move=> hr hk; rewrite /mat_add eqxx; have hm : is_mat nl 1 r by rewrite /is_mat muln1.
by have := mget_add_eq_same s hm hk (ltnSn 0); rewrite /mget /loc mul0n add0n.
Qed.
Lemma size_add (r s : seq F) : size (mat_add nl 1 1 r s) = size r.
Proof. by rewrite /mat_add eqxx size_add_eq. Qed.
Lemma pos_lo k i : (k <= dim)%N -> (i < nf)%N -> (k * nf + i < nl)%N.
Proof. by move=> hk hi; apply: block_lt => //; lia. Qed.
Lemma pos_hi k i : (k <= dim)%N -> (i < nf)%N -> (L * nf + (k * nf + i) < nl)%N.
Proof. by move=> hk hi; rewrite addnA at_second; apply: block_lt => //; lia. Qed.
Lemma qpart_sum (a b : seq F) (d : 'I_dim) :
  qpart nf (mkseq (fun k => nth 0 a k + nth 0 b k) nl) d = qpart nf a d + qpart nf b d :> 'cV[F]_nf.
Proof. by apply/colP => i; rewrite !mxE nth_mkseq // pos_lo // ltnW. Qed.
Lemma upart_sum (a b : seq F) :
  upart nf dim (mkseq (fun k => nth 0 a k + nth 0 b k) nl) = upart nf dim a + upart nf dim b :> 'cV[F]_nf.
Proof. by apply/colP => i; rewrite !mxE nth_mkseq // pos_lo. Qed.
Lemma halves_add r s a b a' b' : size r = nl -> halves r a b -> halves s a' b' ->
  halves (mat_add nl 1 1 r s) (mkseq (fun k => nth 0 a k + nth 0 a' k) nl) (mkseq (fun k => nth 0 b k + nth 0 b' k) nl).
Proof.
move=> sr h1 h2 k i hk hi; have [e1 e2] := h1 k i hk hi; have [e3 e4] := h2 k i hk hi.
rewrite nth_add ?pos_lo // !nth_mkseq ?pos_lo // e1 e3; split => //.
by move: e2 e4; rewrite !nth_drop => e2 e4; rewrite nth_add ?pos_hi // e2 e4.
Qed.
Lemma rhs_halves lambda : halves (bl_rhs_lambda_loop dim poly_deg tau D lambda)
  (df_rhs_lambda_loop dim poly_deg tau (w_problem P) (lower nb lambda))
  (df_rhs_lambda_loop dim poly_deg tau (w_problem P) (upper nb lambda)).
Proof. by move=> k i hk hi; split; [exact: (bl_rhs_lo tau P dim0) | exact: (bl_rhs_hi tau P dim0)]. Qed.
Lemma global_halves : halves (bl_rhs_global dim poly_deg dirs laps tau P)
  (df_rhs_global dim poly_deg dirs tau (u_problem P)) (df_rhs_global dim poly_deg laps tau (w_problem P)).
Proof. by move=> k i hk hi; split; [exact: (bl_global_lo dirs laps tau P dim0) | exact: (bl_global_hi dirs laps tau P dim0)]. Qed.
Lemma coeffs_halves X : halves (bl_rhs_coeffs dim poly_deg D X) [::] (df_rhs_coeffs dim poly_deg (w_problem P) X).
Proof.
move=> k i hk hi; split; first by rewrite nth_nil (bl_coeffs_lo P dim0).
exact: (bl_coeffs_hi P dim0).
Qed.

Hypotheses (hg : gesv_correct gesv) (hok : hdg_ok H) (tau0 : 0 < tau).
Lemma bl_divide_ok c A' rhs : c != 0 -> size A' = (nl * nl)%N ->
  (forall k, (k < nl * nl)%N -> nth 0 A' k = c * nth 0 A k) -> size rhs = nl ->
  exists X, [/\ bl_divide gesv dim poly_deg A' rhs = Ok X, size X = nl,
    (forall d, c *: op_q H (qpart nf X) (upart nf dim X) d = qpart nf rhs d) /\
    c *: (op_u H tau (qpart nf X) (upart nf dim X) - W *m upart nf dim (second X)) = upart nf dim rhs
  & (forall d, c *: op_q H (qpart nf (second X)) (upart nf dim (second X)) d = qpart nf (second rhs) d) /\
    c *: op_u H tau (qpart nf (second X)) (upart nf dim (second X)) = upart nf dim (second rhs)].
Proof.
move=> c0 sA hA sr.
have hA' (X Y : 'I_(L + L)) (i j : 'I_nf) :
    nth 0 A' (loc nl (X * nf + i) (Y * nf + j)) = c * biK H tau W X Y i j.
  rewrite -(bl_block tau P dim0) hA //; rewrite /loc; apply: block_lt; exact: block_lt.
have [X [h1 h2 h3 h4]] := bi_solve hA' hok tau0 c0 hg sA sr.
by exists X; split => //; rewrite /bl_divide bl_nl // h1.
Qed.
Lemma bl_divide1 rhs a b (sq sr : 'I_dim -> 'cV[F]_nf) su sw (x y : 'I_(2 * dim) -> 'cV[F]_nb) : size rhs = nl -> halves rhs a b ->
  (forall d, qpart nf a d = - (\sum_f hnu H f d *: (hE H f *m x f)) + sq d) ->
  upart nf dim a = tau *: (\sum_f (hE H f *m x f)) + su ->
  (forall d, qpart nf b d = - (\sum_f hnu H f d *: (hE H f *m y f)) + sr d) ->
  upart nf dim b = tau *: (\sum_f (hE H f *m y f)) + sw ->
  exists X, [/\ bl_divide gesv dim poly_deg A rhs = Ok X, size X = nl,
    loc_src H tau (qpart nf (second X)) (upart nf dim (second X)) y sr sw
  & loc_src H tau (qpart nf X) (upart nf dim X) x sq (W *m upart nf dim (second X) + su)].
Proof.
move=> srh /halves_parts[e1 e2 e3 e4] h1 h2 h3 h4.
have [k hk|//|X [hX sX [g1 g2] [g3 g4]]] := @bl_divide_ok 1 A rhs (oner_neq0 F) (bl_size_A poly_deg tau P dim0); first by rewrite mul1r.
exists X; split => //.
  by split=> [d|]; [rewrite -/(op_q _ _ _ _) -h3 -e3 -g3 scale1r | rewrite -/(op_u _ _ _ _) -h4 -e4 -g4 scale1r].
split=> [d|]; first by rewrite -/(op_q _ _ _ _) -h1 -e1 -g1 scale1r.
rewrite -/(op_u _ _ _ _) addrCA -h2 -e2 -g2 scale1r addrC subrK //.
Qed.

Lemma bl_lambda_okP (x : seq (seq F)) : bl_lambda_ok dim poly_deg x <-> is_trace (2 * dim) (2 * nb) x.
Proof. by split=> [/andP[/eqP h1 h2]|[h1 h2]]; [split | rewrite /bl_lambda_ok h1 eqxx]. Qed.
Section Solve.
Variable lambda : seq (seq F).
Hypothesis hl : is_trace (2 * dim) (2 * nb) lambda.
Notation x := (tr nb (lower nb lambda)).
Notation y := (tr nb (upper nb lambda)).
Lemma bl_solve0 : exists X, [/\ bl_solve_local_problem gesv dim poly_deg dirs laps tau P 0 lambda = Ok X, size X = nl,
    loc_src H tau (qpart nf (second X)) (upart nf dim (second X)) y (fun=> 0) 0
  & loc_src H tau (qpart nf X) (upart nf dim X) x (fun=> 0) (W *m upart nf dim (second X) + 0)].
Proof.
rewrite /bl_solve_local_problem /bl_rhs_lambda (iffRL (bl_lambda_okP _) hl) /=.
apply: bl_divide1 (bl_size_rhs poly_deg tau P dim0 lambda) (rhs_halves lambda) _ _ _ _ => [d||d|]; rewrite ?addr0;
 by [exact: df_rhs_q | exact: df_rhs_u].
Qed.
Lemma bl_solve1 : exists X, [/\ bl_solve_local_problem gesv dim poly_deg dirs laps tau P 1 lambda = Ok X, size X = nl,
    loc_src H tau (qpart nf (second X)) (upart nf dim (second X)) y rr rw
  & loc_src H tau (qpart nf X) (upart nf dim X) x rq (W *m upart nf dim (second X) + ru)].
Proof.
rewrite /bl_solve_local_problem /bl_rhs_lambda (iffRL (bl_lambda_okP _) hl) /= bl_nl //.
have s1 := bl_size_rhs poly_deg tau P dim0 lambda.
apply: (bl_divide1 _ (halves_add s1 (rhs_halves lambda) global_halves)) => [|d||d|]; first by rewrite size_add.
- by rewrite qpart_sum df_rhs_q df_global_q.
- by rewrite upart_sum df_rhs_u df_global_u.
- by rewrite qpart_sum df_rhs_q df_global_q.
by rewrite upart_sum df_rhs_u df_global_u.
Qed.
(** The correction: everything is multiplied by delta_time except the coefficients. *)
Lemma bl_solve_cor X0 dt : dt != 0 ->
  exists X, [/\ bl_solve_loc_prob_cor gesv dim poly_deg dirs laps tau P lambda X0 dt = Ok X, size X = nl,
    loc_src H tau (qpart nf (second X)) (upart nf dim (second X)) y rr (rw + dt^-1 *: (M *m upart nf dim X0))
  & loc_src H tau (qpart nf X) (upart nf dim X) x rq (W *m upart nf dim (second X) + ru)].
Proof.
move=> t0; rewrite /bl_solve_loc_prob_cor /bl_rhs_lambda (iffRL (bl_lambda_okP _) hl) /= bl_nl //.
have s1 := bl_size_rhs poly_deg tau P dim0 lambda; have s2 := bl_size_global poly_deg dirs laps tau P dim0.
have s3 := bl_size_coeffs poly_deg P dim0 X0; have sA := bl_size_A poly_deg tau P dim0.
set r1 := bl_rhs_lambda_loop _ _ _ _ _ in s1 *; set r2 := bl_rhs_global _ _ _ _ _ _ in s2 *.
set r3 := bl_rhs_coeffs _ _ _ _ in s3 *.
have sm n (r : seq F) : size (muls n r dt) = size r.
  by apply: (@for_inv _ (fun _ o => size o = size r)) => // i o _ ho; rewrite size_upd.
have nm n (r : seq F) k : size r = n -> (k < n)%N -> nth 0 (muls n r dt) k = dt * nth 0 r k.
  by move=> hs hk; rewrite nth_muls ?hs // hk mulrC.
pose R := mat_add nl 1 1 (mat_add nl 1 1 (muls nl r1 dt) (muls nl r2 dt)) r3.
have sR : size R = nl by rewrite !size_add sm.
have nR k : (k < nl)%N -> nth 0 R k = dt * (nth 0 r1 k + nth 0 r2 k) + nth 0 r3 k.
  by move=> hk; rewrite !nth_add ?size_add ?sm // !nm // mulrDr.
have [||//|X [hX sX [g1 g2] [g3 g4]]] := @bl_divide_ok dt (muls (nl * nl) A dt) R t0; first by rewrite sm.
  by move=> k hk; rewrite nm.
exists X; split => //.
- have [_ _ e1 e2] := halves_parts (rhs_halves lambda); have [_ _ e3 e4] := halves_parts global_halves.
  have [_ _ e5 e6] := halves_parts (coeffs_halves X0).
  split=> [d|]; rewrite -/(op_q _ _ _ _) -/(op_u _ _ _ _); apply: (scalerI t0).
    rewrite g3; transitivity (dt *: (qpart nf (second r1) d + qpart nf (second r2) d) + qpart nf (second r3) d).
      by apply/colP => i; rewrite !mxE !nth_drop nR // pos_hi // ltnW.
    by rewrite e1 e3 e5 df_coeffs_q addr0 df_rhs_q df_global_q.
  rewrite g4; transitivity (dt *: (upart nf dim (second r1) + upart nf dim (second r2)) + upart nf dim (second r3)).
    by apply/colP => i; rewrite !mxE !nth_drop nR // pos_hi.
  rewrite e2 e4 e6 df_coeffs_u df_rhs_u df_global_u !scalerDr !scalerA mulfV // scale1r.
  by rewrite !addrA.
have [e1 e2 _ _] := halves_parts (rhs_halves lambda); have [e3 e4 _ _] := halves_parts global_halves.
have [e5 e6 _ _] := halves_parts (coeffs_halves X0).
have z5 d : qpart nf [::] d = 0 :> 'cV[F]_nf by apply/colP => i; rewrite !mxE nth_nil.
have z6 : upart nf dim [::] = 0 :> 'cV[F]_nf by apply/colP => i; rewrite !mxE nth_nil.
split=> [d|]; rewrite -/(op_q _ _ _ _) -/(op_u _ _ _ _); apply: (scalerI t0).
  rewrite g1; transitivity (dt *: (qpart nf r1 d + qpart nf r2 d) + qpart nf r3 d).
    by apply/colP => i; rewrite !mxE nR // pos_lo // ltnW.
  by rewrite e1 e3 e5 z5 addr0 df_rhs_q df_global_q.
have : dt *: (op_u H tau (qpart nf X) (upart nf dim X) - W *m upart nf dim (second X)) =
   dt *: (tau *: (\sum_f hE H f *m x f) + ru).
  rewrite g2; transitivity (dt *: (upart nf dim r1 + upart nf dim r2) + upart nf dim r3).
    by apply/colP => i; rewrite !mxE nR // pos_lo.
  by rewrite e2 e4 e6 z6 addr0 df_rhs_u df_global_u.
move=> /(scalerI t0) e; rewrite addrCA -e; congr (_ *: _); by rewrite addrC subrK.
Qed.
End Solve.
Lemma bl_solve_mass X0 : exists X, [/\ bl_solve_mass_problem gesv dim poly_deg tau P X0 = Ok X, size X = nl,
    loc_src H tau (qpart nf (second X)) (upart nf dim (second X)) (fun=> 0) (fun=> 0) (M *m upart nf dim X0)
  & loc_src H tau (qpart nf X) (upart nf dim X) (fun=> 0) (fun=> 0) (W *m upart nf dim (second X) + 0)].
Proof.
have z5 d : qpart nf [::] d = 0 :> 'cV[F]_nf by apply/colP => i; rewrite !mxE nth_nil.
have z6 : upart nf dim [::] = 0 :> 'cV[F]_nf by apply/colP => i; rewrite !mxE nth_nil.
have s0 d : \sum_f hnu H f d *: (hE H f *m (0 : 'cV[F]_nb)) = 0 by rewrite big1 // => f _; rewrite mulmx0 scaler0.
have s1 : \sum_f (hE H f *m (0 : 'cV[F]_nb)) = 0 by rewrite big1 // => f _; rewrite mulmx0.
apply: (bl_divide1 (bl_size_coeffs poly_deg P dim0 X0) (coeffs_halves X0)) => [d||d|].
- by rewrite z5 s0 oppr0 addr0.
- by rewrite z6 s1 scaler0 addr0.
- by rewrite df_coeffs_q s0 oppr0 addr0.
by rewrite df_coeffs_u s1 scaler0 add0r.
Qed.

(** ** Fluxes *)
Section Flux.
Variable (lambda_out : seq (seq F)).
Hypothesis ho : is_trace (2 * dim) (2 * nb) lambda_out.
Variable X : seq F.
Notation flux G := (bl_write dirs laps D (fun i j => lambda_at (bl_dual dim poly_deg D X) i j +
     tau * lambda_at (bl_primal dim poly_deg D X) i j - G i j) lambda_out).
Lemma bl_flux_write (G : nat -> nat -> F) (x y : 'I_(2 * dim) -> 'cV[F]_nb) :
  (forall (f : 'I_(2 * dim)) (j : 'I_nb), G f j = tau * y f j 0 * df_area D f) ->
  (forall (f : 'I_(2 * dim)) (j : 'I_nb), G f (nb + j)%N = tau * x f j 0 * df_area D f) ->
  [/\ is_trace (2 * dim) (2 * nb) (flux G),
     forall f : 'I_(2 * dim), tr nb (lower nb (flux G)) f =
       if mask f then 0 else num_flux H tau (qpart nf (second X)) (upart nf dim (second X)) y f :> 'cV[F]_nb
   & forall f : 'I_(2 * dim), tr nb (upper nb (flux G)) f =
       if mask2 f then 0 else num_flux H tau (qpart nf X) (upart nf dim X) x f :> 'cV[F]_nb].
Proof.
move=> h1 h2; apply: bl_write_tr => // f j.
  rewrite bl_dual_lo // bl_primal_lo // /num_flux h1 !mxE; congr (_ + _ - _).
  by rewrite -!mulrA; congr (_ * _); exact: mulrC.
rewrite bl_dual_hi // bl_primal_hi // /num_flux h2 !mxE; congr (_ + _ - _).
by rewrite -!mulrA; congr (_ * _); exact: mulrC.
Qed.
End Flux.
End Bilaplacian.
