(** make_initial of DiffusionParab. *)
From mathcomp Require Import all_ssreflect all_algebra zify ring.
From Verif Require Import M_Base L_Base M_Index L_Index M_DenseLA L_DenseLA S_DenseLA M_Lapack S_Lapack L_Lapack S_Hdg L_Hdg S_Tpp S_TppGeo S_LocalSolver.
From Verif Require Import M_DiffusionUniform M_Diffusion S_Diffusion M_DiffusionParab S_DiffusionParab.
From Verif Require Import L_LocalBase L_LocalLink L_HdgSrc L_DiffusionUniform L_DiffusionUniform2 L_Diffusion L_TppGeo.
From Verif Require Import L_Theta L_BlockLink L_DiffusionParab L_DiffusionParab2.
Set Implicit Arguments. Unset Strict Implicit. Unset Printing Implicit Defensive.
Import Order.TTheory GRing.Theory Num.Theory.
Local Open Scope ring_scope.

Lemma square_solve (F : realFieldType) gesv n (K : 'M[F]_n) (A rhs : seq F) : gesv_correct gesv ->
  (forall i j : 'I_n, nth 0 A (loc n i j) = K i j) -> (forall v : 'cV[F]_n, K *m v = 0 -> v = 0) ->
  size A = (n * n)%N -> size rhs = n ->
  exists X, [/\ (solve_const gesv n 1 rhs A).1 = Ok X, size X = n & K *m vec_of n X = vec_of n rhs].
Proof.
move=> hg hA hK sA sr.
have := @blink_solve F 1 n (fun _ _ => K) A _ gesv rhs hg.
rewrite !mul1n => -[].
- by move=> P Q i j; rewrite !ord1 mul0n !add0n hA.
- by move=> v hv Q; apply: hK; have := hv 0; rewrite big_ord1 ord1.
- by [].
- by [].
move=> X [h1 h2 h3]; exists X; split=> //.
have := h3 0; rewrite big_ord1 => h.
have e Y : bpart n Y (0 : 'I_1) = vec_of n Y by apply/colP => i; rewrite !mxE.
by rewrite -!e.
Qed.

Section Init.
Variable F : realFieldType.
Variables (gesv : nat -> nat -> seq F -> seq F -> sv_result F).
Variables (dim p : nat) (dirs : seq nat) (tau : F) (P : dp_data F).
Hypotheses (dim0 : (0 < dim)%N) (hP : parab_data dim p P) (hg : gesv_correct gesv).
Notation H := (dp_hdg dim p P).
Notation nf := ((p + 1) ^ dim)%N.
Notation nb := ((p + 1) ^ (dim - 1))%N.
Notation mask := (dp_mask dirs P).

Lemma mass_flux_ok : size (dp_mass_flux dim p P) = (nf * nf)%N /\
  forall i j : 'I_nf, nth 0 (dp_mass_flux dim p P) (loc nf i j) = hM H i j.
Proof.
rewrite /dp_mass_flux n_shape_fctE //.
pose h (i j : nat) (_ : F) := df_vol (dp_df P) i j.
have sz : size (zeros F nf nf) = (nf * nf)%N by rewrite size_nseq.
split; first by rewrite (@size_for2_assign F 0 nf (fun i j => loc nf j i) (fun i j => h j i)).
move=> i j; rewrite (@nth_for2_assign_in F 0 nf (fun i j => loc nf j i) (fun i j => h j i)) ?sz ?loc_lt //.
- by rewrite mxE.
- by move=> a c a' c' _ hc _ hc' /eqP; rewrite loc_inj // => /andP[/eqP -> /eqP ->].
Qed.

Lemma init_rhs_ok (d : nat) r : size r = nf ->
  size (dp_init_rhs dim p P d r) = nf /\ forall i : 'I_nf, nth 0 (dp_init_rhs dim p P d r) i =
    dp_init_der P i d - \sum_(f < 2 * dim) dp_init_bdr P i f * df_normal (dp_df P) f d.
Proof.
move=> sr; rewrite /dp_init_rhs n_shape_fctE //.
pose g i := dp_init_der P i d - \sum_(f < 2 * dim) dp_init_bdr P i f * df_normal (dp_df P) f d.
rewrite (for_upd_eq (g := g)) => [|i w hi sw].
  rewrite size_for_assign; split=> // i; rewrite nth_for_upd ?sr //.
have hw : (i < size w)%N by rewrite sw sr.
have -> n : for_ n (fun face r => add_at r i (- (dp_init_bdr P i face * df_normal (dp_df P) face d)))
     (upd w i (dp_init_der P i d)) =
   upd w i (dp_init_der P i d - \sum_(f < n) dp_init_bdr P i f * df_normal (dp_df P) f d) => //.
elim: n => [|n IH]; first by rewrite big_ord0 subr0.
rewrite for_S IH big_ord_recr /= opprD addrA.
have := @acc_same F w i (dp_init_der P i d - \sum_(f < n) dp_init_bdr P i f * df_normal (dp_df P) f d)
  [:: (i, - (dp_init_bdr P i n * df_normal (dp_df P) n d))] hw.
by rewrite /= contrib_cons eqxx contrib_nil addr0 => ->.
Qed.

Lemma init_q_ok : exists Q, [/\ dp_init_q gesv dim p P = Ok Q, size Q = (dim * nf)%N &
  init_flux P (qpart nf Q : 'I_dim -> 'cV[F]_nf)].
Proof.
have [sA hA] := mass_flux_ok.
have hK (v : 'cV[F]_nf) : hM H *m v = 0 -> v = 0.
  by move=> hv; apply: (mass_eq0 (pdata_ok dim0 hP)); rewrite hv dotv0r.
pose I (d : nat) (st : seq F * seq F) := [/\ size st.1 = (d * nf)%N, size st.2 = nf &
  forall e : 'I_dim, (e < d)%N -> hM H *m qpart nf st.1 e =
    \col_i (dp_init_der P i e - \sum_(f < 2 * dim) dp_init_bdr P i f * hnu H f e)].
rewrite /dp_init_q; set X0 := foro _ _ _.
have [[Q r] [-> [h1 h2 h3]]] : exists st, X0 = Ok st /\ I dim st; last first.
  by exists Q; split=> // d; exact: h3.
apply: foro_inv; first by split=> //=; rewrite size_nseq n_shape_fctE // muln1.
move=> d [q r] hd [/= s1 s2 hq].
  have [sr hr] := init_rhs_ok d s2.
  have [X [hX sX eX]] := square_solve hg hA hK sA sr.
  exists (q ++ X, dp_init_rhs dim p P d r); rewrite n_shape_fctE //; move: hX; rewrite /solve_const /= => ->; split=> //.
  split=> //=; first by rewrite size_cat s1 sX mulSn addnC.
  move=> e; rewrite ltnS leq_eqVlt => /orP[/eqP he|he].
    have -> : qpart nf (q ++ X) e = vec_of nf X.
      by apply/colP => i; rewrite !mxE nth_cat s1 he ltnNge leq_addr /= addKn.
    by rewrite eX; apply/colP => i; rewrite [LHS]mxE hr [RHS]mxE he; congr (_ - _); apply: eq_bigr => f _; rewrite he.
  rewrite -hq //; congr (_ *m _); apply/colP => i; rewrite !mxE nth_cat s1.
  by rewrite (_ : (e * nf + i < d * nf)%N = true) //; apply/idP; have := ltn_ord i; nia.
Qed.

Lemma parab_initial S x : is_trace (2 * dim) nb x -> state_ok dim p S -> exists x' S' q,
  [/\ dp_make_initial gesv dim p dirs tau P S x = Ok (x', S'), is_trace (2 * dim) nb x',
      forall f : 'I_(2 * dim), tr nb x' f = if mask f then 0 else \col_j df_initial (dp_df P) j f,
      init_flux P q & stored dim p dirs tau P x' q (\col_i dp_init_phi P i) S'].
Proof.
move=> hx [s1 s2 s3]; have [Q [hQ sQ qQ]] := init_q_ok.
have := @parab_write F dim p dirs P (fun i j => df_initial (dp_df P) j i)
  (fun f => \col_j df_initial (dp_df P) j f) x hx.
move=> [f j|hx' ex']; first by rewrite mxE.
rewrite /dp_make_initial hQ /=.
set x' := df_write _ _ _ _ in hx' ex' *; set u' := for_ _ _ (dp_u_old S).
have su : size u' = nf by rewrite /u' size_for_assign.
have eu : vec_of nf u' = \col_i dp_init_phi P i.
  by apply/colP => i; rewrite !mxE /u' n_shape_fctE // (nth_for_upd 0 (dp_init_phi P)) ?s1.
have := @dp_fill_flux_ok F dim p tau P (Q ++ u') u' x' (dp_flux_old S).
have := @dp_fill_bdr_ok F dim p dirs tau P (Q ++ u') x' (dp_bdr_old S).
rewrite (n_shape_fctE p dim0) n_shape_bdrE => /(_ s3 hx') [hb1 hb2] /(_ s2) [hf1 hf2].
have eq (d : 'I_dim) : qpart nf (Q ++ u') d = qpart nf Q d :> 'cV[F]_nf.
  apply/colP => i; rewrite !mxE nth_cat sQ (_ : (d * nf + i < dim * nf)%N = true) //.
  by apply/idP; exact: block_lt (ltn_ord d) (ltn_ord i).
have equ : upart nf dim (Q ++ u') = \col_i dp_init_phi P i.
  by rewrite -eu; apply/colP => i; rewrite !mxE nth_cat sQ ltnNge leq_addr /= addKn.
exists x', (DpState u' (dp_fill_flux dim p tau P (Q ++ u') u' x' (dp_flux_old S))
  (dp_fill_bdr dim p dirs tau P (Q ++ u') x' (dp_bdr_old S))), (qpart nf (Q ++ u')); split=> //.
  by move=> d; rewrite eq; exact: qQ.
split=> //=.
  by rewrite hf2 eu.
move=> f; apply/colP => j; rewrite mxE hb2 equ.
by have -> : face_dirichlet dirs (dp_df P) f = mask f by []; case: (mask f) => //; rewrite mxE.
Qed.

(** The integrals of a function of the discrete space with traces x and the Dirichlet values: the flux is the
    one of the first equation. *)
Lemma initial_grad x q u : init_flux P q ->
  (forall f : 'I_(2 * dim), mask f -> tr nb x f = 0) ->
  (forall (i : 'I_nf) (d : 'I_dim), dp_init_der P i d = (hD H d *m u) i 0) ->
  (forall (i : 'I_nf) (f : 'I_(2 * dim)), dp_init_bdr P i f =
     if mask f then df_dirval (dp_df P) i f else (hE H f *m tr nb x f) i 0) ->
  grad_eq H q u (tr nb x) (df_rq p (dp_df P) mask).
Proof.
move=> hq h0 h1 h2 d; rewrite hq; apply/colP => i.
rewrite [LHS]mxE [X in X + _]mxE h1 [X in _ + X = _]mxE addrAC subrr add0r [RHS]mxE.
rewrite [X in _ = X + _]mxE [X in _ = _ + X]mxE !summxE -opprD; congr (- _).
rewrite [X in _ = _ + X]big_mkcond -big_split /=; apply: eq_bigr => f _; rewrite h2.
case: ifP => hm; last by rewrite addr0 [RHS]mxE mulrC.
by rewrite h0 // mulmx0 scaler0 [X in X + _]mxE add0r !mxE mulrC.
Qed.
End Init.
