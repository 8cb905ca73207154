(** Proofs for P_TimeDrivers: the driver of BilaplacianParab. *)
From mathcomp Require Import all_ssreflect all_algebra zify.
From Verif Require Import M_Base L_Base M_Lapack S_Lapack M_Global S_Global L_Global L_Global2 L_Global3 L_Global4.
From Verif Require Import S_Hdg L_Hdg S_Tpp M_DiffusionUniform M_Diffusion S_LocalSolver S_Diffusion S_TppGeo.
From Verif Require Import L_HdgSrc L_LocalBase L_LocalLink L_GlobalUniform S_GlobalParab L_GlobalParab L_GlobalEigs.
From Verif Require Import M_Bilaplacian S_Bilaplacian L_GlobalBilaplacian M_BilapParab S_BilapParab L_BilapParab2 L_BilapParab3 L_BilapParabEx L_GlobalBilapParab.
From Verif Require Import M_Drivers M_TimeDrivers S_TimeDrivers L_TimeDrivers.
Set Implicit Arguments. Unset Strict Implicit. Unset Printing Implicit Defensive.
Import Order.TTheory GRing.Theory Num.Theory.
Local Open Scope ring_scope.

Lemma same_bi_flux (F : realFieldType) gesv dim p dirs laps (tau theta dt : F) A B old :
  same_bilap (bl_df (bp_bl A)) (bl_df (bp_bl B)) ->
  bp_trace_to_flux gesv dim p dirs laps tau theta dt A old = bp_trace_to_flux gesv dim p dirs laps tau theta dt B old.
Proof.
case: A => [[[a1 a2 a3 a4 a5 a6 a7 a8 a9 a10 a11 a12 a13] a14 a15] a16 a17].
case: B => [[[b1 b2 b3 b4 b5 b6 b7 b8 b9 b10 b11 b12 b13] b14 b15] b16 b17].
by case=> -[/= -> -> -> -> ->] -> -> ->.
Qed.

Section Driver.
Variables (F : realFieldType) (gesv : nat -> nat -> seq F -> seq F -> sv_result F).
Variables (dim p : nat) (dirs laps : seq nat) (tau theta dt : F).
Variables (nodes : seq (seq nat)) (n_nodes : nat) (nt : nat -> nat) (junk : seq (seq F)).
Variables (P : F -> nat -> bp_data F).
Notation df t i := (bl_df (bp_bl (P t i))).
Hypotheses (dim0 : (0 < dim)%N) (hD : forall t i, diffusion_data dim p (df t i)) (hg : gesv_correct gesv).
Hypotheses (tau0 : 0 < tau) (k0 : 0 < theta * dt).
Hypotheses (hv : valid_graph dim n_nodes (indexed nodes)) (hj : size junk = (2 * dim)%N).
Hypothesis (ht : forall t, types_agree (fun i => df t i) nt (indexed nodes)).
Hypothesis (hs : forall t i, same_bilap (df t i) (df 0 i)).
Notation nb := ((p + 1) ^ (dim - 1))%N.
Notation n2 := (2 * nb)%N.
Notation N := (n_nodes * n2)%N.
Notation m := (2 * dim)%N.
Notation off := (@bl_off F dim p dirs laps n_nodes nt).
Notation setf t := (fun i => bp_set_data gesv dim p dirs laps tau theta dt (P t i)).
Notation flux := (fun t d => elliptic_flux n2 N [::] junk (indexed nodes)
  (fun i => bp_trace_to_flux gesv dim p dirs laps tau theta dt (P t i) (nth [::] d i))).
Notation residual := (fun t d => elliptic_flux n2 N [::] junk (indexed nodes)
  (fun i => bp_residual_flux gesv dim p dirs laps tau theta dt (P t i) (nth [::] d i))).
Notation set := (fun t d x => set_data n2 junk (indexed nodes) (setf t) x d).
Variable solve : (seq F -> outcome (seq F)) -> seq F -> outcome (seq F).
Hypothesis hk : krylov solve.
Implicit Types d : seq (seq F).
Notation u_of X := (bp_block dim p X dim).
Definition bi_energy d : F := \sum_(i < size nodes) sqnorm (df_mass_mx dim p (df 0 i)) (u_of (nth [::] d i)).
(** One step: the system of C114 at the time t, and what set_data stores. *)
Definition bi_step t d x d' : Prop := exists r0,
  [/\ residual t d (nseq N 0) = Ok r0, size x = N, off x, flux t d x = Ok [seq - a | a <- r0] &
    size d' = size nodes /\ forall i, (i < size nodes)%N -> setf t i (node_values dim n2 x (nth [::] nodes i)) (nth [::] d i) = Ok (nth [::] d' i)].

Lemma bi_flux_time t d x : flux t d x = flux 0 d x.
Proof.
rewrite /elliptic_flux /mat_vec; congr obind; congr omap; apply: foldo_ext => e _ [[ax old] new].
case: (gather _ _ _ _ _) => //= on; by rewrite (same_bi_flux _ _ _ _ _ _ _ _ _ (hs t e.2)).
Qed.
Lemma bi_solved t d x r : residual t d (nseq N 0) = Ok r -> flux 0 d x = Ok [seq - a | a <- r] -> size x = size r ->
  (forall i, nth 0 r i = 0 -> (forall v w, size v = size r -> flux 0 d v = Ok w -> nth 0 w i = 0) -> nth 0 x i = 0) ->
  [/\ size x = N, off x & flux t d x = Ok [seq - a | a <- r]].
Proof.
move=> hr hf sx h0; have ft : flux t d x = Ok [seq - a | a <- r] by rewrite -hf; exact: bi_flux_time.
have [r1 [a1 a2 a3]] := par_residual dirs laps (fun i => nth [::] d i) dim0 (hD t) hg tau0 k0 hv hj (ht t) (size_nseq N 0).
have er : r1 = r by move: a1; rewrite hr => -[].
rewrite {r1 a1}er in a2 a3; rewrite a2 in sx h0; split=> //.
have fz v w : size v = N -> flux 0 d v = Ok w -> off w.
  move=> sv; have [z [h1 _ h2]] := par_range dirs laps (fun i => nth [::] d i) dim0 (hD 0) hg tau0 k0 hv hj (ht 0) sv.
  by rewrite h1 => -[<-].
move=> v j hv1 hj1; have [c1 c2] := a3 v j hv1 hj1.
by split=> hn; apply: h0; rewrite ?c1 ?c2 // => v' w sv hw; have [e1 e2] := fz _ _ sv hw v j hv1 hj1; rewrite ?e1 ?e2.
Qed.
Lemma bi_set t d x d' : size d = size nodes -> size x = N -> set t d x = Ok d' ->
  size d' = size nodes /\ forall i, (i < size nodes)%N -> setf t i (node_values dim n2 x (nth [::] nodes i)) (nth [::] d i) = Ok (nth [::] d' i).
Proof.
move=> sd sx.
pose gs (e : nat) (A : 'M[F]_(m, n2)) S := if setf t e (rows_of A) S is Ok S' then S' else S.
have gsE e dofs S : @shaped F dim n2 dofs -> setf t e dofs S = Ok (gs e (dmx dim n2 dofs) S).
  move=> /shaped_trace hx; rewrite /gs (rows_of_dmx hx).
  by have [X -> _] := parab_set_data_ dirs laps dim0 (hD t e) hg tau0 k0 S hx.
have [|d2 [h1 h2 h3]] := @set_dataE F nat dim n2 _ [::] n_nodes (indexed nodes) x junk (setf t) gs d sx hv hj gsE.
  by rewrite size_indexed sd.
rewrite h1 => -[<-]; split; first by rewrite h2.
move=> i hi; rewrite (h3 i ([::], 0%N)) size_indexed hi indexed_nth //= values_rows.
by rewrite gsE ?rows_ofK //; apply/shaped_trace; exact: rows_trace.
Qed.
(** The loop makes steps of the scheme. *)
Lemma bi_driver_run n x0 d0 x d : size d0 = size nodes ->
  loop_after N dt flux residual set solve n (x0, d0) = Ok (x, d) ->
  exists xs ds, [/\ xs 0%N = x0, ds 0%N = d0, xs n = x, ds n = d &
    forall k, (k < n)%N -> bi_step (k.+1%:R * dt) (ds k) (xs k.+1) (ds k.+1)].
Proof.
move=> s0 hl; have [xs [ds [[h1 h2 h3 h4 h5] hss]]] := afterP hk hl; exists xs, ds; split=> //.
have main k : (k <= n)%N -> size (ds k) = size nodes /\ forall k', (k' < k)%N -> bi_step (k'.+1%:R * dt) (ds k') (xs k'.+1) (ds k'.+1).
  elim: k => [_|k IH hk1]; first by rewrite h3.
  have [ok IH'] := IH (ltnW hk1).
  have [r [r1 r2 r3 r4]] := sstepP hk (hss k hk1); have [r' [_ _ r5]] := h1 k hk1.
  have [s1 s2 s3] := bi_solved r1 r2 r3 r4; have [q1 q2] := bi_set ok s1 r5.
  split=> // k'; rewrite ltnS leq_eqVlt => /orP[/eqP->|]; last exact: IH'.
  by exists r.
by have [_] := main n (leqnn n).
Qed.
Lemma bi_step_stable t d x d' : (forall i, bp_no_data dim p (P t i)) -> bi_step t d x d' -> bi_energy d' <= bi_energy d.
Proof.
move=> nd [r0 [r1 sx ox fx [sd hd]]].
have [X [h1 h2]] := par_stable_ dim0 (hD t) hg tau0 k0 hv hj (ht t) nd r1 sx ox fx.
have em i : df_mass_mx dim p (df t i) = df_mass_mx dim p (df 0 i).
  by have [[_ e _ _ _] _ _ _] := hs t i; rewrite /df_mass_mx e.
move: h2; rewrite !(big_nth ([::], 0%N)) size_indexed !big_mkord => h2.
rewrite /bi_energy; apply: le_trans (le_trans h2 _).
- by apply: ler_sum => i _; rewrite indexed_nth //= em; have := h1 (nth [::] nodes i, i : nat); rewrite /= hd // => -[->].
- by apply: ler_sum => i _; rewrite indexed_nth //= em.
Qed.
Lemma bi_driver_stable n x0 d0 x d : (forall t i, bp_no_data dim p (P t i)) -> size d0 = size nodes ->
  loop_after N dt flux residual set solve n (x0, d0) = Ok (x, d) -> bi_energy d <= bi_energy d0.
Proof.
move=> nd s0 hl; have [xs [ds [h1 h2 h3 h4 hst]]] := bi_driver_run s0 hl; rewrite -h4 -h2.
suff : forall k, (k <= n)%N -> bi_energy (ds k) <= bi_energy (ds 0%N) by apply.
elim=> [//|k IH] hk1; apply: le_trans (IH (ltnW hk1)); exact: bi_step_stable (nd _) (hst k hk1).
Qed.
(** The driver leaves out the last set_data. *)
Lemma bi_driver_before n x0 d0 x d : size d0 = size nodes ->
  loop_before N dt flux residual set solve n.+1 (x0, d0) = Ok (x, d) ->
  exists d', bi_step (n.+1%:R * dt) d x d' /\ loop_after N dt flux residual set solve n.+1 (x0, d0) = Ok (x, d').
Proof.
move=> s0; rewrite before_after; case e: (loop_after _ _ _ _ _ _ n _) => [[x1 d1]| | |] //=.
case e1: (solve_step _ _ _ _ _ _ _) => [x2| | |] //= -[ex ed]; rewrite {x2}ex {}ed in e e1.
have [r [r1 r2 r3 r4]] := sstepP hk e1; have [s1 s2 s3] := bi_solved r1 r2 r3 r4.
have sd : size d = size nodes.
  have [xs [ds [_ h2 _ <- hst]]] := bi_driver_run s0 e; case: (n) hst => [|k] hst; first by rewrite h2.
  by have [r' [_ _ _ _ []]] := hst k (ltnSn k).
pose gs (e : nat) (A : 'M[F]_(m, n2)) S := if setf (n.+1%:R * dt) e (rows_of A) S is Ok S' then S' else S.
have gsE i dofs S : @shaped F dim n2 dofs -> setf (n.+1%:R * dt) i dofs S = Ok (gs i (dmx dim n2 dofs) S).
  move=> /shaped_trace hx; rewrite /gs (rows_of_dmx hx).
  by have [X -> _] := parab_set_data_ dirs laps dim0 (hD (n.+1%:R * dt) i) hg tau0 k0 S hx.
have [|d2 [g1 _ _]] := @set_dataE F nat dim n2 _ [::] n_nodes (indexed nodes) x junk (setf (n.+1%:R * dt)) gs d s1 hv hj gsE.
  by rewrite size_indexed sd.
exists d2; split; first by exists r; split=> //; exact: bi_set sd s1 g1.
by rewrite /loop_after foroS -/(loop_after N dt flux residual set solve n (x0, d0)) e /= e1 /= g1.
Qed.
End Driver.
Definition with_bi_source (F : Type) (D : df_data F) (src : nat -> F) : df_data F :=
  DfData (df_vol D) (df_mass D) (df_grad D) (df_bb D) (df_bp D) src (df_dirval D) (df_initial D) (df_normal D)
    (df_area D) (df_diffsq D) (df_eval D) (df_types D).
Lemma bi_source_example (F : rcfType) (dim : nat) (types : seq nat) (src : F -> nat -> F) (dt : F) : exists P : F -> nat -> bp_data F,
  forall t i, [/\ diffusion_data dim 1 (bl_df (bp_bl (P t i))), df_src (bl_df (bp_bl (P t i))) = src t, bp_src_old (P t i) = src (t - dt),
    df_types (bl_df (bp_bl (P t i))) = types & same_bilap (bl_df (bp_bl (P t i))) (bl_df (bp_bl (P 0 i)))].
Proof.
have [_ [A [h1 h2 _ _ _]]] := parab_example dim types (fun=> 0 : F) (fun=> 0).
by exists (fun t i => BpData (BlData (with_bi_source (bl_df (bp_bl A)) (src t)) (fun _ _ => 0) (fun _ _ => 0)) (src (t - dt)) (fun=> 0)).
Qed.
