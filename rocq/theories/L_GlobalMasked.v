(** Global systems of local solvers that leave out Dirichlet faces. *)
From mathcomp Require Import all_ssreflect all_algebra zify.
From Verif Require Import M_Base L_Base M_Global S_Global L_Global L_Global2 L_Global3 L_Global4 S_LocalSolver L_LocalBase L_GlobalUniform.
Set Implicit Arguments. Unset Strict Implicit. Unset Printing Implicit Defensive.
Import Order.TTheory GRing.Theory Num.Theory.
Local Open Scope ring_scope.

Section Masked.
Variables (F : realFieldType) (E : Type) (dim nb : nat).
Local Notation m := (2 * dim)%N.
(** f: flux of the solver; f0: the same without Dirichlet faces; g: residual. *)
Variables (f f0 g : local_fun F E) (mk : E -> nat -> bool).
Notation phi := (@phi_of F E dim nb f).
Notation phi0 := (@phi_of F E dim nb f0).
Notation psi := (@phi_of F E dim nb g).
Notation zt := (nseq m (nseq nb (0 : F))).
Hypothesis fok : forall e x, is_trace m nb x -> exists2 y, f e x zt = Ok y & is_trace m nb y.
Hypothesis f0ok : forall e x, is_trace m nb x -> exists2 y, f0 e x zt = Ok y & is_trace m nb y.
Hypothesis gok : forall e x, is_trace m nb x -> exists2 y, g e x zt = Ok y & is_trace m nb y.
Hypothesis phi_mask : forall e A (k : 'I_m) j, phi e A k j = if mk e k then 0 else phi0 e A k j.
Hypothesis psi_mask : forall e A (k : 'I_m) j, mk e k -> psi e A k j = 0.
Hypothesis lin0 : local_linear phi0.
Hypothesis aff : forall e A, psi e A = phi e A + psi e 0.
Hypothesis nb0 : (0 < nb)%N.

Variables (n_nodes : nat) (edges : seq (seq nat * E)) (junk : seq (seq F)) (fx : nat -> bool).
Hypotheses (hv : valid_graph dim n_nodes edges) (hj : size junk = m).
Hypothesis hmk : forall e, List.In e edges -> forall k, (k < m)%N -> mk e.2 k = fx (nth 0%N e.1 k).
Notation N := (n_nodes * nb)%N.
Notation fixed d := (fx (d %/ nb)%N).
Definition masked_dofs : seq nat := [seq d <- iota 0 N | fixed d].
Lemma masked_dofsE d : (d \in masked_dofs) = fixed d && (d < N)%N.
Proof. by rewrite mem_filter mem_iota add0n. Qed.
Lemma masked_lt : all (fun i => i < N)%N masked_dofs.
Proof. by apply/allP => d; rewrite masked_dofsE => /andP[]. Qed.
Notation op x := (elliptic_flux nb N [::] junk edges f x).
Notation res x := (elliptic_flux nb N [::] junk edges g x).
Notation op0 x := (elliptic_flux nb N masked_dofs junk edges f0 x).
Definition moff x := forall d, (d < N)%N -> fixed d -> nth 0 x d = 0 :> F.
Lemma moffE x : moff x <-> off_dir masked_dofs x.
Proof.
split=> h d; first by rewrite masked_dofsE => /andP[h1 h2]; exact: h.
by move=> h1 h2; apply: h; rewrite masked_dofsE h1 h2.
Qed.
Lemma mask_at e (k : 'I_m) (j : 'I_nb) : List.In e edges -> mk e.2 k = fixed (nth 0%N e.1 k * nb + j).
Proof. by move=> he; rewrite (hmk he) // divnMDl // divn_small // addn0. Qed.
Lemma masked_op (a a0 : E -> 'M[F]_(m, nb) -> 'M[F]_(m, nb)) x d :
  (forall e A (k : 'I_m) j, a e A k j = if mk e k then 0 else a0 e A k j) ->
  global_op edges a x d = if fixed d then 0 else global_op edges a0 x d.
Proof.
move=> ha; rewrite /global_op.
have : forall e, List.In e edges -> forall (k : 'I_m) (j : 'I_nb), mk e.2 k = fixed (nth 0%N e.1 k * nb + j).
  by move=> e he k j; exact: mask_at.
elim: (edges) => [|e l IH] hm; first by rewrite !big_nil if_same.
rewrite !big_cons IH; last by move=> e' he'; apply: hm; right.
have -> : scattered e.1 (a e.2 (local_part dim nb e.1 x)) d =
   if fixed d then 0 else scattered e.1 (a0 e.2 (local_part dim nb e.1 x)) d.
  rewrite /scattered; case hf : (fixed d); last first.
    apply: eq_bigr => k _; apply: eq_bigr => j _; case: eqP => // hk.
    by rewrite ha (hm e _ _ j) ?hk ?hf //; left.
  rewrite big1 // => k _; rewrite big1 // => j _; case: eqP => // hk.
  by rewrite ha (hm e _ _ j) ?hk ?hf //; left.
by case: ifP => // _; rewrite addr0.
Qed.
Lemma masked_opE x : size x = N -> op x = op0 x.
Proof.
move=> sx.
have [z [-> sz ez]] := elliptic_fluxE (phi_computes fok) hv hj sx (isT : all _ [::]).
have [z0 [-> sz0 ez0]] := elliptic_fluxE (phi_computes f0ok) hv hj sx masked_lt.
congr Ok; apply: (@eq_from_nth _ 0); rewrite ?sz ?sz0 // sx => d hN.
by rewrite ez ez0 masked_dofsE hN andbT in_nil (masked_op _ _ phi_mask).
Qed.
Lemma masked_symmetric x y : (forall e A B, fdot A (phi0 e B) = fdot B (phi0 e A)) ->
  size x = N -> size y = N -> moff x -> moff y ->
  exists u v, [/\ op x = Ok u, op y = Ok v & vdot N y u = vdot N x v].
Proof.
move=> sym sx sy /moffE ox /moffE oy; rewrite !masked_opE //.
exact: (flux_symmetric (phi_computes f0ok) sym hv hj sx sy masked_lt ox oy).
Qed.

(** The residual vanishes exactly for the solutions of the linear system. *)
Definition neg_res0 (r : seq F) : seq F := [seq - a | a <- r].
Lemma masked_resP x : size x = N -> exists r0, [/\ res (nseq N 0) = Ok r0, size r0 = N, moff r0 &
  res x = Ok (nseq N 0) <-> op x = Ok (neg_res0 r0)].
Proof.
move=> sx.
pose b d := global_op edges (fun e (_ : 'M[F]_(m, nb)) => psi e 0) [::] d.
have hb0 x' d : global_op edges psi x' d = global_op edges phi x' d + b d.
  by rewrite (global_affine _ _ _ aff).
have [r0 [hr0 sr0 er0]] := elliptic_fluxE (phi_computes gok) hv hj (size_nseq N (0 : F)) (isT : all _ [::]).
have l0 e : phi e 0 = 0.
  apply/matrixP => k j; rewrite phi_mask !mxE.
  by rewrite (local_linear0 _ lin0) mxE if_same.
have e0 d : nth 0 r0 d = b d.
  rewrite er0 in_nil hb0 /global_op big1 ?add0r // => e _.
  by rewrite local_part0 l0 scattered0.
exists r0; split=> //; first by rewrite sr0 size_nseq.
  move=> d hN hf; rewrite e0 /b.
  rewrite (masked_op [::] d (a0 := fun e A => psi e 0)) ?hf // => e A k j.
  by case: ifP => // hm; rewrite psi_mask.
have [z [hz sz ez]] := elliptic_fluxE (phi_computes fok) hv hj sx (isT : all _ [::]).
have [w [hw sw ew]] := elliptic_fluxE (phi_computes gok) hv hj sx (isT : all _ [::]).
have sr : size r0 = N by rewrite sr0 size_nseq.
rewrite hw hz; split=> -[h]; congr Ok; apply: (@eq_from_nth _ 0);
    rewrite ?size_map ?size_nseq ?sz ?sw ?sx ?sr // => d hN.
  rewrite (nth_map 0) ?sr // e0 ez in_nil; apply/eqP; rewrite -subr_eq0 opprK -hb0.
  by have := ew d; rewrite in_nil h nth_nseq hN => <-.
rewrite ew in_nil hb0; have := ez d; rewrite in_nil => <-.
by rewrite h (nth_map 0) ?sr // e0 nth_nseq hN addNr.
Qed.

(** Definite systems can be solved. *)
Section Solvable.
Hypothesis hdef : forall x, size x = N -> moff x ->
  exists u, [/\ op x = Ok u, vdot N x u <= 0 & vdot N x u = 0 -> x = nseq N 0].
Lemma definite_solvable r : size r = N -> moff r ->
  exists x, [/\ size x = N, moff x, op x = Ok r &
    forall x', size x' = N -> moff x' -> op x' = Ok r -> x' = x].
Proof.
move=> sr /moffE or.
have inj x : size x = N -> off_dir masked_dofs x -> op0 x = Ok (nseq N 0) -> x = nseq N 0.
  move=> sx ox; rewrite -masked_opE // => hx.
  have [u [hu _ h0]] := hdef sx (iffRL (moffE x) ox).
  apply: h0; move: hu; rewrite hx => -[<-].
  by rewrite /vdot big1 // => i _; rewrite nth_nseq if_same mulr0.
have [x [sx ox hx ux]] := flux_solvable (phi_computes f0ok) lin0 hv hj masked_lt inj sr or.
exists x; split=> //; [exact/moffE | by rewrite masked_opE |].
by move=> x' sx' /moffE ox'; rewrite masked_opE // => hx'; exact: ux.
Qed.
Lemma definite_solution : exists x, [/\ size x = N, moff x, res x = Ok (nseq N 0) &
    forall x', size x' = N -> moff x' -> res x' = Ok (nseq N 0) -> x' = x].
Proof.
have [r0 [h0 s0 o0 _]] := masked_resP (size_nseq N 0).
have [||x [sx ox hx ux]] := @definite_solvable (neg_res0 r0).
- by rewrite size_map.
- by move=> d hN hf; rewrite (nth_map 0) ?s0 // o0 // oppr0.
have P x' : size x' = N -> res x' = Ok (nseq N 0) <-> op x' = Ok (neg_res0 r0).
  by move=> sx'; have [r1 [h1 s1 o1 ->]] := masked_resP sx'; move: h1; rewrite h0 => -[<-].
exists x; split=> //; first exact/P.
by move=> x' sx' ox' /P h; apply: ux => //; exact: h.
Qed.
End Solvable.

(** Definite local fluxes. *)
Section Definite.
Hypothesis neg0 : forall e A, fdot A (phi0 e A) <= 0.
Hypothesis ker0 : forall e A, fdot A (phi0 e A) = 0 -> A = 0.
Hypothesis cover : forall v, (v < n_nodes)%N -> fx v || has (fun e => v \in e.1) edges.
Lemma masked_definite x : size x = N -> moff x ->
  exists u, [/\ op x = Ok u, vdot N x u <= 0 & vdot N x u = 0 -> x = nseq N 0].
Proof.
move=> sx ox; rewrite masked_opE //.
have [u [hu hle h0]] := flux_nonpos (phi_computes f0ok) neg0 hv hj sx masked_lt (iffLR (moffE x) ox).
exists u; split=> // /h0 hall.
apply: (@eq_from_nth _ 0); rewrite ?size_nseq // sx => d hN; rewrite nth_nseq hN.
have hlt : (d %/ nb < n_nodes)%N by rewrite ltn_divLR.
case/orP: (cover hlt) => [hf|]; first exact: ox.
elim: (edges) hall hv => [//|e l IH] /= /andP[/eqP h1 h2] /andP[/andP[/eqP s1 _] hl] /orP[hin|]; last exact: IH.
have hi : (index (d %/ nb)%N e.1 < m)%N by rewrite -s1 index_mem.
have hm : (d %% nb < nb)%N by rewrite ltn_mod.
have /matrixP/(_ (Ordinal hi) (Ordinal hm)) := ker0 h1.
by rewrite !mxE /= nth_index // -divn_eq.
Qed.
Lemma masked_solvable r : size r = N -> moff r ->
  exists x, [/\ size x = N, moff x, op x = Ok r &
    forall x', size x' = N -> moff x' -> op x' = Ok r -> x' = x].
Proof. exact: definite_solvable masked_definite r. Qed.
Lemma masked_solution : exists x, [/\ size x = N, moff x, res x = Ok (nseq N 0) &
    forall x', size x' = N -> moff x' -> res x' = Ok (nseq N 0) -> x' = x].
Proof. exact: definite_solution masked_definite. Qed.
End Definite.

(** Semidefinite local fluxes: a trace without work that vanishes at one hypernode vanishes at all. *)
Section Anchored.
Hypothesis neg0 : forall e A, fdot A (phi0 e A) <= 0.
Hypothesis ker1 : forall e A (k : 'I_m), fdot A (phi0 e A) = 0 -> row k A = 0 -> A = 0.
Hypothesis conn : forall v, (v < n_nodes)%N -> anchored edges (fun v => fx v) v.
Lemma anchored_definite x : size x = N -> moff x ->
  exists u, [/\ op x = Ok u, vdot N x u <= 0 & vdot N x u = 0 -> x = nseq N 0].
Proof.
move=> sx ox; rewrite masked_opE //.
have [u [hu hle h0]] := flux_nonpos (phi_computes f0ok) neg0 hv hj sx masked_lt (iffLR (moffE x) ox).
exists u; split=> // /h0 hall.
have zero v : anchored edges (fun v => fx v) v -> forall j, (j < nb)%N -> nth 0 x (v * nb + j) = 0.
  elim=> [{}v hfix j hjn|e {}v w he hve hwe _ IH j hjn].
    case: (ltnP (v * nb + j) N) => hN; last by rewrite nth_default ?sx.
    by apply: ox => //; rewrite divnMDl // divn_small // addn0.
  have [se he0] : size e.1 = m /\ fdot (local_part dim nb e.1 x) (phi0 e.2 (local_part dim nb e.1 x)) = 0.
    elim: (edges) he hv hall => [//|e' l IHl] /= [<-|he] /andP[/andP[/eqP s1 _] hl] /andP[/eqP h1 h2] //.
    exact: IHl.
  have hi a : a \in e.1 -> (index a e.1 < m)%N by rewrite -se index_mem.
  have r0 : row (Ordinal (hi _ hve)) (local_part dim nb e.1 x) = 0.
    by apply/rowP => i; rewrite !mxE /= nth_index // IH.
  by have /matrixP/(_ (Ordinal (hi _ hwe)) (Ordinal hjn)) := ker1 he0 r0; rewrite !mxE /= nth_index.
apply: (@eq_from_nth _ 0); rewrite ?size_nseq // sx => d hN.
rewrite nth_nseq hN (divn_eq d nb) zero ?ltn_mod //; apply: conn.
by rewrite ltn_divLR.
Qed.
End Anchored.

(** Pairing of a vector that vanishes at Dirichlet dofs with the residual: the sum over the hyperedges. *)
Lemma masked_pair x y r : size x = N -> size y = N -> res x = Ok r ->
  vdot N y r = \sum_(e <- edges) fdot (local_part dim nb e.1 y) (psi e.2 (local_part dim nb e.1 x)).
Proof.
move=> sx sy hr.
have [w [hw sw ew]] := elliptic_fluxE (phi_computes gok) hv hj sx (isT : all _ [::]).
move: hr; rewrite hw => -[<-]; rewrite -(global_dot _ _ _ hv).
by apply: eq_bigr => d _; rewrite ew in_nil.
Qed.
End Masked.
