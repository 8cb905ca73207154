(** The global operator of networks of beams. *)
From mathcomp Require Import all_ssreflect all_algebra zify ring.
From Verif Require Import M_Base L_Base M_Lapack S_Lapack M_Global S_Global L_Global L_Global2 L_Global3 L_Global4.
From Verif Require Import S_Tpp S_LocalSolver S_Diffusion S_Beam M_Timoshenko S_Timoshenko S_GlobalBeam.
From Verif Require Import L_LocalBase L_LocalLink L_Beam L_Segment L_TimoshenkoFlux L_Cross L_TimoshenkoMech L_TimoshenkoMech2 L_GlobalUniform L_GlobalMasked.
Set Implicit Arguments. Unset Strict Implicit. Unset Printing Implicit Defensive.
Import Order.TTheory GRing.Theory Num.Theory.
Local Open Scope ring_scope.

Section Beams.
Variables (F : realFieldType) (E : Type) (p : nat) (dat : E -> tb_data F) (b : nat -> {poly F}) (len : E -> F).
Variables (gesv : nat -> nat -> seq F -> seq F -> sv_result F) (tau : F).
Hypotheses (hD : forall e, segment_data b p (len e) (dat e)) (k0 : forall e c, 0 < tb_k (dat e) c).
Hypotheses (fits : forall e, tb_extra_fits (dat e)) (tau0 : 0 < tau) (hg : gesv_correct gesv).
Notation m := (2 * 1)%N.
Notation zt := (S_Diffusion.zero_trace F 2 6).

Section Local.
Variable dirs : seq nat.
Definition beam_fun : local_fun F E := fun e => tb_trace_to_flux gesv p dirs tau (dat e).
Definition load_fun : local_fun F E := fun e => tb_residual_flux gesv p dirs tau (dat e).
Notation phi := (@phi_of F E 1 6 beam_fun).
Notation psi := (@phi_of F E 1 6 load_fun).
Lemma beam_fun_ok e x : is_trace m 6 x -> exists2 y, beam_fun e x (nseq m (nseq 6 0)) = Ok y & is_trace m 6 y.
Proof.
move=> hx; have [q [u [z [hz tz _ _]]]] := tb_flux_ok dirs (hD e) (k0 e) tau0 hg (fits e) false hx (@zero_is_trace F).
by exists z.
Qed.
Lemma load_fun_ok e x : is_trace m 6 x -> exists2 y, load_fun e x (nseq m (nseq 6 0)) = Ok y & is_trace m 6 y.
Proof.
move=> hx; have [q [u [z [hz tz _ _]]]] := tb_flux_ok dirs (hD e) (k0 e) tau0 hg (fits e) true hx (@zero_is_trace F).
by exists z.
Qed.
Lemma beam_phi e x y : is_trace m 6 x -> beam_fun e x zt = Ok y -> phi e (dmx 1 6 x) = dmx 1 6 y.
Proof. by move=> hx hy; rewrite /phi_of (rows_of_dmx hx) hy. Qed.
Lemma load_psi e x y : is_trace m 6 x -> load_fun e x zt = Ok y -> psi e (dmx 1 6 x) = dmx 1 6 y.
Proof. by move=> hx hy; rewrite /phi_of (rows_of_dmx hx) hy. Qed.
Lemma comb_zt c : comb_trace c 2 6 zt zt = zt.
Proof. by apply: ends_inj; rewrite ?ends_comb ?ends_zero ?scaler0 ?addr0 //; exact: comb_is_trace. Qed.
Lemma dmx_zt : dmx 1 6 zt = 0.
Proof. by apply/matrixP => k j; rewrite !mxE nth_nseq ltn_ord nth_nseq if_same. Qed.
Lemma beam_linear_phi : local_linear phi.
Proof.
move=> e a A B.
have [y [y' [hy hy' hc]]] := tb_affine dirs (hD e) (k0 e) tau0 hg (fits e) false a (rows_trace A) (rows_trace B)
  (@zero_is_trace F) (@zero_is_trace F).
rewrite comb_zt in hc.
have := beam_phi (comb_is_trace _ _ a (rows_of A) (rows_of B)) hc.
by rewrite !dmx_comb !rows_ofK => ->; rewrite -(beam_phi (rows_trace A) hy)
  -(beam_phi (rows_trace B) hy') !rows_ofK.
Qed.
Lemma load_affine e A : psi e A = phi e A + psi e 0.
Proof.
have [y [y0 [hy hy0 hr]]] := tb_affine dirs (hD e) (k0 e) tau0 hg (fits e) true 1 (rows_trace A) (@zero_is_trace F)
  (@zero_is_trace F) (@zero_is_trace F).
rewrite comb_zt in hr.
have := load_psi (comb_is_trace _ _ 1 (rows_of A) zt) hr.
rewrite !dmx_comb rows_ofK dmx_zt addr0 !scale1r => ->; rewrite -(beam_phi (rows_trace A) hy) rows_ofK; congr (_ + _).
by have := load_psi (@zero_is_trace F) hy0; rewrite dmx_zt => ->.
Qed.
End Local.

Notation phi0 := (@phi_of F E 1 6 (beam_fun [::])).
Lemma beam_free e (x : seq (seq F)) : vanishes (fun f => nth 0%N (tb_types (dat e)) f \in [::]) 2 6 x.
Proof. by move=> f j _ _. Qed.
Lemma beam0_sym e A B : fdot A (phi0 e B) = fdot B (phi0 e A).
Proof.
have [y [y' [hy hy' hs]]] := tb_symmetric (hD e) (k0 e) tau0 hg (fits e) (rows_trace A) (rows_trace B)
  (@beam_free e _) (@beam_free e _).
have e1 := beam_phi (rows_trace A) hy; have e2 := beam_phi (rows_trace B) hy'.
by move: hs; rewrite !(@pairing_fdot F 1) -e1 -e2 !rows_ofK => ->.
Qed.
Lemma beam0_neg e A : fdot A (phi0 e A) <= 0.
Proof.
have [y hy hs] := tb_nonpos (hD e) (k0 e) tau0 hg (fits e) (rows_trace A) (@beam_free e _).
by move: hs; rewrite (@pairing_fdot F 1) -(beam_phi (rows_trace A) hy) !rows_ofK.
Qed.
Lemma beam0_unstrained e A : orthonormal (frame (dat e)) -> fdot A (phi0 e A) = 0 ->
  unstrained (len e) (row 0 ((A : 'M[F]_(2, 3 + 3)) *m frame2 (dat e))) ((A : 'M[F]_(2, 3 + 3)) *m frame2 (dat e)).
Proof.
move=> hQ h0; have [y hy] := beam_fun_ok [::] e (rows_trace A) => _.
have eA : ends (rows_of A) = A by apply/matrixP => k j; rewrite mxE rows_ofE.
have := tb_unstrained (hD e) (k0 e) tau0 hg (fits e) (rows_trace A) (@beam_free e _) hy.
rewrite eA; apply; rewrite (@pairing_fdot F 1) -(beam_phi (rows_trace A) hy) !rows_ofK //.
Qed.
Lemma frame2_inv e : orthonormal (frame (dat e)) -> frame2 (dat e) *m (frame2 (dat e))^T = 1%:M.
Proof.
move=> /mulmx1C h; rewrite /frame2 tr_block_mx !trmx0 mulmx_block !mul0mx !mulmx0 !addr0 !add0r h.
by rewrite -scalar_mx_block.
Qed.
Lemma beam0_ker e A (k : 'I_m) : orthonormal (frame (dat e)) -> fdot A (phi0 e A) = 0 -> row k A = 0 -> A = 0.
Proof.
move=> hQ /(beam0_unstrained hQ) [_]; set X := _ *m _ => h1 hk.
have hx : row k X = 0 by rewrite /X row_mul [row k _]hk mul0mx.
have lin (v : 'rV[F]_6) : v - len e *: (v *m (coupling F)^T) = 0 -> v = 0.
  move=> /eqP; rewrite subr_eq0 => /eqP hv.
  suff h0 : v *m (coupling F)^T = 0 by rewrite hv h0 scaler0.
  apply/matrixP => i c; rewrite hv -scalemxAl mxE mul_couplingT [in RHS]mxE.
  rewrite !mul_couplingT !inordK //= !oppr0.
  by do 2?[case: ifP => _]; rewrite ?mulr0.
have r0 : row 0 X = 0.
  case: k {hk} hx => -[|[|//]] hk hx; first by rewrite -hx; congr row; apply: val_inj.
  by apply: lin; rewrite -h1 -hx; congr row; apply: val_inj.
have r1 : row 1 X = 0 by rewrite h1 r0 mul0mx scaler0 subr0.
have X0 : X = 0.
  apply/row_matrixP => i; rewrite row0; case: i => -[|[|//]] hi; [rewrite -r0|rewrite -r1]; congr row; exact: val_inj.
by rewrite -[A : 'M[F]_(2, 3 + 3)]mulmx1 -(frame2_inv hQ) mulmxA -/X X0 mul0mx.
Qed.

Variable dirs : seq nat.
Notation phi := (@phi_of F E 1 6 (beam_fun dirs)).
Notation psi := (@phi_of F E 1 6 (load_fun dirs)).
Notation given e f := (nth 0%N (tb_types (dat e)) f \in dirs).
Lemma beam_mask e A (k : 'I_m) j : phi e A k j = if given e k then 0 else phi0 e A k j.
Proof.
have [q [u [z [hz tz h ez]]]] := tb_flux_ok dirs (hD e) (k0 e) tau0 hg (fits e) false (rows_trace A) (@zero_is_trace F).
have [q' [u' [z' [hz' tz' h' ez']]]] := tb_flux_ok [::] (hD e) (k0 e) tau0 hg (fits e) false (rows_trace A) (@zero_is_trace F).
have := beam_phi (rows_trace A) hz; rewrite rows_ofK => ->.
have := beam_phi (rows_trace A) hz'; rewrite rows_ofK => ->.
rewrite !scale0r in h h'; have [eq eu] := tb_uniq (hD e) (k0 e) tau0 h h'.
have /matrixP/(_ k j) := ez; rewrite mxE [RHS]mxE => e1; have /matrixP/(_ k j) := ez'; rewrite mxE [RHS]mxE in_nil => e2.
by rewrite e1 e2 eq eu.
Qed.
Lemma load_mask e A (k : 'I_m) j : given e k -> psi e A k j = 0.
Proof.
move=> hk; have [y hy _] := load_fun_ok dirs e (rows_trace A).
have [_ h] := tb_off (hD e) (k0 e) tau0 hg (fits e) (t := true) (rows_trace A) (@zero_is_trace F) hy.
have := load_psi (rows_trace A) hy; rewrite rows_ofK => ->.
by rewrite mxE; apply: h.
Qed.

Variables (n_nodes : nat) (edges : seq (seq nat * E)) (junk : seq (seq F)) (nt : nat -> nat).
Hypotheses (hv : valid_graph 1 n_nodes edges) (hj : size junk = 2%N) (ht : beam_types dat nt edges).
Notation N := (n_nodes * 6)%N.
Notation fx v := (nt v \in dirs).
Notation op x := (elliptic_flux 6 N [::] junk edges (beam_fun dirs) x).
Notation res x := (elliptic_flux 6 N [::] junk edges (load_fun dirs) x).
Notation free := (free_only n_nodes (fun v => fx v)).
Let mk (e : E) (f : nat) := given e f.
Let hmk e : List.In e edges -> forall k, (k < m)%N -> mk e.2 k = (fun v => fx v) (nth 0%N e.1 k).
Proof. by move=> he k hk; rewrite /mk ht. Qed.
Lemma freeE x : free x <-> @moff F 6 n_nodes (fun v => fx v) x.
Proof.
split=> h; first by move=> d hd hf; rewrite (divn_eq d 6) h ?ltn_mod ?ltn_divLR.
move=> v c hvn hc hf; apply: h; last by rewrite divnMDl // divn_small // addn0.
by apply: (@block_lt 6).
Qed.
Lemma network_symmetric x y : size x = N -> size y = N -> free x -> free y ->
  exists u v, [/\ op x = Ok u, op y = Ok v & vdot N y u = vdot N x v].
Proof.
move=> sx sy /freeE ox /freeE oy.
exact: (@masked_symmetric F E 1 6 _ _ mk (beam_fun_ok dirs) (beam_fun_ok [::]) beam_mask isT n_nodes edges junk _ hv hj hmk _ _ beam0_sym sx sy ox oy).
Qed.
Lemma network_residual x : size x = N -> exists r0, [/\ res (nseq N 0) = Ok r0, size r0 = N, free r0 &
  res x = Ok (nseq N 0) <-> op x = Ok (neg_res0 r0)].
Proof.
move=> sx; have [r0 [h1 h2 h3 h4]] := @masked_resP F E 1 6 _ _ _ mk (beam_fun_ok dirs) (load_fun_ok dirs) beam_mask load_mask
  (beam_linear_phi [::]) (load_affine dirs) isT n_nodes edges junk _ hv hj hmk _ sx.
by exists r0; split=> //; apply/freeE.
Qed.
Section Anchored.
Hypothesis hQ : forall e, orthonormal (frame (dat e)).
Hypothesis conn : forall v, (v < n_nodes)%N -> anchored edges (fun v => fx v) v.
Let hdef x : size x = N -> @moff F 6 n_nodes (fun v => fx v) x ->
  exists u, [/\ op x = Ok u, vdot N x u <= 0 & vdot N x u = 0 -> x = nseq N 0].
Proof.
move=> sx ox.
exact: (@anchored_definite F E 1 6 _ _ mk (beam_fun_ok dirs) (beam_fun_ok [::]) beam_mask isT n_nodes edges junk _ hv hj
  hmk beam0_neg (fun e A k => beam0_ker (hQ e)) conn x sx ox).
Qed.
Lemma network_definite x : size x = N -> free x ->
  exists u, [/\ op x = Ok u, vdot N x u <= 0 & vdot N x u = 0 -> x = nseq N 0].
Proof. by move=> sx /freeE ox; exact: hdef. Qed.
Lemma network_solvable r : size r = N -> free r ->
  exists x, [/\ size x = N, free x, op x = Ok r &
    forall x', size x' = N -> free x' -> op x' = Ok r -> x' = x].
Proof.
move=> sr /freeE or.
have [x [sx ox hx ux]] := @definite_solvable F E 1 6 _ _ mk (beam_fun_ok dirs) (beam_fun_ok [::]) beam_mask
  (beam_linear_phi [::]) isT n_nodes edges junk _ hv hj hmk hdef r sr or.
exists x; split=> //; first exact/freeE.
by move=> x' sx' /freeE; exact: ux.
Qed.
Lemma network_solution : exists x, [/\ size x = N, free x, res x = Ok (nseq N 0) &
    forall x', size x' = N -> free x' -> res x' = Ok (nseq N 0) -> x' = x].
Proof.
have [x [sx ox hx ux]] := @definite_solution F E 1 6 _ _ _ mk (beam_fun_ok dirs) (beam_fun_ok [::]) (load_fun_ok dirs)
  beam_mask load_mask (beam_linear_phi [::]) (load_affine dirs) isT n_nodes edges junk _ hv hj hmk hdef.
exists x; split=> //; first exact/freeE.
by move=> x' sx' /freeE; exact: ux.
Qed.
End Anchored.

Section Rigid.
Variables (pos : nat -> 'cV[F]_3) (d : F).
Hypotheses (hQ : forall e, orthonormal (frame (dat e))) (hpos : placed dat len pos edges) (hand : one_hand dat d edges).
Lemma edge_lt e (k : 'I_2) : List.In e edges -> size e.1 = 2%N /\ (nth 0%N e.1 k < n_nodes)%N.
Proof.
move: hv; elim: (edges) => [//|e' l IH] /= /andP[/andP[/eqP se /allP h1] hl] [<-|he]; last exact: IH.
by split=> //; apply: h1; apply: mem_nth; rewrite se ltn_ord.
Qed.
Lemma part_upper e (x : seq F) (f : 'I_2) : upper3 (rows_of (local_part 1 6 e x)) f = node_disp x (nth 0%N e f).
Proof.
apply/colP => c; rewrite !mxE; have hc : (c < 6)%N by have := ltn_ord c; lia.
by have := rows_ofE (local_part 1 6 e x) f (Ordinal hc); rewrite mxE.
Qed.
Lemma part_lower e (x : seq F) (f : 'I_2) : lower3 (rows_of (local_part 1 6 e x)) f = node_rot x (nth 0%N e f).
Proof.
apply/colP => c; rewrite !mxE; have hc : (3 + c < 6)%N by have := ltn_ord c; lia.
by have := rows_ofE (local_part 1 6 e x) f (Ordinal hc); rewrite mxE.
Qed.
Lemma network_rigid x a w : (0 < p)%N -> size x = N -> rigid_network (- d) a w pos n_nodes x -> op x = Ok (nseq N 0).
Proof.
move=> p0 sx hr.
have [z [-> sz ez]] := elliptic_fluxE (phi_computes (beam_fun_ok dirs)) hv hj sx (isT : all _ [::]).
congr Ok; apply: (@eq_from_nth _ 0); rewrite ?sz ?size_nseq // => i hi.
rewrite ez in_nil nth_nseq -sx hi /global_op.
have : forall e, List.In e edges -> phi e.2 (local_part 1 6 e.1 x) = 0.
  move=> e he; have := hand he => hd; have := hpos he => hP.
  have hx : rigid (- \det (frame (dat e.2))) a w (fun f => pos (nth 0%N e.1 f)) (rows_of (local_part 1 6 e.1 x)).
    by move=> f; rewrite part_upper part_lower hd; have [_ h] := edge_lt f he; apply: hr.
  have hz := tb_rigid dirs (hD e.2) (k0 e.2) tau0 hg (fits e.2) (hQ e.2) hP p0 (rows_trace (local_part 1 6 e.1 x)) hx.
  by have := beam_phi (rows_trace _) hz; rewrite rows_ofK dmx_zt.
elim: (edges) => [|e l IH] hall; first by rewrite big_nil.
rewrite big_cons hall; last by left.
by rewrite scattered0 add0r IH // => e' he'; apply: hall; right.
Qed.
Section Free.
Hypothesis nofix : forall v, (v < n_nodes)%N -> ~~ fx v.
Lemma all_free (x : seq F) : free x.
Proof. by move=> v c hv' _ hf; have := nofix hv'; rewrite hf. Qed.
Lemma network_balance x y a w u : (0 < p)%N -> size x = N -> size y = N -> rigid_network (- d) a w pos n_nodes y ->
  op x = Ok u -> vdot N y u = 0.
Proof.
move=> p0 sx sy hr hu; have [u' [v [hu' hv' e]]] := network_symmetric sx sy (all_free x) (all_free y).
move: hu'; rewrite hu => -[->]; rewrite e.
move: hv'; rewrite (network_rigid p0 sy hr) => -[<-].
by rewrite /vdot big1 // => i _; rewrite nth_nseq if_same mulr0.
Qed.
Lemma network_forces x r : size x = N -> res x = Ok r ->
  \sum_(v < n_nodes) node_disp r v = \sum_(e <- edges) frame (dat e.2) *m \col_(c < 3) tb_load (dat e.2) c 0.
Proof.
move=> sx hr; apply/colP => c; have hc : (c < 6)%N by have := ltn_ord c; lia.
pose y := mkseq (fun i => (i %% 6 == c)%N%:R : F) N.
have sy : size y = N by rewrite size_mkseq.
have yE v j : (v < n_nodes)%N -> (j < 6)%N -> nth 0 y (v * 6 + j) = (j == c :> nat)%:R.
  by move=> hvn hj6; rewrite nth_mkseq ?modnMDl ?modn_small //; apply: (@block_lt 6).
have pick (g : nat -> F) : \sum_(j < 6) (j == c :> nat)%:R * g j = g c.
  rewrite (bigD1 (Ordinal hc)) //= eqxx mul1r big1 ?addr0 // => j.
  by rewrite -val_eqE /= => /negbTE ->; rewrite mul0r.
transitivity (vdot N y r).
  rewrite summxE /vdot (sum_blocks _ _ (fun i => nth 0 y i * nth 0 r i)); apply: eq_bigr => v _.
  rewrite mxE -(pick (fun j => nth 0 r (v * 6 + j))); apply: eq_bigr => j _.
  by rewrite yE.
rewrite (masked_pair (load_fun_ok dirs) hv hj sx sy hr) summxE.
have : forall e, List.In e edges -> fdot (local_part 1 6 e.1 y) (psi e.2 (local_part 1 6 e.1 x)) =
  (frame (dat e.2) *m \col_(c < 3) tb_load (dat e.2) c 0) c 0.
  move=> e he.
  have hf f : (f < 2)%N -> ~~ given e.2 f.
    by move=> hf; rewrite ht //; have [_ h] := edge_lt (Ordinal hf) he; apply: nofix.
  have [z hz ez] := tb_forces (hD e.2) (k0 e.2) tau0 hg (fits e.2) true hf (rows_trace (local_part 1 6 e.1 x)).
  have := load_psi (rows_trace (local_part 1 6 e.1 x)) hz; rewrite rows_ofK => ->.
  move/colP/(_ c): ez; rewrite scale1r summxE => <-; apply: eq_bigr => k _.
  rewrite mxE -(pick (fun j => nth 0 (nth [::] z k) j)); apply: eq_bigr => j _.
  by rewrite [dmx _ _ _ _ _]mxE mxE yE //; have [_ h] := edge_lt k he.
elim: (edges) => [|e l IH] hall; first by rewrite !big_nil.
by rewrite !big_cons hall ?IH //; [move=> e' he'; apply: hall; right|left].
Qed.
Lemma network_strain x e : size x = N -> op x = Ok (nseq N 0) -> List.In e edges ->
  exists a w, rigid (- d) a w (fun f => pos (nth 0%N e.1 f)) (rows_of (local_part 1 6 e.1 x)).
Proof.
move=> sx hx he.
have e0 : masked_dofs 6 n_nodes (fun v => fx v) = [::].
  apply/eqP; rewrite -(negbK (_ == _)) -has_filter; apply/hasPn => i; rewrite mem_iota => /andP[_ hi].
  by apply: nofix; rewrite ltn_divLR.
have := hx; rewrite (masked_opE (beam_fun_ok dirs) (beam_fun_ok [::]) beam_mask isT hv hj hmk sx) e0 => h0.
have [u [hu _ hall]] := flux_nonpos (phi_computes (beam_fun_ok [::])) beam0_neg hv hj sx (isT : all _ [::]) (fun _ h => False_ind _ (notF h)).
have hz : vdot N x u = 0.
  move: hu; rewrite h0 => -[<-]; rewrite /vdot big1 // => i _; by rewrite nth_nseq if_same mulr0.
have h1 : fdot (local_part 1 6 e.1 x) (phi0 e.2 (local_part 1 6 e.1 x)) = 0.
  move: (hall hz); elim: (edges) he => [//|e' l IH] /= [<-|hin] /andP[/eqP h1 h2] //; exact: IH.
have := beam0_unstrained (hQ e.2) h1; rewrite -(hand he).
have eA (A : 'M[F]_(m, 6)) : ends (rows_of A) = A by apply/matrixP => k j; rewrite mxE rows_ofE.
rewrite -{1 2}[local_part 1 6 e.1 x](eA (local_part 1 6 e.1 x)).
by move/(rigid_iff (hQ e.2) (hpos he)).
Qed.
Lemma network_kernel x v0 : d * d = 1 -> size x = N -> (v0 < n_nodes)%N ->
  (forall v, (v < n_nodes)%N -> anchored edges (fun v => v = v0) v) ->
  op x = Ok (nseq N 0) -> exists a w, rigid_network (- d) a w pos n_nodes x.
Proof.
move=> d2 sx hv0 conn hx; pose w := - d *: node_rot x v0; pose a := node_disp x v0 - cross w (pos v0).
have dw (v : 'cV[F]_3) : - d *: (- d *: v) = v by rewrite scalerA mulrNN d2 scale1r.
exists a, w => v hvn.
elim: (conn v hvn) => [{hvn}v ->|e {hvn}v v' he hve hve' _ [IH1 IH2]]; first by rewrite /a subrK /w dw.
have [a' [w' hr]] := network_strain sx hx he.
have [se _] := edge_lt 0 he.
have at_ u : u \in e.1 -> node_disp x u = a' + cross w' (pos u) /\ node_rot x u = - d *: w'.
  move=> hu; have hi : (index u e.1 < 2)%N by rewrite -se index_mem.
  by have := hr (Ordinal hi); rewrite part_upper part_lower /= nth_index.
have [h1 h2] := at_ _ hve.
have ew : w' = w by rewrite -[w']dw -h2 IH2 dw.
have ea : a' = a by move: h1; rewrite IH1 ew => /addIr.
by rewrite -ea -ew; exact: at_.
Qed.
End Free.
End Rigid.
End Beams.
