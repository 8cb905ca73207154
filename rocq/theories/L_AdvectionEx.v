(** The contract of AdvectionParab holds on the unit hypercube with a constant velocity. *)
From mathcomp Require Import all_ssreflect all_algebra zify ring.
From Verif Require Import S_Hdg L_Hdg S_Tpp L_Poly L_Tens S_LocalSolver L_LocalLink L_DiffusionUniform2 L_TppGeo.
From Verif Require Import M_AdvectionParab S_AdvectionParab L_AdvectionParab2.
From Verif Require Import M_Base M_Global S_Global S_GlobalParab L_GlobalParab S_GlobalAdvection L_GlobalAdvection.
Set Implicit Arguments. Unset Strict Implicit. Unset Printing Implicit Defensive.
Import Order.TTheory GRing.Theory Num.Theory.
Local Open Scope ring_scope.

Section Cube.
Variable F : realFieldType.
Variables (dim p : nat) (b : nat -> {poly F}) (v : nat -> F).
Hypotheses (dim0 : (0 < dim)%N) (hb : orthonormal_basis (p + 1) b).
Notation nb := ((p + 1) ^ (dim - 1))%N.
Notation nf := (nb * (p + 1))%N.
Notation n := (p + 1)%N.
(** Outward wind through face f of the unit hypercube. *)
Definition cube_wind (f : nat) : F := \sum_(d < dim) v d * unit_normal F f d.
Variables (types : seq nat) (src : nat -> F) (dirval : nat -> nat -> F) (ipsi : nat -> nat -> F) (iphi : nat -> F).
Definition cube_adv : ap_data F :=
  let w := cube_wind in
  let up (f : nat) : F := (0 < w f)%R%:R in
  let dn (f : nat) : F := (w f <= 0)%R%:R in
  @ApData F types w (vol_phiphi n b dim) (fun i j => \sum_(d < dim) v d * vol_Dphiphi n b dim i j d)
    (fun i j f => Num.max (w f) 0 * bdr_phiphi n b dim i j f) (fun i j f => up f * bdr_phiphi n b dim i j f)
    (fun i j f => Num.min (w f) 0 * bdr_phipsi n b dim i j f) (fun i j f => dn f * bdr_phipsi n b dim i j f)
    (fun j i f => Num.max (w f) 0 * bdr_phipsi n b dim i j f) (fun j i f => up f * bdr_phipsi n b dim i j f)
    (fun i j f => Num.min (w f) 0 * (i == j)%:R) (fun i j f => dn f * (i == j)%:R)
    src dirval 1 ipsi iphi (fun=> 0) (fun _ _ _ => 0).
Definition cube_upwind : upwind_data F :=
  let w := cube_wind in
  @Upwind F (fun=> nb) (fun f _ => w f) (fun f _ => (0 < w f)%R%:R) (fun f _ => (w f <= 0)%R%:R)
    (fun f s i => bdr_phipsi n b dim i s f) (fun f s j => (s == j)%:R).
Lemma cube_nf : (n ^ dim = nf)%N.
Proof. by case: (dim) dim0 => // m _; rewrite subn1 /= expnS mulnC. Qed.
Lemma delta_sum m (g : nat -> F) j : (j < m)%N -> \sum_(s < m) g s * (s == j :> nat)%:R = g j.
Proof.
move=> hj; rewrite (bigD1 (Ordinal hj)) //= eqxx mulr1 big1 ?addr0 // => s hs.
by rewrite (_ : (s == j :> nat) = false) ?mulr0 //; apply/negP => /eqP e; case/eqP: hs; exact: val_inj.
Qed.
Lemma cube_BE f i j : (f < 2 * dim)%N -> (i < nf)%N -> (j < nf)%N ->
  bdr_phiphi n b dim i j f = \sum_(s < nb) bdr_phipsi n b dim i s f * bdr_phipsi n b dim j s f.
Proof.
rewrite -cube_nf => hf hi hj; have [_ _ _ h _] := cube_ok dim0 hb; have [_ /matrixP] := h (Ordinal hf).
move/(_ (Ordinal hi) (Ordinal hj)); rewrite mxE [X in 1 * X]mxE mul1r => ->.
by rewrite mxE; apply: eq_bigr => s _; rewrite !mxE.
Qed.
Lemma cube_D d i j : (d < dim)%N -> (i < nf)%N -> (j < nf)%N ->
  vol_Dphiphi n b dim i j d + vol_Dphiphi n b dim j i d = \sum_(f < 2 * dim) unit_normal F f d * bdr_phiphi n b dim i j f.
Proof.
rewrite -cube_nf => hd hi hj; have [_ _ h _ _] := cube_ok dim0 hb; have /matrixP := h (Ordinal hd).
move/(_ (Ordinal hi) (Ordinal hj)); rewrite !mxE => ->.
by rewrite summxE; apply: eq_bigr => f _; rewrite !mxE.
Qed.
Lemma cube_E0 f s : (f < 2 * dim)%N -> (s < nb)%N -> bdr_phipsi n b dim 0 s f = (s == 0%N)%:R.
Proof.
move=> hf hs; have [_ h] := cube_const dim0 hb; have /colP/(_ (Ordinal hs)) := h (Ordinal hf).
have n0 : (0 < n ^ dim)%N by rewrite expn_gt0 addn1.
rewrite !mxE mul1r => <-; rewrite (bigD1 (Ordinal n0)) //= !mxE mulr1 big1 ?addr0 // => i hi; rewrite !mxE.
by rewrite (_ : (i == 0%N :> nat) = false) ?mulr0 //; apply/negP => /eqP e; case/eqP: hi; exact: val_inj.
Qed.
Lemma cube_D0 d j : (d < dim)%N -> (j < nf)%N -> vol_Dphiphi n b dim 0 j d = 0.
Proof.
rewrite -cube_nf => hd hj; have [h _] := cube_const dim0 hb; have /colP/(_ (Ordinal hj)) := h (Ordinal hd).
have n0 : (0 < n ^ dim)%N by rewrite expn_gt0 addn1.
rewrite !mxE (bigD1 (Ordinal n0)) //= !mxE mulr1 big1 ?addr0 // => i hi; rewrite !mxE.
by rewrite (_ : (i == 0%N :> nat) = false) ?mulr0 //; apply/negP => /eqP e; case/eqP: hi; exact: val_inj.
Qed.
Lemma cube_upwind_ok : upwind_contract dim nb nf cube_upwind cube_adv.
Proof.
split=> /=.
- by move=> f s _ _; rewrite ler0n.
- move=> f i j hf hi hj; rewrite cube_BE //; split; rewrite mulr_sumr; apply: eq_bigr => s _; ring.
- move=> f i j hf hi hj; split; rewrite -mulr_sumr.
  + by rewrite (@delta_sum nb (fun s => bdr_phipsi n b dim i s f) j).
  + by rewrite (@delta_sum nb (fun s => bdr_phipsi n b dim i s f) j).
  + by rewrite (eq_bigr (fun s : 'I_nb => bdr_phipsi n b dim i s f * (s == j :> nat)%:R)) ?(@delta_sum nb (fun s => bdr_phipsi n b dim i s f) j) // => s _; exact: mulrC.
  + by rewrite (eq_bigr (fun s : 'I_nb => bdr_phipsi n b dim i s f * (s == j :> nat)%:R)) ?(@delta_sum nb (fun s => bdr_phipsi n b dim i s f) j) // => s _; exact: mulrC.
- by move=> f i j hf hi hj; split; rewrite -mulr_sumr (@delta_sum nb (fun s => (s == i)%:R)) // eq_sym.
split.
- move=> i j hi hj; rewrite -big_split /=.
  transitivity (\sum_(d < dim) v d * \sum_(f < 2 * dim) unit_normal F f d * bdr_phiphi n b dim i j f).
    by apply: eq_bigr => d _; rewrite -mulrDr cube_D.
  transitivity (\sum_(f < 2 * dim) cube_wind f * bdr_phiphi n b dim i j f).
    rewrite /cube_wind (eq_bigr (fun d : 'I_dim => \sum_(f < 2 * dim) v d * unit_normal F f d * bdr_phiphi n b dim i j f)).
      by rewrite exchange_big; apply: eq_bigr => f _; rewrite mulr_suml.
    by move=> d _; rewrite mulr_sumr; apply: eq_bigr => f _; rewrite mulrA.
  by apply: eq_bigr => f _; rewrite cube_BE // mulr_sumr.
- by move=> j hj; rewrite big1 // => d _; rewrite cube_D0 ?mulr0.
- by move=> f s hf hs; rewrite cube_E0.
- exact: ltr01.
- rewrite -cube_nf => i j hi hj; rewrite (volE hb (Ordinal hi) (Ordinal hj)).
  by rewrite -val_eqE.
Qed.
End Cube.

(** Hyperedges in a row with constant wind: values are given at the first hypernode, the outflow is free at the
    last one. *)
Section Row.
Variables (F : realFieldType) (p n : nat) (b : nat -> {poly F}).
Hypotheses (n0 : (0 < n)%N) (hb : orthonormal_basis (p + 1) b).
Definition adv_row : seq (seq nat) := mkseq (fun i => [:: i; i.+1]) n.
Definition adv_row_types (i : nat) : seq nat := [:: (i == 0%N : nat); if i.+1 == n then 2%N else 0%N].
Definition adv_row_data (i : nat) : ap_data F :=
  cube_adv 1 p b (fun=> 1) (adv_row_types i) (fun=> 0) (fun _ _ => 0) (fun _ _ => 0) (fun=> 0).
Definition adv_row_wind (i : nat) : upwind_data F := cube_upwind 1 p b (fun=> 1).
Notation fin := (fun v : nat => v == 0%N).
Notation fout := (fun v : nat => v == n).
Lemma row_wind k : (k < 2)%N -> cube_wind 1 (fun=> 1 : F) k = if k == 0%N then -1 else 1.
Proof. by rewrite /cube_wind big_ord1 mul1r; case: k => [|[]]. Qed.
Lemma row_node i : (i < n)%N -> nth [::] adv_row i = [:: i; i.+1].
Proof. by move=> hi; rewrite nth_mkseq. Qed.
Lemma adv_row_ok :
  [/\ valid_graph 1 n.+1 (indexed adv_row),
      forall i, upwind_contract 1 ((p + 1) ^ (1 - 1)) ((p + 1) ^ (1 - 1) * (p + 1)) (adv_row_wind i) (adv_row_data i),
      adv_classes 1 [:: 1%N] [:: 2%N] [::] adv_row fin fout adv_row_data,
      adv_zero_data 1 p adv_row adv_row_data
    & [/\ wind_conserved 1 p adv_row n.+1 fin fout adv_row_wind, wind_leaves 1 adv_row fin fout adv_row_wind
        & wind_definite 1 p adv_row n.+1 fin fout adv_row_wind]].
Proof.
have sr : size adv_row = n by rewrite size_mkseq.
split.
- apply/(all_nthP ([::], 0%N)) => i; rewrite size_indexed sr => hi; rewrite indexed_nth ?sr // row_node //=.
  by rewrite !ltnS hi (ltnW hi).
- by move=> i; exact: cube_upwind_ok.
- move=> i k; rewrite sr => hi hk; rewrite row_node // /inflow_face /outflow_face /= !inE.
  case: k hk => [|[|//]] _ /=; first by rewrite !orbF; split; lia.
  by split; case: ifP => h; rewrite ?orbF ?h ?h.

- by move=> i _; split.
split.
- move=> v hv /andP[v0 vn]; rewrite sr.
  have WE k i : (k < 2)%N -> wind_matrix ((p + 1) ^ (1 - 1)) (adv_row_wind i) k = (if k == 0%N then -1 else 1) *: 1%:M :> 'M[F]_(_).
    move=> hk; apply/matrixP => i1 j1; rewrite !mxE /= -mulr_sumr row_wind //; congr (_ * _).
    rewrite (@delta_sum F _ (fun s => (s == i1 :> nat)%:R)) //.
    by rewrite eq_sym.
  rewrite (eq_bigr (fun i : 'I_n => ((i == v :> nat)%:R * -1 + (i == v.-1 :> nat)%:R * 1) *: 1%:M)); last first.
    move=> i _; rewrite row_node // big_mkcond (big_ord_recl 1) (big_ord_recl 0) big_ord0 /= addr0 !WE // scalerDl -!scalerA.
    rewrite /bump /= (_ : (i.+1 == v) = (i == v.-1 :> nat)); last by lia.
    by case: eqP => _; case: eqP => _; rewrite ?scale1r ?scale0r.
  rewrite -scaler_suml big_split /= -!mulr_suml.
  have dl w : (w < n)%N -> \sum_(i < n) (i == w :> nat)%:R = 1 :> F.
    move=> hw; have := @delta_sum F n (fun=> 1) w hw; rewrite (eq_bigr (fun i : 'I_n => (i == w :> nat)%:R)) // => i _.
    by rewrite mul1r.
  by rewrite !dl ?mulrN1 ?mulr1 ?addNr ?scale0r //; lia.
- move=> i k s; rewrite sr => hi hk; rewrite row_node //= => /eqP e _ _.
  by case: k hk e => [|[|//]] _ /= e; [lia | rewrite row_wind // ler01].
- move=> v hv /andP[v0 vn] l h; apply/colP => j; rewrite mxE.
  have hvn : (v < n)%N by lia.
  have [|||e|e] := h v 0%N j _ _ _ (ltn_ord j).
  + by rewrite sr.
  + by [].
  + by rewrite row_node.
  + by move: e => /= /eqP; rewrite row_wind //= oppr_eq0 oner_eq0.
  move: e => /=; rewrite (bigD1 j) //= eqxx mul1r big1 ?addr0 // => j' hj'.
  rewrite (_ : (j == j' :> nat) = false) ?mul0r //; apply/negP => /eqP e; case/eqP: hj'; exact: val_inj.
Qed.
End Row.

Section Exists.
Variable F : rcfType.
Lemma adv_data_exists dim p (v : nat -> F) types src dirval ipsi iphi : (0 < dim)%N -> exists P : ap_data F,
  [/\ adv_data dim ((p + 1) ^ (dim - 1)) ((p + 1) ^ (dim - 1) * (p + 1)) P, ap_types P = types, ap_src P = src,
      ap_dirval P = dirval & ap_init_psi P = ipsi /\ ap_init_phi P = iphi].
Proof.
move=> d0; have [b] := @orthonormal_exists F p; rewrite -addn1 => hb.
exists (cube_adv dim p b v types src dirval ipsi iphi); split=> //.
by exists (cube_upwind dim p b v); exact: cube_upwind_ok.
Qed.
Lemma adv_row_singular : exists (P : nat -> ap_data F) x, forall data,
  glob_adv_op (@inv_gesv F) 1 0 [:: 1%N] [:: 2%N] [::] 0 1 1 (adv_row 1) 2 [:: [::]; [::]] P data x = Ok [:: 0; 0] /\
  x <> [:: 0; 0].
Proof.
have [b hb] := @orthonormal_exists F 0.
have [h1 h2 h3 _ [_ h4 _]] := @adv_row_ok F 0 1 b isT hb.
exists (adv_row_data 0 1 b), [:: 0; 1] => data; split; last by case=> /eqP; rewrite oner_eq0.
have h := @adv_singular F (@inv_gesv F) 1 0 [:: 1%N] [:: 2%N] [::] 0 1 1 (adv_row 1) 2 [:: [::]; [::]] _ _ _ _ h2 (@inv_gesv_correct F)
  erefl ltr01 ltr01 h1 erefl h3 data [:: 0; 1] h4 erefl.
by apply: h; case=> [|[|//]].
Qed.
End Exists.
