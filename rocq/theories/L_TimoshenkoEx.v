(** Examples of beams. *)
From mathcomp Require Import all_ssreflect all_algebra zify ring.
From Verif Require Import M_Base L_Base M_DenseLA S_DenseLA L_DenseLA M_Lapack S_Lapack L_Lapack M_Geometry L_Geometry8.
From Verif Require Import S_Tpp S_LocalSolver S_Diffusion S_Beam M_Timoshenko S_Timoshenko M_Global S_Global S_GlobalBeam.
From Verif Require Import L_Poly L_DiffusionUniform2 L_Cross L_TimoshenkoMech L_TimoshenkoMech2 L_TimoshenkoFrame.
Set Implicit Arguments. Unset Strict Implicit. Unset Printing Implicit Defensive.
Import Order.TTheory GRing.Theory Num.Theory.
Local Open Scope ring_scope.

Section Ex.
Variable F : realFieldType.
(** A beam from 0 along the first axis with length 1, its outer normals turned by (c, s). *)
Definition ex_beam (b : nat -> {poly F}) (c s : F) (e : option (seq F)) (types : seq nat) (load : nat -> nat -> F) : tb_data F :=
  TbData types (fun d => (d == 0%N)%:R)
    (fun i d => if d == 0%N then 0 else if i == 0%N then (if d == 1%N then c else s) else if d == 1%N then - s else c)
    e (fun i j => integ (b i * b j)) (fun i j => integ ((b i)^`() * b j))
    (fun i j f => (b i).[f%:R] * (b j).[f%:R]) (fun i f => (b i).[f%:R]) (fun f => if f == 0%N then -1 else 1)
    load (fun _ _ _ => 0) (fun _ _ => 0) (fun _ _ _ => 0).
Definition ex_ends (f : 'I_2) : 'cV[F]_3 := \col_i ((i == 0%N :> nat) && (f == 1%N :> nat))%:R.
Lemma ex_segment b p c s e ts l : orthonormal_basis (p + 1) b -> segment_data b p 1 (ex_beam b c s e ts l).
Proof.
move=> hb; split=> //; first exact: oner_neq0.
  by move=> i j _ _; rewrite /= normr1 sgr1 !mul1r.
by rewrite /= sgr1.
Qed.
Lemma ex_frame b c s e ts l : c * c + s * s = 1 -> orthonormal (frame (ex_beam b c s e ts l)).
Proof.
move=> h; apply/matrixP => i j; rewrite mxE.
under eq_bigr => k _ do rewrite !mxE.
rewrite mxE -val_eqE !big_ord_recr big_ord0 /=.
have h' : s * s + c * c = 1 by rewrite addrC.
case: i j => -[|[|[|//]]] i [[|[|[|//]]] j] /=;
  rewrite ?mul0r ?mulr0 ?mul1r ?add0r ?addr0 ?mulrNN //; ring.
Qed.
Lemma ex_ends_ok b c s e ts l : beam_ends (ex_beam b c s e ts l) 1 ex_ends.
Proof. by rewrite /beam_ends scale1r; apply/colP => i; rewrite !mxE /= andbT andbF subr0. Qed.
Lemma ex_good b p ts l : orthonormal_basis (p + 1) b -> good_beam p b (ex_beam b 1 0 None ts l) 1 ex_ends.
Proof.
move=> hb; split; [exact: ex_segment| |by []| |exact: ex_ends_ok].
  by move=> c; rewrite /tb_k tb_coeffsE nth_nseq ltn_ord ltr01.
by apply: ex_frame; rewrite mul1r mul0r addr0.
Qed.
(** The section has the second and third axis as its axes and constants a (forces), m (moments). *)
Definition ex_section (a m : nat -> F) : seq F :=
  [:: a 0%N; a 1%N; a 2%N; m 0%N; m 1%N; m 2%N; 0; 1; 0; 0; 0; 1].
Lemma ex_axes b c s ts l a m : section_axes (ex_beam b c s (Some (ex_section a m)) ts l) (ex_section a m).
Proof.
split; rewrite /mdot !big_ord_recr !big_ord0 !mxE /=; ring.
Qed.
Lemma ex_coeffs b c s ts l a m : tb_coeffs (ex_beam b c s (Some (ex_section a m)) ts l) =
  [:: `|a 0%N| * 10%:R ^+ 4; `|a 1%N * c + a 2%N * s| * 10%:R ^+ 4; `|a 2%N * c - a 1%N * s| * 10%:R ^+ 4;
      `|m 0%N| * 10%:R ^+ 12; `|m 1%N * c + m 2%N * s| * 10%:R ^+ 12; `|m 2%N * c - m 1%N * s| * 10%:R ^+ 12].
Proof.
rewrite tb_coeffsE; cbv beta zeta iota delta [tb_extra ex_beam]; rewrite !big_ord_recr !big_ord0.
move: (10%:R ^+ 4) (10%:R ^+ 12) => x y; rewrite /=.
by do ![congr cons]; do ?[congr (`|_| * _)]; ring.
Qed.
Lemma isotropic_differ (k : F) : 0 < k -> exists (D D' : tb_data F) (e : seq F),
  [/\ tb_extra D = Some e /\ tb_extra D' = Some e, section_axes D e /\ section_axes D' e,
      orthonormal (frame D) /\ orthonormal (frame D'), col 0 (frame D) = col 0 (frame D')
    & [/\ size e = 12%N, nth 0 e 1 = k, nth 0 e 2 = k, tb_k D (inord 1) = k * 10%:R ^+ 4
      & tb_k D' (inord 1) = 7%:R / 5%:R * k * 10%:R ^+ 4]].
Proof.
move=> k0; pose e := ex_section (fun _ => k) (fun _ => k).
pose d c s := ex_beam (fun=> 1) c s (Some e) [::] (fun _ _ => 0).
have n5 : (5%:R : F) != 0 by rewrite pnatr_eq0.
exists (d 1 0), (d (3%:R / 5%:R) (4%:R / 5%:R)), e; split=> //; [by split; exact: ex_axes| | |].
- split; apply: ex_frame; first by rewrite mul1r mul0r addr0.
  by field.
- by apply/colP => i; rewrite !mxE.
split=> //; rewrite /tb_k ex_coeffs inordK //.
  by rewrite [nth _ _ _]/= mulr1 mulr0 addr0 (gtr0_norm k0).
rewrite [nth _ _ _]/= -mulrDr -mulrDl -natrD ger0_norm; first by rewrite (mulrC k).
by apply: mulr_ge0; [exact: ltW|apply: divr_ge0; exact: ler0n].
Qed.
Lemma constant_vanishes : exists (D : tb_data F) (e : seq F),
  [/\ tb_extra D = Some e, section_axes D e, orthonormal (frame D), forall i, (i < 6)%N -> 0 < nth 0 e i
    & tb_k D (inord 1) = 0].
Proof.
pose e := ex_section (fun i => if i == 1%N then 4%:R : F else 3%:R) (fun _ => 1).
have n5 : (5%:R : F) != 0 by rewrite pnatr_eq0.
exists (ex_beam (fun=> 1) (3%:R / 5%:R) (- (4%:R / 5%:R)) (Some e) [::] (fun _ _ => 0)), e; split=> //.
- exact: ex_axes.
- by apply: ex_frame; field.
- by move=> [|[|[|[|[|[|//]]]]]] _; rewrite /= ?ltr01 ?ltr0n.
rewrite /tb_k ex_coeffs inordK // [nth _ _ _]/=.
have -> : 4%:R * (3%:R / 5%:R) + 3%:R * - (4%:R / 5%:R) = 0 :> F by ring.
by rewrite normr0 mul0r.
Qed.

(** A beam with signed length r in the frame with columns q. *)
Definition ex_turned (b : nat -> {poly F}) (r : F) (q : nat -> nat -> F) : tb_data F :=
  TbData [:: 0%N; 0%N] (fun d => q d 0%N) (fun i d => q d (i + 1)%N)
    None (fun i j => `|r| * integ (b i * b j)) (fun i j => Num.sg r * integ ((b i)^`() * b j))
    (fun i j f => (b i).[f%:R] * (b j).[f%:R]) (fun i f => (b i).[f%:R])
    (fun f => if f == 0%N then - Num.sg r else Num.sg r)
    (fun _ _ => 0) (fun _ _ _ => 0) (fun _ _ => 0) (fun _ _ _ => 0).
Lemma turned_segment b p r q : orthonormal_basis (p + 1) b -> r != 0 -> segment_data b p r (ex_turned b r q).
Proof. by move=> hb hr; split. Qed.
Lemma turned_k b r q c : 0 < tb_k (ex_turned b r q) c.
Proof. by rewrite /tb_k tb_coeffsE nth_nseq ltn_ord ltr01. Qed.
Lemma turned_on_file geqr2 trans mat (T : linear F) b : linear_new geqr2 3 1 trans mat = Ok T ->
  mget 1 (l_r T) 0 0 != 0 -> on_file geqr2 T (ex_turned b (mget 1 (l_r T) 0 0) (fun i j => mget 3 (l_q T) i j)).
Proof.
move=> hT r0; have [en ed _ _] := linear_newE hT.
have cE c : get_column 3 (l_q T) c = mkseq (fun d => mget 3 (l_q T) d c) 3.
  by [].
split.
- by rewrite /gf_inner_normal /linear_inner_normal en ed /= -cE.
- by move=> i hi; rewrite /gf_outer_normal /linear_outer_normal en ed hi cE.
move=> f hf; rewrite /gf_local_normal /linear_local_normal ed /=.
have [h0|h0] : 0 < mget 1 (l_r T) 0 0 \/ mget 1 (l_r T) 0 0 < 0 by case: (ltgtP (mget 1 (l_r T) 0 0) 0) r0 => //; [right|left].
   rewrite h0 (gtr0_sg h0); move: f hf => [|[|?]] // _.
  by rewrite /= /muls /for_ /= mulrN1 opprK.
rewrite ltNge ltW // (ltr0_sg h0); move: f hf => [|[|?]] // _; first by rewrite [LHS]/= [RHS]/= opprK.
by rewrite /= /muls /for_ /= mul1r.
Qed.
Lemma ex_aligned (a m : nat -> F) :
  let D := ex_beam (fun=> 1) 1 0 (Some (ex_section a m)) [::] (fun _ _ => 0) in
  section_axes D (ex_section a m) /\ aligned false D (ex_section a m).
Proof.
split; first exact: ex_axes.
exists (fun _ => 1) => i hi; split; first exact: normr1.
by case: i hi => [|[|//]] _ [|[|[|//]]] _ /=; rewrite mul1r ?oppr0.
Qed.
Lemma ex_det b ts l : \det (frame (ex_beam b 1 0 None ts l)) = 1.
Proof.
rewrite -[RHS](@det1 F 3); congr (\det _); apply/matrixP => i j; rewrite !mxE -val_eqE.
by case: i j => -[|[|[|//]]] hi [[|[|[|//]]] hj] //=; rewrite oppr0.
Qed.
End Ex.
Lemma ex_turn (F : rcfType) (p : nat) : (0 < p)%N ->
  let w : 'cV[F]_3 := delta_mx (inord 2) 0 in
  exists b, let D := ex_beam b 1 0 None [:: 0; 0]%N (fun _ _ => 0) in
  let x s := trace_six (fun f => 0 + cross w (@ex_ends F f)) (fun _ => s *: w) in
  tb_trace_to_flux (@inv_gesv F) p [::] 1 D (x (-1)) (zero_trace F 2 6) = Ok (zero_trace F 2 6) /\
  tb_trace_to_flux (@inv_gesv F) p [::] 1 D (x 1) (zero_trace F 2 6) <> Ok (zero_trace F 2 6).
Proof.
move=> p0 w; have [b hb] := orthonormal_exists F p; exists b => D x.
have [] : good_beam p b D 1 (@ex_ends F) by apply: ex_good; rewrite addn1.
move=> hd k0 fits hQ hP.
have hx s : rigid s 0 w (@ex_ends F) (x s) by move=> f; rewrite upper_six lower_six.
have tx s : is_trace 2 6 (x s) by [].
split.
  by apply: (tb_rigid [::] hd k0 ltr01 (@inv_gesv_correct F) fits hQ hP p0 (tx _)); rewrite ex_det; exact: hx.
move=> hz; have [//|h|h] := tb_handed hd k0 ltr01 (@inv_gesv_correct F) fits hQ hP _ (tx _) (hx _) hz.
  move/eqP: h; rewrite ex_det -addr_eq0 (_ : 1 + 1 = 2%:R) ?pnatr_eq0 // -natrD //.
have /colP/(_ (inord 1)) := h; rewrite hP scale1r !mxE !inordK //= !mxE !inordK //=.
have d1 (i j : nat) : (i < 3)%N -> (j < 3)%N -> ((inord i : 'I_3) == inord j) = (i == j) by move=> h1 h2; rewrite -val_eqE /= !inordK.
by rewrite !d1 //= mul1r mul0r subr0 => /eqP; rewrite oner_eq0.
Qed.
Lemma ex_chain (F : rcfType) (p : nat) : exists (b : nat -> {poly F}) (dat : bool -> tb_data F),
  let edges := [:: ([:: 0; 1]%N, true); ([:: 1; 2]%N, false)] in
  let nt v := if v == 0%N then 1%N else 0%N in
  let pos (v : nat) : 'cV[F]_3 := \col_i (if i == 0%N :> nat then v%:R else 0) in
  [/\ forall e, [/\ segment_data b p 1 (dat e), forall c, 0 < tb_k (dat e) c, tb_extra_fits (dat e) & orthonormal (frame (dat e))],
      valid_graph 1 3 edges, beam_types dat nt edges,
      forall v, (v < 3)%N -> anchored edges (fun v => nt v \in [:: 1%N]) v
    & placed dat (fun _ => 1) pos edges /\ one_hand dat 1 edges].
Proof.
have [b hb] := orthonormal_exists F p.
exists b, (fun e : bool => ex_beam b 1 0 None (if e then [:: 1; 0] else [:: 0; 0])%N (fun _ _ => 0)) => edges nt pos.
have hb1 : orthonormal_basis (p + 1) b by rewrite addn1.
split=> //.
- by move=> e; have [] := @ex_good F b p (if e then [:: 1; 0] else [:: 0; 0])%N (fun _ _ => 0) hb1.
- by move=> e /= [<-|[<-|//]] [|[|//]] _.
- have a0 : anchored edges (fun v => nt v \in [:: 1%N]) 0%N by constructor 1.
  have a1 : anchored edges (fun v => nt v \in [:: 1%N]) 1%N.
    by apply: (@anchored_step _ _ _ ([:: 0; 1]%N, true) 0%N 1%N) => //; left.
  have a2 : anchored edges (fun v => nt v \in [:: 1%N]) 2%N.
    by apply: (@anchored_step _ _ _ ([:: 1; 2]%N, false) 1%N 2%N) => //; right; left.
  by move=> [|[|[|//]]] _.
split=> e /= [<-|[<-|//]] /=; rewrite ?ex_det // /beam_ends scale1r; apply/colP => i; rewrite !mxE /=.
  by case: (i == 0%N :> nat); rewrite subr0.
by case: (i == 0%N :> nat); rewrite ?subr0 // -(natrB _ (isT : (1 <= 2)%N)).
Qed.

(** LAPACK for the directions (1,0,0) and (0,1,0). *)
Definition ex_beam_qr : nat -> nat -> seq rat -> qr_result [realFieldType of rat] := fun nr nc A =>
  if [&& nr == 3%N, nc == 1%N & A == [:: 1; 0; 0]] then QrResult true [:: 1; 0; 0] [:: 0]
  else QrResult [&& nr == 3%N, nc == 1%N & A == [:: 0; 1; 0]] [:: -1; 1; 0] [:: 1].
Lemma ex_beam_qr_ok nr nc A : qr_info (ex_beam_qr nr nc A) ->
  geqr2_ok nr nc A (qr_fac (ex_beam_qr nr nc A)) (qr_tau (ex_beam_qr nr nc A)).
Proof.
rewrite /ex_beam_qr; case: ifP => [/and3P[/eqP -> /eqP -> /eqP ->] _|_ /= /and3P[/eqP -> /eqP -> /eqP ->]];
 by apply: geqr2_checkP; vm_compute.
Qed.
Lemma ex_two_frames : exists (T1 T2 : linear [realFieldType of rat]) (D1 D2 : tb_data [realFieldType of rat]),
  [/\ linear_new ex_beam_qr 3 1 [:: 0; 0; 0] [:: 1; 0; 0] = Ok T1,
      linear_new ex_beam_qr 3 1 [:: 0; 0; 0] [:: 0; 1; 0] = Ok T2,
      on_file ex_beam_qr T1 D1 /\ on_file ex_beam_qr T2 D2,
      segment_data (fun=> 1) 0 (mget 1 (l_r T1) 0 0) D1 /\ segment_data (fun=> 1) 0 (mget 1 (l_r T2) 0 0) D2
    & [/\ forall c, 0 < tb_k D1 c /\ 0 < tb_k D2 c, tb_extra_fits D1 && tb_extra_fits D2,
          tb_types D1 = [:: 0; 0]%N /\ tb_types D2 = [:: 0; 0]%N,
          (qr_tau (ex_beam_qr 3 1 [:: 1; 0; 0]))`_0 = 0 & (qr_tau (ex_beam_qr 3 1 [:: 0; 1; 0]))`_0 != 0]].
Proof.
have /okP[T1 e1 h1] : okb (fun T => mget 1 (l_r T) 0 0 != 0)
  (linear_new ex_beam_qr 3 1 [:: 0; 0; 0] [:: 1; 0; 0]) by vm_compute.
have /okP[T2 e2 h2] : okb (fun T => mget 1 (l_r T) 0 0 != 0)
  (linear_new ex_beam_qr 3 1 [:: 0; 0; 0] [:: 0; 1; 0]) by vm_compute.
have hb : orthonormal_basis (0 + 1) (fun=> 1 : {poly [realFieldType of rat]}).
  split=> [|i|i j]; first by [].
    by rewrite add0n ltnS leqn0 => /eqP ->; rewrite size_poly1.
  by rewrite add0n !ltnS !leqn0 => /eqP -> /eqP ->; rewrite mulr1 integ1.
exists T1, T2, (ex_turned (fun=> 1) (mget 1 (l_r T1) 0 0) (fun i j => mget 3 (l_q T1) i j)),
  (ex_turned (fun=> 1) (mget 1 (l_r T2) 0 0) (fun i j => mget 3 (l_q T2) i j)).
split.
- exact: e1.
- exact: e2.
- by split; [exact: (turned_on_file _ e1)|exact: (turned_on_file _ e2)].
- by split; exact: turned_segment.
by split=> // c; split; exact: turned_k.
Qed.
