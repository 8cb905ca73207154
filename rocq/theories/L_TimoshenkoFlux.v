(** Proofs about M_Timoshenko: local problems and fluxes. *)
From mathcomp Require Import all_ssreflect all_algebra zify ring.
From Verif Require Import M_Base L_Base M_Index L_Index M_DenseLA S_DenseLA L_DenseLA M_Lapack S_Lapack L_Lapack.
From Verif Require Import S_Tpp S_LocalSolver M_DiffusionUniform L_DiffusionUniform L_LocalBase L_LocalBlock L_LocalLink L_BlockLink L_Bilaplacian.
From Verif Require Import S_Beam L_Beam M_Timoshenko S_Timoshenko L_Segment L_Timoshenko.
Set Implicit Arguments. Unset Strict Implicit. Unset Printing Implicit Defensive.
Import Order.TTheory GRing.Theory Num.Theory.
Local Open Scope ring_scope.

Section Flux.
Variable F : realFieldType.
Variable gesv : nat -> nat -> seq F -> seq F -> sv_result F.
Variables (p : nat) (dirs : seq nat) (tau : F) (D : tb_data F) (b : nat -> {poly F}) (r : F).
Notation nf := (p + 1)%N.
Notation nl := (12 * nf)%N.
Notation B := (tb_beam p D).
Notation M := (bM B).
Notation G := (bD B).
Notation E := (bE B).
Notation N := (bNu B).
Notation k := (tb_k D).
Notation C := (coupling F).
Hypothesis hd : segment_data b p r D.
Hypothesis k0 : forall c, 0 < k c.
Hypothesis tau0 : 0 < tau.
Hypothesis hg : gesv_correct gesv.
Hypothesis fits : tb_extra_fits D.
Implicit Types (q u : 'M[F]_(p + 1, 6)) (X : seq F).

Lemma tb_hbb i j f : (i < nf)%N -> (j < nf)%N -> (f < 2)%N -> tb_bb D i j f = tb_bp D i f * tb_bp D j f.
Proof.
move=> hi hj hf; case: hd => _ _ _ h _.
have [e1 e2] := h i (Ordinal hf) hi; have [e3 _] := h j (Ordinal hf) hj.
by rewrite e1 e3 e2.
Qed.
Lemma beam_lhs q u (X : 'M[F]_(2, 6)) Rq Ru : beam_eq B k tau q u X Rq Ru <->
  lhs1 D q u = Rq - E *m N *m X /\ lhs2 tau D q u = Ru + tau *: (E *m X).
Proof.
have [_ hG _ _ _] := segment_ok hd.
have eG : E *m N *m E^T - G = G^T by rewrite -hG addrC addKr.
rewrite /beam_eq /lhs1 /lhs2 eG.
have e1 : M *m q *m flexibility k - G *m u + E *m N *m X + M *m u *m C^T =
  M *m q *m flexibility k - G *m u + M *m u *m C^T + E *m N *m X by rewrite addrAC.
have e2 : G^T *m q + tau *: (E *m (E^T *m u - X)) - M *m q *m C =
  G^T *m q + tau *: (E *m (E^T *m u)) - M *m q *m C - tau *: (E *m X).
  by rewrite mulmxBr scalerBr addrA addrAC.
rewrite e1 e2; split=> [[<- <-]|[-> ->]]; by rewrite ?addrK ?subrK.
Qed.
Lemma stress_cols (X : seq F) : cols 0 (ext (@bpart F 12 nf X)) = stress p X.
Proof.
apply/matrixP => i c; rewrite !mxE add0n; have hc : (c < 12)%N by have := ltn_ord c; lia.
by rewrite -[nat_of_ord c]/(nat_of_ord (Ordinal hc)) extE mxE.
Qed.
Lemma motion_cols (X : seq F) : cols 6 (ext (@bpart F 12 nf X)) = motion p X.
Proof.
apply/matrixP => i c; rewrite !mxE; have hc : (6 + c < 12)%N by have := ltn_ord c; lia.
by rewrite -[(6 + c)%N]/(nat_of_ord (Ordinal hc)) extE mxE.
Qed.
Lemma twelve (Q : 'I_12) : exists c : 'I_6, Q = inord c \/ Q = inord (6 + c).
Proof.
have hQ := ltn_ord Q; case: (ltnP Q 6) => h.
  by exists (Ordinal h); left; apply: val_inj; rewrite /= inordK.
have h6 : (Q - 6 < 6)%N by lia.
by exists (Ordinal h6); right; apply: val_inj; rewrite /= inordK /=; lia.
Qed.
Lemma tb_null (v : 'I_12 -> 'cV[F]_(p + 1)) : (forall P, \sum_Q evK (tbAm p tau D) P Q *m v Q = 0) -> forall Q, v Q = 0.
Proof.
move=> h; pose q := cols 0 (ext v); pose u := cols 6 (ext v).
have h1 : lhs1 D q u = 0.
  apply/matrixP => i c; have [e _] := block_rows tau D v c; rewrite h in e.
  by have /colP/(_ i) := e; rewrite !mxE.
have h2 : lhs2 tau D q u = 0.
  apply/matrixP => i c; have [_ e] := block_rows tau D v c; rewrite h in e.
  by have /colP/(_ i) := e; rewrite !mxE.
have [q0 u0] : q = 0 /\ u = 0.
  apply: (beam_unique (segment_ok hd) k0 tau0); apply/beam_lhs.
  by rewrite h1 h2 !mulmx0 scaler0 subr0 addr0.
move=> Q; have [c [hQ|hQ]] := twelve Q; have c6 := ltn_ord c.
  have : col c q = 0 by rewrite q0; apply/colP => i; rewrite !mxE.
  by rewrite col_cols add0n -[nat_of_ord c](@inordK 11) ?extE -?hQ //; lia.
have : col c u = 0 by rewrite u0; apply/colP => i; rewrite !mxE.
by rewrite col_cols -[(6 + c)%N](@inordK 11) ?extE -?hQ //; lia.
Qed.
Lemma tb_divide_ok rhs : size rhs = nl -> exists X, [/\ tb_divide gesv p tau D rhs = Ok X, size X = nl,
  lhs1 D (stress p X) (motion p X) = stress p rhs & lhs2 tau D (stress p X) (motion p X) = motion p rhs].
Proof.
move=> sr; have hA := tb_block tau tb_hbb.
have [X [hX sX eX]] := blink_solve hA hg tb_null (tb_size_A p tau D) sr.
exists X; split=> //; first by rewrite /tb_divide fits tb_nl hX.
  apply/matrixP => i c; have [e _] := block_rows tau D (bpart nf X) c.
  have c12 : (c < 12)%N by have := ltn_ord c; lia.
  rewrite eX stress_cols motion_cols in e; have /colP/(_ i) := e; rewrite [LHS]mxE inordK // [RHS]mxE => <-.
  by rewrite mxE.
apply/matrixP => i c; have [_ e] := block_rows tau D (bpart nf X) c.
have c12 : (6 + c < 12)%N by have := ltn_ord c; lia.
rewrite eX stress_cols motion_cols in e; have /colP/(_ i) := e; rewrite [LHS]mxE inordK // [RHS]mxE => <-.
by rewrite mxE.
Qed.
Lemma stress_rhs x : stress p (tb_rhs_lambda p tau D x) = - (E *m N *m ends x).
Proof. by apply/matrixP => i c; rewrite mxE tb_rhs_upper [in RHS]mxE. Qed.
Lemma motion_rhs x : motion p (tb_rhs_lambda p tau D x) = tau *: (E *m ends x).
Proof. by apply/matrixP => i c; rewrite mxE tb_rhs_lower [in RHS]mxE. Qed.
Lemma stress_global : stress p (tb_rhs_global p dirs tau D) = load_q dirs p D.
Proof. by apply/matrixP => i c; rewrite mxE tb_global_upper. Qed.
Lemma motion_global : motion p (tb_rhs_global p dirs tau D) = load_u dirs p tau D.
Proof. by apply/matrixP => i c; rewrite mxE tb_global_lower. Qed.
Lemma nth_mat_add (s t : seq F) i : size s = nl -> (i < nl)%N -> nth 0 (mat_add nl 1 1 s t) i = nth 0 s i + nth 0 t i.
Proof.
move=> hs hi; have := @mget_add_eq_same F nl 1 s t i 0; rewrite /mat_add eqxx /mget /loc !mul0n !add0n.
by apply => //; rewrite /is_mat muln1.
Qed.
Lemma size_mat_add (s t : seq F) : size s = nl -> size (mat_add nl 1 1 s t) = nl.
Proof. by move=> hs; rewrite /mat_add eqxx /add_eq eqxx size_for_upd. Qed.
Lemma stressD (s t : seq F) : size s = nl -> stress p (mat_add nl 1 1 s t) = stress p s + stress p t.
Proof.
move=> hs; apply/matrixP => i c; rewrite !mxE nth_mat_add //; apply: (@block_lt nf) => //.
by have := ltn_ord c; lia.
Qed.
Lemma motionD (s t : seq F) : size s = nl -> motion p (mat_add nl 1 1 s t) = motion p s + motion p t.
Proof. move=> hs; apply/matrixP => i c; rewrite !mxE nth_mat_add //; apply: (@block_lt nf) => //; have := ltn_ord c; lia. Qed.
(** The local problem. *)
Lemma tb_local (t : bool) x : exists X, [/\ tb_solve_local_problem gesv p dirs tau D t x = Ok X, size X = nl &
  beam_eq B k tau (stress p X) (motion p X) (ends x) (t%:R *: load_q dirs p D) (t%:R *: load_u dirs p tau D)].
Proof.
have sR := tb_size_rhs p tau D x.
case: t; last first.
  have [X [hX sX e1 e2]] := tb_divide_ok sR; exists X; split=> //.
  by apply/beam_lhs; rewrite e1 e2 stress_rhs motion_rhs !scale0r add0r add0r.
have sR2 := size_mat_add (tb_rhs_global p dirs tau D) sR.
have [X [hX sX e1 e2]] := tb_divide_ok sR2; exists X; split=> //.
  by rewrite /tb_solve_local_problem /= tb_nl.
apply/beam_lhs; rewrite e1 e2 stressD // motionD // stress_rhs motion_rhs stress_global motion_global !scale1r.
by rewrite addrC [in X in _ /\ X]addrC.
Qed.
(** ** Fluxes *)
Definition tbE (X : seq F) : seq (nat * nat * F) := flatten [seq flatten [seq flatten [seq flatten [seq
   [:: ((f, j + d)%N, tb_normal D f * tb_bp D i f * nth 0 X (d * nf + i) +
       tau * nth 0 X ((6 + d) * nf + i) * tb_bp D i f)]
   | d <- iota 0 6] | f <- iota 0 2] | j <- iota 0 1] | i <- iota 0 nf].
Lemma tb_extractE X : tb_extract p tau D X = accumulate (zeros F 2 6) [seq (loc 2 e.1.1 e.1.2, e.2) | e <- tbE X].
Proof.
rewrite /tb_extract tb_nf /tbE map_flatten -map_comp; apply: for_acc => i s _.
rewrite /comp map_flatten -map_comp; apply: for_acc => j t _.
rewrite /comp map_flatten -map_comp; apply: for_acc => f t1 _.
by rewrite /comp map_flatten -map_comp; apply: for_acc => d t2 _.
Qed.
Lemma extract_ends X (f : 'I_2) (c : 'I_6) : mget 2 (tb_extract p tau D X) f c =
  (N *m E^T *m stress p X + tau *: (E^T *m motion p X)) f c.
Proof.
rewrite /mget tb_extractE flat_entry //; last first.
  move=> e /flattenP[s1 /mapP[i _ ->]] /flattenP[s2 /mapP[j _ ->]] /flattenP[s3 /mapP[g hg2 ->]].
  move=> /flattenP[s4 /mapP[d _ ->]]; rewrite inE => /eqP -> /=.
  by move: hg2; rewrite mem_iota.
rewrite /tbE contrib2_loop mxE; have -> : (tau *: (E^T *m motion p X)) f c = tau * (E^T *m motion p X) f c by rewrite mxE.
rewrite ![in RHS]mxE mulr_sumr -big_split.
apply: eq_bigr => i _; rewrite contrib2_loop big_ord1 contrib2_loop (sum_ord1 (i := f)) => [|g hgf]; last first.
  by rewrite contrib2_loop big1 // => d _; rewrite contrib2_cons contrib2_nil xpair_eqE (negbTE hgf) addr0.
rewrite contrib2_loop (sum_ord1 (i := c)) => [|d hdc]; rewrite contrib2_cons contrib2_nil xpair_eqE add0n addr0.
  rewrite !eqxx !mxE (sum_ord1 (i := f)) => [|g hgf]; rewrite !mxE ?eqxx ?mulr1n; last first.
    by rewrite eq_sym -val_eqE (negbTE hgf) mulr0n mul0r.
  by rewrite /=; congr (_ + _); rewrite -mulrA; congr (_ * _); rewrite mulrC.
by rewrite (negbTE hdc) andbF.
Qed.
Lemma tb_final_loc X x : rect 2 6 x ->
  let loc := for_ 2 (fun i loc => for_ 6 (fun j loc =>
      upd loc i (upd (nth [::] loc i) j (mget 2 (tb_extract p tau D X) i j - tau * lambda_at loc i j))) loc) x in
  ends loc = beam_flux B tau (stress p X) (motion p X) (ends x).
Proof.
move=> [sx hx] loc.
pose R i (row : seq F) := for_ 6 (fun j r => upd r j (mget 2 (tb_extract p tau D X) i j - tau * nth 0 r j)) row.
have hR i (row : seq F) j : size row = 6%N -> (j < 6)%N -> nth 0 (R i row) j = mget 2 (tb_extract p tau D X) i j - tau * nth 0 row j.
  by move=> s6 hj; rewrite (@nth_for_upd _ 0 6 (fun j y => mget 2 (tb_extract p tau D X) i j - tau * y)) ?s6 // hj.
have -> : loc = mkseq (fun i => R i (nth [::] x i)) 2.
  move: (rows_loop (out := x) (R := R) (body := fun i loc => for_ 6 (fun j loc =>
    upd loc i (upd (nth [::] loc i) j (mget 2 (tb_extract p tau D X) i j - tau * lambda_at loc i j))) loc)).
  rewrite sx; apply => i o hi ho.
  have hio : (i < size o)%N by rewrite ho ?sx.
  rewrite /R; elim: 6%N => [|n IH]; first by rewrite upd_id.
  by rewrite !for_S IH /lambda_at nth_upd eqxx hio upd_upd.
apply/matrixP => f c; rewrite [LHS]mxE nth_mkseq // hR //; last exact: hx.
rewrite extract_ends /beam_flux scalerBr addrA [in RHS]mxE; congr (_ + _).
by rewrite !mxE.
Qed.

Lemma tb_mask_loop y : rect 2 6 y ->
  let z := for_ 2 (fun i out => if tb_dirichlet dirs D i then upd out i (nseq (size (nth [::] out i)) 0) else out) y in
  rect 2 6 z /\ ends z = masked dirs D (ends y).
Proof.
move=> [sy hy] z.
pose R i (row : seq F) := if tb_dirichlet dirs D i then nseq (size row) 0 else row.
have -> : z = mkseq (fun i => R i (nth [::] y i)) 2.
  move: (rows_loop (out := y) (R := R) (body := fun i out =>
    if tb_dirichlet dirs D i then upd out i (nseq (size (nth [::] out i)) 0) else out)).
  rewrite sy; apply => i o hi ho; rewrite /R; case: ifP => // _; rewrite upd_id //.
split.
  split; rewrite ?size_mkseq // => f hf; rewrite nth_mkseq // /R; case: ifP => _; rewrite ?size_nseq; exact: hy.
apply/matrixP => f c; rewrite !mxE nth_mkseq // /R /tb_dirichlet; case: ifP => // _.
by rewrite nth_nseq if_same.
Qed.
Lemma tb_lambdaP (x : seq (seq F)) : tb_lambda_ok x <-> is_trace 2 6 x.
Proof. by rewrite /tb_lambda_ok; split=> [/andP[/eqP ? ?]|[-> ->]]. Qed.
Lemma tb_flux_ok (t : bool) x y : is_trace 2 6 x -> is_trace 2 6 y -> exists q u z, [/\
  tb_flux gesv p dirs tau D t x y = Ok z, is_trace 2 6 z,
  beam_eq B k tau q u (ends x *m frame2 D) (t%:R *: load_q dirs p D) (t%:R *: load_u dirs p tau D) &
  ends z = masked dirs D (ends y + beam_flux B tau q u (ends x *m frame2 D) *m (frame2 D)^T)].
Proof.
move=> hx hy; rewrite /tb_flux !(iffRL (tb_lambdaP _)) // [andb _ _]/=.
have [X [hX sX eX]] := tb_local t (tb_node_to_edge D x).
rewrite hX [obind _ _]/=; rewrite ends_n2e in eX.
have hn := n2e_rect D x; have := tb_final_loc X hn; rewrite /= ends_n2e.
move: (for_ 2 _ (tb_node_to_edge D x)) => l el.
have hr := iffLR (is_trace_rect y) hy.
have [hz ez] := tb_mask_loop (e2n_rect D l hr).
exists (stress p X), (motion p X); eexists; split; [by reflexivity | exact/is_trace_rect | exact: eX |].
by rewrite ez (ends_e2n D l hr) el.
Qed.
Lemma tb_coeffs_ofE X c : (c < 6)%N -> tb_coeffs_of p X c = component (motion p X) c.
Proof.
move=> hc; rewrite /tb_coeffs_of tb_nf; apply: (@eq_from_nth _ 0) => [|i].
  by rewrite size_map size_enum_ord size_for_upd size_nseq.
rewrite size_for_upd size_nseq => hi.
rewrite (@nth_for_upd _ 0 nf (fun i _ => nth 0 X ((6 + c) * nf + i))) ?size_nseq // hi.
rewrite (nth_map (Ordinal hi)) ?size_enum_ord // mxE inordK //.
by rewrite nth_enum_ord.
Qed.
Lemma tb_errors_ok x : is_trace 2 6 x -> exists q u,
  beam_eq B k tau q u (ends x *m frame2 D) (load_q dirs p D) (load_u dirs p tau D) /\
  tb_errors gesv p dirs tau D x = Ok [:: \sum_(c < 3) tb_diffsq D c (component u c)].
Proof.
move=> hx; rewrite /tb_errors (iffRL (tb_lambdaP _)) //.
have [X [hX sX eX]] := tb_local true (tb_node_to_edge D x).
rewrite hX [omap _ _]/= ends_n2e !scale1r in eX *; exists (stress p X), (motion p X); split=> //.
congr (Ok [:: _]); rewrite !big_ord_recr big_ord0 /= /for_ /= !tb_coeffs_ofE //.
Qed.

Lemma add_loop h n (w : nat -> nat -> F) res : rect h n res ->
  let z := for_ h (fun d res => for_ n (fun (q : nat) res => add_at2 res d q (w d q)) res) res in
  rect h n z /\ forall d (q : nat), (d < h)%N -> (q < n)%N -> get2 z d q = get2 res d q + w d q.
Proof.
move=> hr z.
have -> : z = acc2 res (flatten [seq flatten [seq [:: ((d, q), w d q)] | q <- iota 0 n] | d <- iota 0 h]).
  by apply: for_acc2 => d t _; apply: for_acc2 => q t1 _.
split; first exact: rect_acc.
move=> d q hd1 hq; rewrite (get2_acc _ hr) // contrib2_loop; congr (_ + _).
rewrite (sum_ord1 (i := Ordinal hd1)) => [|e he]; last first.
  by rewrite contrib2_loop big1 // => j _; rewrite contrib2_cons contrib2_nil xpair_eqE (negbTE he) addr0.
rewrite contrib2_loop (sum_ord1 (i := Ordinal hq)) => [|e he]; rewrite contrib2_cons contrib2_nil xpair_eqE addr0 ?eqxx //.
by rewrite (negbTE he) andbF.
Qed.
Lemma set_loop h n (w : nat -> nat -> F) res : rect h n res ->
  let z := for_ h (fun d res => for_ n (fun (q : nat) res => upd res d (upd (nth [::] res d) q (w d q))) res) res in
  rect h n z /\ forall d (q : nat), (d < h)%N -> (q < n)%N -> get2 z d q = w d q.
Proof.
move=> [sr hr] z.
pose R d (row : seq F) := for_ n (fun (q : nat) r => upd r (0 + q)%N (w d q)) row.
have -> : z = mkseq (fun d => R d (nth [::] res d)) h.
  move: (rows_loop (out := res) (R := R) (body := fun d res => for_ n (fun (q : nat) res =>
    upd res d (upd (nth [::] res d) q (w d q))) res)).
  rewrite sr; apply => d o hd1 ho; apply: (row_loop n 0 (w d)); by rewrite ho.
have sR d row : size (R d row) = size row by rewrite /R size_row.
split; first by split; rewrite ?size_mkseq // => f hf; rewrite nth_mkseq // sR hr.
move=> d q hd1 hq; rewrite /get2 nth_mkseq // nth_row ?hr // ?add0n ?subn0 //.
by rewrite hq.
Qed.
Lemma tb_bulk_ok pts x : exists q u z, [/\
  beam_eq B k tau q u (ends x *m frame2 D) (load_q dirs p D) (load_u dirs p tau D),
  tb_bulk_values gesv p dirs tau D pts x = Ok z, is_trace 3 (size pts) z &
  forall (d : 'I_3) i, (i < size pts)%N ->
    nth 0 (nth [::] z d) i = \sum_(c < 3) frame D d c * tb_eval D pts (component u c) i].
Proof.
have [X [hX sX eX]] := tb_local true (tb_node_to_edge D x).
rewrite ends_n2e !scale1r in eX; exists (stress p X), (motion p X).
have om (T S : Type) (f : T -> S) v : omap f (Ok v) = Ok (f v) by [].
rewrite /tb_bulk_values hX om; have -> : hc_pow 1 (size pts) = size pts by rewrite hc_powE expn1.
set n := size pts; set vals := mkseq _ 3.
have vE c i : (c < 3)%N -> (i < n)%N -> nth 0 (nth [::] vals c) i = tb_eval D pts (component (motion p X) c) i.
  by move=> hc hi; rewrite /vals nth_mkseq // nth_mkseq // tb_coeffs_ofE //; lia.
have [] := @set_loop 3 n (fun d (q : nat) => nth 0 (nth [::] vals 0) q * tb_tangent D d) (nseq 3 (nseq n 0)) (rect_nseq _ _ _).
move: (for_ 3 _ (nseq 3 (nseq n 0))) => r0 hr0 e0.
have [] := add_loop (fun d (q : nat) => nth 0 (nth [::] vals 1) q * tb_outer D 0 d) hr0.
move: (for_ 3 _ r0) => r1 hr1 e1.
have [] := add_loop (fun d (q : nat) => nth 0 (nth [::] vals 2) q * tb_outer D 1 d) hr1.
move: (for_ 3 _ r1) => r2 hr2 e2.
exists r2; split=> //.
  case: hr2 => s2 h2; split=> //; apply/allP => l /(nthP [::])[f]; rewrite s2 => hf <-; by rewrite h2.
move=> d i hi; rewrite -/(get2 r2 d i) e2 // e1 // e0 // !vE //.
rewrite !big_ord_recr big_ord0 /= add0r !frameE /=; congr (_ + _ + _); exact: mulrC.
Qed.
Lemma tb_flux_abort t x y : ~ (is_trace 2 6 x /\ is_trace 2 6 y) -> tb_flux gesv p dirs tau D t x y = Abort.
Proof.
move=> h; rewrite /tb_flux; case: ifP => // /andP[hx hy]; case: h; split; exact/tb_lambdaP.
Qed.
End Flux.

(** What does not depend on the integrals. *)
Section Checks.
Variable F : realFieldType.
Variable gesv : nat -> nat -> seq F -> seq F -> sv_result F.
Variables (p : nat) (dirs : seq nat) (tau : F) (D : tb_data F).
Lemma tb_errors_abort x : ~ is_trace 2 6 x -> tb_errors gesv p dirs tau D x = Abort.
Proof. by move=> h; rewrite /tb_errors; case: ifP => // /tb_lambdaP. Qed.
Lemma tb_enough : tb_extra_fits D = (if tb_extra D is Some e then (12 <= size e)%N else true).
Proof. by rewrite /tb_extra_fits; case: (tb_extra D). Qed.
Lemma tb_few e : tb_extra D = Some e -> (size e < 12)%N -> ~~ tb_extra_fits D.
Proof. by rewrite tb_enough => -> h; rewrite -ltnNge. Qed.
Lemma tb_short (t : bool) x y pts : ~~ tb_extra_fits D -> is_trace 2 6 x -> is_trace 2 6 y ->
  [/\ tb_flux gesv p dirs tau D t x y = UB, tb_errors gesv p dirs tau D x = UB & tb_bulk_values gesv p dirs tau D pts x = UB].
Proof.
move=> hs hx hy; have hd rhs : tb_divide gesv p tau D rhs = UB by rewrite /tb_divide (negbTE hs).
have hl (u : bool) l : tb_solve_local_problem gesv p dirs tau D u l = UB.
  by case: u; rewrite /tb_solve_local_problem; exact: hd.
split; last by rewrite /tb_bulk_values (hl true).
  by rewrite /tb_flux !(iffRL (tb_lambdaP _)) // [andb _ _]/= hl.
by rewrite /tb_errors (iffRL (tb_lambdaP _)) // (hl true).
Qed.
Lemma tb_lapack (t : bool) x y pts : (forall n nc (A b : seq F), sv_info (gesv n nc A b) = false) ->
  tb_extra_fits D -> is_trace 2 6 x -> is_trace 2 6 y ->
  [/\ tb_flux gesv p dirs tau D t x y = Abort, tb_errors gesv p dirs tau D x = Abort &
      tb_bulk_values gesv p dirs tau D pts x = Abort].
Proof.
move=> hi hs hx hy.
have hd rhs : tb_divide gesv p tau D rhs = Abort by rewrite /tb_divide hs /solve_const /solve_mut hi.
have hl (u : bool) l : tb_solve_local_problem gesv p dirs tau D u l = Abort.
  by case: u; rewrite /tb_solve_local_problem; exact: hd.
split; last by rewrite /tb_bulk_values (hl true).
  by rewrite /tb_flux !(iffRL (tb_lambdaP _)) // [andb _ _]/= hl.
by rewrite /tb_errors (iffRL (tb_lambdaP _)) // (hl true).
Qed.
End Checks.
