(** The damped Newton iteration of the eigenvalue drivers. *)
From mathcomp Require Import all_ssreflect all_algebra.
From mathcomp Require Import zify algebra_tactics.ring.
From Verif Require Import M_Base L_Base M_Drivers S_Drivers.
Set Implicit Arguments. Unset Strict Implicit. Unset Printing Implicit Defensive.
Import Order.TTheory GRing.Theory Num.Theory.
Local Open Scope ring_scope.

Local Arguments n_newton_steps : simpl never.
Local Arguments max_halvings : simpl never.
Section Newton.
Variables (F : realFieldType) (norm : seq F -> F) (gmres : seq F -> seq F -> F -> seq F * nat).
Variable res : seq F -> outcome (seq F).
Hypothesis norm0 : forall v, 0 <= norm v.
Implicit Types (x u r : seq F).
Notation al := (alpha F).
Notation be := (beta F).
Notation gm := (gamma_min F).
Notation search := (line_search norm res).
Notation nstep := (newton_step norm gmres res).
Notation loop := (newton_loop norm gmres res).
Lemma be_gt0 : 0 < be. Proof. by rewrite invr_gt0 ltr0n. Qed.
Lemma gm_gt0 : 0 < gm. Proof. by rewrite invr_gt0 exprn_gt0 // ltr0n. Qed.
Lemma al_gt0 : 0 < al. Proof. by rewrite invr_gt0 ltr0n. Qed.
Lemma be_lt1 : be < 1. Proof. by rewrite invf_lt1 ?ltr1n ?ltr0n. Qed.
Lemma gm_lt1 : gm < 1.
Proof. by rewrite invf_lt1 ?exprn_gt0 ?ltr0n // exprn_egt1 // ltr1n. Qed.
Lemma al_lt1 : al < 1. Proof. by rewrite invf_lt1 ?ltr1n ?ltr0n. Qed.
(** The smallest factor that a step may have. *)
Definition gamma_low : F := be * gm.
Lemma low_gt0 : 0 < gamma_low. Proof. by rewrite mulr_gt0 ?be_gt0 ?gm_gt0. Qed.
Lemma low_lt1 : gamma_low < 1.
Proof. by rewrite -[1]mulr1 ltr_pmul ?ltW ?be_gt0 ?gm_gt0 ?be_lt1 ?gm_lt1. Qed.
Lemma halvings : be ^+ 14 < gm.
Proof.
rewrite exprVn ltf_pinv ?posrE ?exprn_gt0 ?ltr0n // (exprD _ 4 10) (exprD _ 1 3) expr1.
apply: ltr_pmul; rewrite ?exprn_ge0 ?ler0n // -?natrX ltr_nat //.
Qed.

(** A result of the line search is a step with a factor that is at least gamma_low. *)
Lemma searchP fuel x u nold g st st' : 0 <= nold -> gamma_low <= g <= 1 ->
  step x u g = Ok st.1 -> res st.1 = Ok st.2 -> search fuel x u nold g st = Ok (Some st') ->
  exists g', [/\ gamma_low <= g' <= 1, step x u g' = Ok st'.1, res st'.1 = Ok st'.2 & norm st'.2 <= (1 - al * g') * nold].
Proof.
move=> n0; elim: fuel g st => [|f IH] g st hg h1 h2 /=; (case: ifP => hn; first by move=> [<-]; exists g) => //.
case: ifP => // /negbT; rewrite -leNgt => hl.
case e1: (step _ _ _) => [x'|||] //=; case e2: (res x') => [r'|||] //=.
have g0 : 0 <= g by rewrite (le_trans (ltW gm_gt0)).
have g1 : be * g <= g by rewrite ler_pimull // ltW // be_lt1.
have g2 : gamma_low <= be * g <= 1.
  by case/andP: hg => _ hg; rewrite /gamma_low ler_wpmul2l ?(ltW be_gt0) //= (le_trans g1).
exact: IH.
Qed.
Lemma searchS f x u nold g st : search f.+1 x u nold g st =
  if norm st.2 <= (1 - al * g) * nold then Ok (Some st) else if g < gm then Throw
  else obind (step x u (be * g)) (fun x' => obind (res x') (fun r => search f x u nold (be * g) (x', r))).
Proof. by []. Qed.
(** The line search ends. *)
Lemma search_ends f x u nold g st : be ^+ f * g < gm -> search f.+1 x u nold g st <> Ok None.
Proof.
elim: f g st => [|f IH] g st h; rewrite searchS; case: ifP => // _; first by rewrite expr0 mul1r in h; rewrite h.
case: ifP => // _; case: (step _ _ _) => [x'|||] //.
rewrite -[obind (Ok _) _]/(obind (res x') _); case: (res x') => [r'|||] //.
by apply: IH; rewrite mulrA -exprSr.
Qed.
Lemma search_ub f x u nold g st : (forall x, res x <> UB) -> search f x u nold g st <> UB.
Proof.
move=> hr; elim: f g st => [|f IH] g st /=; case: ifP => // _; case: ifP => // _.
rewrite {1}/step /np_subtract; case: ifP => // _ /=; case e2: (res _) => [r'|||] //=.
by case: (hr _ e2).
Qed.
Lemma step1 x u : np_subtract x u = step x u 1.
Proof. by rewrite /step; congr np_subtract; rewrite /np_scale -[LHS]map_id; apply: eq_map => a; rewrite mulr1. Qed.
Lemma nstepP x r st : nstep x r = Ok st -> exists u g, [/\ gmres x r (scaling_fac F * norm r) = (u, 0%N),
  gamma_low <= g <= 1, step x u g = Ok st.1, res st.1 = Ok st.2 & norm st.2 <= (1 - al * g) * norm r].
Proof.
rewrite /newton_step; case eg: (gmres _ _ _) => [u k]; case: ifP => // /negbFE/eqP k0; subst k.
case e1: (np_subtract _ _) => [x'|||] //; rewrite -[obind (Ok _) _]/(obind (res x') _); case e2: (res x') => [r'|||] //.
rewrite -[obind (Ok _) _]/(obind (line_search norm res max_halvings x u (norm r) 1 (x', r')) _).
case e3: (line_search norm res max_halvings x u (norm r) 1 (x', r')) => [[s|]|||] // [<-].
have [|||g [h1 h2 h3 h4]] := searchP (norm0 r) _ _ _ e3; rewrite ?(ltW low_lt1) ?lexx ?low_gt0 //.
  by rewrite -step1.
by exists u, g.
Qed.
Lemma nstep_ub x r : (forall x, res x <> UB) -> nstep x r <> UB.
Proof.
move=> hr; rewrite /newton_step; case eg: (gmres _ _ _) => [u k]; case: ifP => // _.
rewrite /np_subtract; case: ifP => // _; rewrite [obind (Ok _) _]/=.
case e2: (res _) => [r'|||] //; last by case: (hr _ e2).
rewrite -[obind (Ok _) _]/(obind (line_search norm res max_halvings x u (norm r) 1 (_, r')) _).
case e3: (line_search norm res max_halvings x u (norm r) 1 (_, r')) => [[s|]|||] //.
  by case: (search_ends _ e3); rewrite mulr1 halvings.
by case: (search_ub hr e3).
Qed.
Let rho : F := 1 - al * gamma_low.
Lemma rho_ge0 : 0 <= rho.
Proof. by rewrite subr_ge0 mulr_ile1 ?ltW ?al_gt0 ?low_gt0 ?al_lt1 ?low_lt1. Qed.
Lemma nstep_less x r st : nstep x r = Ok st -> norm st.2 <= rho * norm r.
Proof.
move=> /nstepP [u [g [_ /andP [hg _] _ _ hn]]]; apply: (le_trans hn).
by apply: ler_wpmul2r => //; rewrite ler_add2l ler_opp2 ler_wpmul2l // ltW // al_gt0.
Qed.
Lemma loopP n x r st : res x = Ok r -> loop n x r = Ok st -> exists k, [/\ ((0 < n) <= k <= n)%N, res st.1 = Ok st.2,
  norm st.2 <= rho ^+ k * norm r & (norm st.2 < norm_exact F) || (k == n)].
Proof.
elim: n x r => [|n IH] x r hr /=; first by move=> [<-]; exists 0%N; rewrite expr0 mul1r orbT.
case e: (nstep x r) => [[x' r']|||] //=; have hl := nstep_less e; have [u [g [_ _ _ h2 _]]] := nstepP e.
rewrite /= in hl h2; case: ifP => hn; first by move=> [<-]; exists 1%N; rewrite /= hn h2 expr1.
move=> /(IH _ _ h2) [k [h3 h4 h5 h6]]; exists k.+1; split; rewrite ?eqSS //; first by case/andP: h3 => _ h3; rewrite /= ltnS.
by apply: (le_trans h5); rewrite exprSr -mulrA ler_wpmul2l // exprn_ge0 // rho_ge0.
Qed.
Lemma newtonE x0 r0 : res x0 = Ok r0 -> newton norm gmres res x0 =
  obind (loop n_newton_steps x0 r0) (fun st => if norm_exact F <= norm st.2 then Throw else Ok st.1).
Proof. by rewrite /newton => ->. Qed.
Lemma newton_res x0 x : newton norm gmres res x0 = Ok x -> exists r0, res x0 = Ok r0.
Proof. by rewrite /newton; case: (res x0) => // r0 _; exists r0. Qed.
Lemma newtonP x0 x : newton norm gmres res x0 = Ok x -> exists r0 r k, [/\ res x0 = Ok r0, res x = Ok r,
  norm r < norm_exact F, (0 < k <= n_newton_steps)%N & norm r <= rho ^+ k * norm r0].
Proof.
move=> h; have [r0 e0] := newton_res h; move: h; rewrite (newtonE e0).
case e: (newton_loop norm gmres res n_newton_steps x0 r0) => [st|||] //; rewrite [obind _ _]/=; case: ifP => // hn [<-].
have [k [h1 h2 h3 _]] := loopP e0 e; exists r0, st.2, k; split=> //.
by rewrite ltNge hn.
Qed.
Lemma newton_ub x0 : (forall x, res x <> UB) -> newton norm gmres res x0 <> UB.
Proof.
move=> hr; case e0: (res x0) => [r0|||]; [rewrite (newtonE e0) | by rewrite /newton e0 .. | by case: (hr _ e0)].
suff H n x r : loop n x r <> UB by case e: (newton_loop norm gmres res n_newton_steps x0 r0) => [st|||] //; [rewrite [obind _ _]/=; case: ifP|case: (H _ _ _ e)].
elim: n x r => [|n IH] x r //=; case e: (nstep x r) => [[x' r']|||] //=; last by case: (nstep_ub hr e).
by case: ifP.
Qed.
(** What every step preserves holds for the result. *)
Lemma newton_inv (Q : seq F -> Prop) x0 x : (forall x r t u k g x', Q x -> res x = Ok r -> gmres x r t = (u, k) -> step x u g = Ok x' -> Q x') ->
  Q x0 -> newton norm gmres res x0 = Ok x -> Q x.
Proof.
move=> hQ q0; move=> h; have [r0 e0] := newton_res h; move: h; rewrite (newtonE e0).
case e: (newton_loop norm gmres res n_newton_steps x0 r0) => [st|||] //; rewrite [obind _ _]/=; case: ifP => // _ [<-].
elim: n_newton_steps x0 r0 q0 e0 e => [|n IH] y r qy hr /=; first by move=> [<-].
case e: (nstep y r) => [[x' r']|||] //=; have [u [g [e1 _ e2 h2 _]]] := nstepP e.
have q' := hQ _ _ _ _ _ _ _ qy hr e1 e2; case: ifP => _; first by move=> [<-].
exact: IH.
Qed.
(** If the full first step solves the problem, the driver returns it. *)
Lemma newton_one x0 r0 u x1 r1 : res x0 = Ok r0 -> gmres x0 r0 (scaling_fac F * norm r0) = (u, 0%N) ->
  np_subtract x0 u = Ok x1 -> res x1 = Ok r1 -> norm r1 = 0 -> newton norm gmres res x0 = Ok x1.
Proof.
move=> h0 hg h1 h2 h3; have e : nstep x0 r0 = Ok (x1, r1).
  rewrite /newton_step hg eqxx h1 [obind (Ok _) _]/= h2 [obind (Ok _) _]/= /max_halvings /line_search h3.
  by rewrite mulr_ge0 // mulr1 subr_ge0 ltW // al_lt1.
have ex : 0 < norm_exact F by rewrite invr_gt0 exprn_gt0 // ltr0n.
by rewrite /newton h0 /n_newton_steps /newton_loop [obind (Ok _) _]/= e [obind (Ok _) _]/= h3 ex /= h3 leNgt ex.
Qed.
Lemma newton_fails x0 r0 : res x0 = Ok r0 -> (gmres x0 r0 (scaling_fac F * norm r0)).2 != 0%N ->
  newton norm gmres res x0 = Throw.
Proof.
by move=> h0; rewrite /newton h0 /n_newton_steps /= /newton_step; case: (gmres _ _ _) => u k /= ->.
Qed.
End Newton.
