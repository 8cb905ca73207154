(** Proofs for P_Drivers: the normalised start vector of the Newton drivers. *)
From mathcomp Require Import all_ssreflect all_algebra.
From Verif Require Import M_Base M_Drivers S_Drivers L_DriversNewt.
Set Implicit Arguments. Unset Strict Implicit. Unset Printing Implicit Defensive.
Import GRing.Theory Num.Theory.
Local Open Scope ring_scope.

Section Normalise.
Variables (F : realFieldType) (norm : seq F -> F).
Hypothesis hnorm : forall v, norm v ^+ 2 = dot (size v) v v.
Implicit Types x y : seq F.
Lemma scale_rcons x e (c : F) : np_scale (rcons x e) c = rcons (np_scale x c) (e * c).
Proof. by rewrite /np_scale map_rcons. Qed.
Lemma dot_rcons0 x : dot (size (rcons x 0)) (rcons x 0) (rcons x 0) = dot (size x) x x.
Proof.
rewrite /dot size_rcons big_ord_recr /= nth_rcons ltnn eqxx mulr0 addr0.
by apply: eq_bigr => i _; rewrite nth_rcons ltn_ord.
Qed.
Lemma dot_times (c : F) x : dot (size x) (times c x) (times c x) = c ^+ 2 * dot (size x) x x.
Proof.
rewrite /dot big_distrr /=; apply: eq_bigr => i _.
by rewrite (nth_map 0) // mulrACA expr2.
Qed.
Lemma dot_pos x : has (fun a => a != 0) x -> 0 < dot (size x) x x.
Proof.
move=> /(has_nthP 0)[i hi ha]; rewrite /dot (bigD1 (Ordinal hi)) //=.
apply: ltr_paddr; last by rewrite -expr2 exprn_even_gt0.
by apply: sumr_ge0 => j _; rewrite -expr2 exprn_even_ge0.
Qed.
Lemma normaliseE x eig (c := (norm (rcons x 0))^-1) : normalise norm (rcons x eig) = rcons (times c x) eig.
Proof.
rewrite /normalise last_rcons set_rcons scale_rcons set_rcons; congr rcons.
by rewrite /np_scale /times /c; apply: eq_map => a; rewrite mulrC div1r.
Qed.
Lemma normaliseP x eig : has (fun a => a != 0) x -> exists c : F, [/\ c != 0,
  normalise norm (rcons x eig) = rcons (times c x) eig & dot (size x) (times c x) (times c x) = 1].
Proof.
move=> hx; have h2 : norm (rcons x 0) ^+ 2 = dot (size x) x x by rewrite hnorm dot_rcons0.
have h0 : norm (rcons x 0) != 0 by rewrite -sqrf_eq0 h2; exact: lt0r_neq0 (dot_pos hx).
exists (norm (rcons x 0))^-1; split; [by rewrite invr_eq0 | exact: normaliseE |].
by rewrite dot_times -h2 exprVn mulVf // sqrf_eq0.
Qed.
(** The last row of the residual vanishes, whatever the other rows are. *)
Lemma normalise_row (flux : seq F -> F -> outcome (seq F)) x eig r r' : has (fun a => a != 0) x ->
  flux (normalise norm (rcons x eig)) eig = Ok (rcons r r') ->
  eval_residual norm flux (normalise norm (rcons x eig)) = Ok (rcons r 0).
Proof.
move=> /normaliseP-/(_ eig)[c [c0 -> h1]] hf; rewrite /eval_residual last_rcons hf /=; congr Ok.
rewrite !set_rcons; congr rcons; rewrite hnorm dot_rcons0 /times size_map -/(times c x).
by rewrite h1 subrr.
Qed.
(** The start vector is not changed by a second call. *)
Lemma normalise_again x eig : (forall v, 0 <= norm v) -> has (fun a => a != 0) x ->
  normalise norm (normalise norm (rcons x eig)) = normalise norm (rcons x eig).
Proof.
move=> n0 hx; have [c [c0 -> h1]] := normaliseP eig hx; rewrite normaliseE; congr rcons.
have h : norm (rcons (times c x) 0) ^+ 2 = 1 by rewrite hnorm dot_rcons0 {1}/times size_map.
have -> : norm (rcons (times c x) 0) = 1.
  by move/eqP: h; rewrite sqrf_eq1 => /orP[/eqP//|/eqP e]; have := n0 (rcons (times c x) 0); rewrite e oppr_ge0 ler10.
by rewrite invr1 /times -map_comp; apply: eq_map => a /=; rewrite mul1r.
Qed.
End Normalise.
Lemma norm_example (F : rcfType) (v : seq F) : Num.sqrt (dot (size v) v v) ^+ 2 = dot (size v) v v /\ 0 <= Num.sqrt (dot (size v) v v).
Proof.
split; last exact: sqrtr_ge0.
by apply: sqr_sqrtr; apply: sumr_ge0 => i _; rewrite -expr2 exprn_even_ge0.
Qed.
