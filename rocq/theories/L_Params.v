(** The parameter classes: derivatives along a hyperedge. *)
From Coq Require Import Reals Lra.
From mathcomp Require Import all_ssreflect.
From Verif Require Import M_Base L_Base M_Params S_Params.
Set Implicit Arguments. Unset Strict Implicit. Unset Printing Implicit Defensive.
Local Open Scope R_scope.

Lemma rsum_ext n f g : (forall d, (d < n)%N -> f d = g d) -> rsum n f = rsum n g.
Proof. by elim: n => //= n IH h; rewrite IH ?h // => d hd; apply: h; apply: ltnW. Qed.
Lemma rsum0 n f : (forall d, (d < n)%N -> f d = 0) -> rsum n f = 0.
Proof. by elim: n => //= n IH h; rewrite IH ?h //; [lra|move=> d hd; apply: h; apply: ltnW]. Qed.
Lemma rsumD n f g : rsum n (fun d => f d + g d) = rsum n f + rsum n g.
Proof. elim: n => /= [|n ->]; lra. Qed.
Lemma rsumM n c f : rsum n (fun d => c * f d) = c * rsum n f.
Proof. elim: n => /= [|n ->]; lra. Qed.
Lemma rsum_const n c : rsum n (fun _ => c) = INR n * c.
Proof. by elim: n => [|n IH]; rewrite ?S_INR /= ?IH; lra. Qed.
Lemma rsum_swap n m f : rsum n (fun d => rsum m (fun c => f d c)) = rsum m (fun c => rsum n (fun d => f d c)).
Proof.
elim: n => /= [|n IH]; first by rewrite rsum0.
by rewrite IH rsumD.
Qed.
Lemma for_rsum n f : for_ n (fun d r => r + f d) 0 = rsum n f.
Proof. by elim: n => [|n IH]; rewrite ?for_0 ?for_S ?IH. Qed.
Lemma for_rsub n f : for_ n (fun d r => r - f d) 0 = - rsum n f.
Proof. by elim: n => [|n IH]; rewrite ?for_0 ?for_S ?IH /=; lra. Qed.

(** Derivatives of functions of one number. *)
Lemma dlim_ext f g x l : (forall s, f s = g s) -> derivable_pt_lim g x l -> derivable_pt_lim f x l.
Proof. by move=> h hg eps he; have [d hd] := hg eps he; exists d => h0 n0 hl; rewrite !h; apply: hd. Qed.
Lemma dlim_val f x l l' : l = l' -> derivable_pt_lim f x l -> derivable_pt_lim f x l'.
Proof. by move=> ->. Qed.
Lemma dlim_rsum n (f : nat -> R -> R) x l : (forall c, (c < n)%N -> derivable_pt_lim (f c) x (l c)) ->
  derivable_pt_lim (fun s => rsum n (fun c => f c s)) x (rsum n l).
Proof.
elim: n => /= [|n IH] h; first exact: derivable_pt_lim_const.
apply: (@derivable_pt_lim_plus (fun s => rsum n (fun c => f c s)) (f n)); last by apply: h.
by apply: IH => c hc; apply: h; apply: ltnW.
Qed.
Lemma dlim_scal k f x l : derivable_pt_lim f x l -> derivable_pt_lim (fun s => k * f s) x (k * l).
Proof. exact: derivable_pt_lim_scal. Qed.
Lemma dlim_mult f g x l m : derivable_pt_lim f x l -> derivable_pt_lim g x m ->
  derivable_pt_lim (fun s => f s * g s) x (l * g x + f x * m).
Proof. exact: derivable_pt_lim_mult. Qed.
Lemma dlim_plus f g x l m : derivable_pt_lim f x l -> derivable_pt_lim g x m ->
  derivable_pt_lim (fun s => f s + g s) x (l + m).
Proof. exact: derivable_pt_lim_plus. Qed.
Lemma dlim_opp f x l : derivable_pt_lim f x l -> derivable_pt_lim (fun s => - f s) x (- l).
Proof. exact: derivable_pt_lim_opp. Qed.
Lemma dlim_sin f x l : derivable_pt_lim f x l -> derivable_pt_lim (fun s => sin (f s)) x (cos (f x) * l).
Proof. by move=> h; apply: (@derivable_pt_lim_comp f sin) => //; apply: derivable_pt_lim_sin. Qed.
Lemma dlim_cos f x l : derivable_pt_lim f x l -> derivable_pt_lim (fun s => cos (f s)) x (- sin (f x) * l).
Proof. by move=> h; apply: (@derivable_pt_lim_comp f cos) => //; apply: derivable_pt_lim_cos. Qed.
Lemma dlim_shift k x : derivable_pt_lim (fun s => k + s) x 1.
Proof.
apply: (@dlim_val _ _ (0 + 1)); first lra.
by apply: (dlim_plus (derivable_pt_lim_const k x) (derivable_pt_lim_id x)).
Qed.

Section Edge.
Variables (n : nat) (a : nat -> R) (e : nat -> nat -> R).
Notation X := (chart n a e).
Lemma subst_same xi d : forall k, subst xi d (xi d) k = xi k.
Proof. by move=> k; rewrite /subst; case: eqP => // ->. Qed.
Lemma chart_ext xi xi' c : (forall k, xi k = xi' k) -> X xi c = X xi' c.
Proof. by move=> h; congr (_ + _); apply: rsum_ext => k _; rewrite h. Qed.
Lemma chart_same xi d c : X (subst xi d (xi d)) c = X xi c.
Proof. by apply: chart_ext; apply: subst_same. Qed.
Lemma rsum_subst m xi d s (g : nat -> R) : rsum m (fun k => subst xi d s k * g k) =
  rsum m (fun k => xi k * g k) + (if (d < m)%N then (s - xi d) * g d else 0).
Proof.
elim: m => /= [|m ->]; first lra.
have -> : (d < m.+1)%N = (d == m) || (d < m)%N by rewrite ltnS leq_eqVlt.
rewrite /subst; have [->|h] := eqVneq m d; first by rewrite ltnn /=; lra.
by rewrite /=; lra.
Qed.
Lemma chart_subst xi d s c : (d < n)%N -> X (subst xi d s) c = X xi c - xi d * e d c + e d c * s.
Proof. by move=> hd; rewrite /chart rsum_subst hd; lra. Qed.
Lemma chart_deriv xi d c : (d < n)%N -> derivable_pt_lim (fun s => X (subst xi d s) c) (xi d) (e d c).
Proof.
move=> hd; apply: (@dlim_ext _ (fun s => (X xi c - xi d * e d c) + e d c * s)); first by move=> s; rewrite chart_subst.
apply: (@dlim_val _ _ (0 + e d c * 1)); first lra.
by apply: (dlim_plus (derivable_pt_lim_const _ _) (dlim_scal (e d c) (derivable_pt_lim_id _))).
Qed.
(** f(k x_c) along the hyperedge. *)
Lemma sin_deriv k b xi d c : (d < n)%N -> derivable_pt_lim (fun s => sin (k * (X (subst xi d s) c + b))) (xi d) (k * e d c * cos (k * (X xi c + b))).
Proof.
move=> hd; have := dlim_sin (dlim_scal k (dlim_plus (chart_deriv xi c hd) (derivable_pt_lim_const b (xi d)))).
by rewrite /fct_cte chart_same; apply: dlim_val; ring.
Qed.
Lemma cos_deriv k b xi d c : (d < n)%N -> derivable_pt_lim (fun s => cos (k * (X (subst xi d s) c + b))) (xi d) (- (k * e d c * sin (k * (X xi c + b)))).
Proof.
move=> hd; have := dlim_cos (dlim_scal k (dlim_plus (chart_deriv xi c hd) (derivable_pt_lim_const b (xi d)))).
by rewrite /fct_cte chart_same; apply: dlim_val; ring.
Qed.
Lemma sqr_deriv b xi d c : (d < n)%N -> derivable_pt_lim (fun s => (X (subst xi d s) c + b) * (X (subst xi d s) c + b)) (xi d) (2 * ((X xi c + b) * e d c)).
Proof.
move=> hd; have h := dlim_plus (chart_deriv xi c hd) (derivable_pt_lim_const b (xi d)).
by have := dlim_mult h h; rewrite /fct_cte chart_same; apply: dlim_val; ring.
Qed.
End Edge.
