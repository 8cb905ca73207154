(** Proofs for P_TimeDrivers. *)
From mathcomp Require Import all_ssreflect all_algebra.
From Verif Require Import M_Base L_Base M_Drivers M_TimeDrivers S_TimeDrivers.
Set Implicit Arguments. Unset Strict Implicit. Unset Printing Implicit Defensive.
Import GRing.Theory.
Local Open Scope ring_scope.

Section Loop.
Variables (F : realFieldType) (D : Type) (N : nat) (h : F).
Variables (flux residual : F -> D -> seq F -> outcome (seq F)) (set : F -> D -> seq F -> outcome D).
Variable solve : (seq F -> outcome (seq F)) -> seq F -> outcome (seq F).
Notation after := (loop_after N h flux residual set solve).
Notation before := (loop_before N h flux residual set solve).
Notation sstep := (solve_step N h flux residual solve).

(** set_data at the end or at the beginning: the same up to the last call. *)
Lemma after_before n st : (0 < n)%N ->
  after n st = obind (before n st) (fun st' => obind (set (n%:R * h) st'.2 st'.1) (fun d => Ok (st'.1, d))).
Proof.
case: n => // n _; elim: n => [|n IH].
  rewrite /loop_after /loop_before !foroS /=; case: (sstep 0 st.2) => //=.
rewrite /loop_after foroS -/(after n.+1 st) IH /loop_before (foroS n.+1) -/(before n.+1 st).
case: (before n.+1 st) => //= -[x d] /=; case: (set _ d x) => //= d'.
by case: (sstep n.+1 d') => //= x'; case: (set _ d' x').
Qed.

Hypothesis hk : krylov solve.
Lemma scale_opp (r : seq F) : np_scale r (-1) = [seq - a | a <- r].
Proof. by apply: eq_map => a; rewrite mulrN1. Qed.
Lemma sstepP k d x : sstep k d = Ok x -> exists r, [/\ residual (k.+1%:R * h) d (nseq N 0) = Ok r,
  flux 0 d x = Ok [seq - a | a <- r], size x = size r &
  forall i, nth 0 r i = 0 -> (forall v w, size v = size r -> flux 0 d v = Ok w -> nth 0 w i = 0) -> nth 0 x i = 0].
Proof.
rewrite /solve_step; case: (residual _ _ _) => //= r; rewrite scale_opp => /hk[]; rewrite size_map => h1 h2 h3.
exists r; split=> // i ri hv; apply: h3 => //; case: (ltnP i (size r)) => hi.
  by rewrite (nth_map 0) // ri oppr0.
by rewrite nth_default // size_map.
Qed.
Definition made n x0 d0 x d := exists xs ds, [/\ run N h flux residual set n xs ds, xs 0%N = x0, ds 0%N = d0, xs n = x & ds n = d] /\
    forall k, (k < n)%N -> sstep k (ds k) = Ok (xs k.+1).
Lemma run_more n x0 d0 x1 d1 x2 d2 : made n x0 d0 x1 d1 -> sstep n d1 = Ok x2 -> set (n.+1%:R * h) d1 x2 = Ok d2 ->
  exists xs ds, ([/\ run N h flux residual set n.+1 xs ds, xs 0%N = x0, ds 0%N = d0, xs n.+1 = x2 & ds n.+1 = d2] /\
    forall k, (k < n.+1)%N -> sstep k (ds k) = Ok (xs k.+1)) /\ ds n = d1.
Proof.
move=> [xs [ds [[hr h1 h2 h3 h4] hs]]] e1 e2.
pose xs' k := if (k <= n)%N then xs k else x2; pose ds' k := if (k <= n)%N then ds k else d2.
have el k : (k <= n)%N -> ((xs' k = xs k) * (ds' k = ds k))%type by rewrite /xs' /ds' => ->.
have en : ((xs' n.+1 = x2) * (ds' n.+1 = d2))%type by rewrite /xs' /ds' ltnn.
exists xs', ds'; split; last by rewrite (el n (leqnn n)).
split.
  split; [|by rewrite (el 0%N (leq0n n)) | by rewrite (el 0%N (leq0n n)) | by rewrite en | by rewrite en].
  move=> k; rewrite ltnS leq_eqVlt => /orP[/eqP->|hk1].
    by rewrite !en !(el n (leqnn n)) h4; have [r [r1 r2 _ _]] := sstepP e1; exists r.
  by rewrite !(el k.+1 hk1) !(el k (ltnW hk1)); exact: hr.
move=> k; rewrite ltnS leq_eqVlt => /orP[/eqP->|hk1].
  by rewrite !en !(el n (leqnn n)) h4.
by rewrite !(el k.+1 hk1) !(el k (ltnW hk1)); exact: hs.
Qed.
Lemma afterP n x0 d0 x d : after n (x0, d0) = Ok (x, d) -> made n x0 d0 x d.
Proof.
elim: n x d => [|n IH] x d.
  by rewrite /loop_after /foro /= => -[<- <-]; exists (fun=> x0), (fun=> d0).
rewrite /loop_after foroS -/(after n (x0, d0)); case e: (after n (x0, d0)) => [[x1 d1]| | |] //=.
case e1: (sstep n d1) => [x2| | |] //=; case e2: (set _ d1 x2) => [d2| | |] //= -[<- <-].
by have [xs [ds [hh _]]] := run_more (IH _ _ e) e1 e2; exists xs, ds.
Qed.
(** Without the last call of set_data the data are those before the last step. *)
Lemma before_after n st : before n.+1 st = obind (after n st) (fun st' => obind (sstep n st'.2) (fun x => Ok (x, st'.2))).
Proof.
rewrite /loop_before foroS -/(before n st); case: n => [|n]; first by rewrite /loop_after /loop_before /foro.
rewrite after_before //; case: (before n.+1 st) => //= -[x d] /=; by case: (set _ d x).
Qed.
Lemma beforeP n x0 d0 x d d' : before n.+1 (x0, d0) = Ok (x, d) -> set (n.+1%:R * h) d x = Ok d' ->
  exists xs ds, [/\ run N h flux residual set n.+1 xs ds, ds 0%N = d0, xs n.+1 = x, ds n = d & ds n.+1 = d'].
Proof.
rewrite before_after; case e: (after n (x0, d0)) => [[x1 d1]| | |] //=.
case e1: (sstep n d1) => [x2| | |] //= -[<- <-] e2.
by have [xs [ds [[[h1 h2 h3 h4 h5] _] h6]]] := run_more (afterP e) e1 e2; exists xs, ds.
Qed.
End Loop.
