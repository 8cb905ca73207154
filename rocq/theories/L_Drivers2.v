(** Operators of the eigenvalue drivers. *)
From mathcomp Require Import all_ssreflect all_algebra.
From mathcomp Require Import zify algebra_tactics.ring.
From Verif Require Import M_Base L_Base M_Drivers S_Drivers L_Drivers.
Set Implicit Arguments. Unset Strict Implicit. Unset Printing Implicit Defensive.
Import GRing.Theory Num.Theory.
Local Open Scope ring_scope.

Section Ops.
Variables (F : realFieldType) (N : nat) (dir : seq nat) (ix : seq (option nat) * seq (option nat)).
Hypotheses (hs : sorted ltn dir) (hN : all (fun d => d < N)%N dir) (hix : make_index N dir = Ok ix).
Local Notation n' := (N - size dir)%N.
Local Notation ext := (extend N dir).
Local Notation rst := (restrict N dir).
Local Notation fd := (free_dofs N dir).
Implicit Types (v w x y k m : seq F).
Lemma np_subtractE v w : size v = size w -> exists2 s, np_subtract v w = Ok s &
  size s = size v /\ forall i, nth 0 s i = nth 0 v i - nth 0 w i.
Proof.
move=> e; rewrite /np_subtract e eqxx; eexists; first by [].
rewrite size_map size_zip e minnn; split=> // i; case: (ltnP i (size w)) => h.
  by rewrite (nth_map (0, 0)) ?size_zip ?e ?minnn // nth_zip.
by rewrite !nth_default ?subr0 ?size_map ?size_zip ?e ?minnn.
Qed.
Lemma nth_scale v c i : nth 0 (np_scale v c) i = nth 0 v i * c.
Proof.
case: (ltnP i (size v)) => h; first by rewrite (nth_map 0).
by rewrite !nth_default ?mul0r ?size_map.
Qed.
(** Row [i] of a reduced operator. *)
Definition row (A : seq F -> seq F) v i := nth 0 (A (ext v)) (nth 0%N fd i).

Section One.
Variables (op : seq F -> outcome (seq F)) (A : seq F -> seq F).
Hypothesis hA : acts_as N op A.
Lemma ma_stiffE v : size v = n' -> exists2 k, ma_stiff op ix v = Ok k &
  size k = n' /\ forall i, (i < n')%N -> nth 0 k i = - row A v i.
Proof.
move=> hv; rewrite /ma_stiff (long_vectorE hs hN hix hv) /=.
have [-> sA] := hA (size_extend dir N v); rewrite /= (short_vectorE hs hN hix) ?size_map //.
eexists; first by []; rewrite size_restrict //; split=> // i hi.
by rewrite nth_restrict // hi nth_scale mulrN1.
Qed.
Lemma si_stiffE sg (flux : seq F -> F -> outcome (seq F)) v : (forall x, flux x sg = op x) -> size v = n' ->
  exists2 k, obind (long_vector ix v) (fun x => obind (flux x sg) (fun y =>
    omap (fun s => np_scale s (-1)) (short_vector ix y))) = Ok k &
  size k = n' /\ forall i, (i < n')%N -> nth 0 k i = - row A v i.
Proof.
move=> hf hv; rewrite (long_vectorE hs hN hix hv) /= hf.
have [-> sA] := hA (size_extend dir N v); rewrite /= (short_vectorE hs hN hix) //=.
eexists; first by []; rewrite size_map size_restrict //; split=> // i hi.
by rewrite nth_scale mulrN1 nth_restrict // hi.
Qed.
Lemma ma_massE v : size v = n' -> exists2 m, ma_mass op ix v = Ok m &
  size m = n' /\ forall i, (i < n')%N -> nth 0 m i = row A v i.
Proof.
move=> hv; rewrite /ma_mass (long_vectorE hs hN hix hv) /=.
have [-> sA] := hA (size_extend dir N v); rewrite /= (short_vectorE hs hN hix) //=.
by eexists; first by []; rewrite size_restrict //; split=> // i hi; rewrite nth_restrict // hi.
Qed.
Lemma row_sym v w c : (forall x y, size x = N -> size y = N -> vanishes dir x -> vanishes dir y ->
    dot N (A x) y = dot N (A y) x) ->
  \sum_(i < n') c * row A v i * nth 0 w i = \sum_(i < n') c * row A w i * nth 0 v i.
Proof.
move=> hsym; have H a b : \sum_(i < n') c * row A a i * nth 0 b i = c * dot N (A (ext a)) (ext b).
  rewrite -adjoint // /dot mulr_sumr; apply: eq_bigr => i _.
  by rewrite nth_restrict // ltn_ord mulrA.
by rewrite !H hsym // ?size_extend //; apply: extend_vanishes.
Qed.
Lemma row_neg v : (forall x, size x = N -> vanishes dir x -> x != nseq N 0 -> dot N (A x) x < 0) ->
  size v = n' -> v != nseq n' 0 -> \sum_(i < n') row A v i * nth 0 v i < 0.
Proof.
move=> hneg hv v0; have -> : \sum_(i < n') row A v i * nth 0 v i = dot N (A (ext v)) (ext v).
  by rewrite -adjoint //; apply: eq_bigr => i _; rewrite nth_restrict // ltn_ord.
apply: hneg; rewrite ?size_extend //; first exact: extend_vanishes.
apply: contra v0 => /eqP e; rewrite -(restrict_extend hs hN hv) e; apply/eqP.
by apply: (eq_from_nth (x0 := 0)) => [|i]; rewrite ?size_nseq size_restrict // => hi;
  rewrite nth_restrict // hi !nth_nseq; case: ifP; case: ifP.
Qed.
End One.

Section Two.
Variables (flux0 mass_flux : seq F -> outcome (seq F)) (A M : seq F -> seq F) (sigma : F).
Hypotheses (hA : acts_as N flux0 A) (hM : acts_as N mass_flux M).
Lemma ma_shiftedE v k m : size v = n' -> ma_stiff flux0 ix v = Ok k -> ma_mass mass_flux ix v = Ok m ->
  exists2 s, ma_shifted flux0 mass_flux sigma ix v = Ok s &
  size s = n' /\ forall i, (i < n')%N -> nth 0 s i = nth 0 k i - sigma * nth 0 m i.
Proof.
move=> hv ek em; have [k' e1 [s1 _]] := ma_stiffE hA hv; have [m' e2 [s2 _]] := ma_massE hM hv.
move: e1 e2; rewrite ek em => -[ekk] [emm]; subst k' m'.
rewrite /ma_shifted ek em /=.
have [|s -> [ss es]] := @np_subtractE k (np_scale m sigma); first by rewrite size_map s1 s2.
by exists s => //; split=> [|i hi]; rewrite ?ss // es nth_scale mulrC.
Qed.
Lemma ma_eigen v lam k m : size v = n' -> ma_stiff flux0 ix v = Ok k -> ma_mass mass_flux ix v = Ok m ->
  k = times lam m <-> forall d, (d < N)%N -> d \notin dir -> nth 0 (A (ext v)) d + lam * nth 0 (M (ext v)) d = 0.
Proof.
move=> hv ek em; have [k' e1 [s1 h1]] := ma_stiffE hA hv; have [m' e2 [s2 h2]] := ma_massE hM hv.
move: e1 e2; rewrite ek em => -[ekk] [emm]; subst k' m'; split=> [e d hd hd2|h].
  have hr := rank_lt hs hN hd hd2; have := h1 _ hr; rewrite {1}e /times (nth_map 0) ?s2 // h2 // /row nth_free // => ->.
  by rewrite subrr.
apply: (eq_from_nth (x0 := 0)) => [|i]; rewrite ?size_map s1 ?s2 // => hi.
rewrite (nth_map 0) ?s2 // h1 // h2 // /row; have [hd hd2 _] := free_rank hs hN hi.
by have /eqP := h _ hd hd2; rewrite addr_eq0 => /eqP ->; rewrite opprK.
Qed.
End Two.

Section Three.
Variables (flux : seq F -> F -> outcome (seq F)) (A0 As : seq F -> seq F) (sigma : F).
Hypotheses (h0 : acts_as N (flux^~ 0) A0) (h1 : acts_as N (flux^~ sigma) As) (s0 : sigma != 0).
Lemma si_massE v : size v = n' -> exists2 m, si_mass flux sigma ix v = Ok m &
  size m = n' /\ forall i, (i < n')%N -> nth 0 m i = - (row A0 v i - row As v i) / sigma.
Proof.
move=> hv; rewrite /si_mass (long_vectorE hs hN hix hv) /=.
have [/= -> sA] := h0 (size_extend dir N v); have [/= -> sS] := h1 (size_extend dir N v).
rewrite /=; have [|d -> [sd ed]] := @np_subtractE (A0 (ext v)) (As (ext v)); first by rewrite sA.
rewrite /= (short_vectorE hs hN hix) ?sd //=; eexists; first by [].
rewrite size_map size_restrict //; split=> // i hi.
by rewrite nth_scale nth_restrict // hi ed !mulNr mul1r mulrN.
Qed.
Lemma si_shiftedE v k m : size v = n' -> si_stiff flux ix v = Ok k -> si_mass flux sigma ix v = Ok m ->
  exists2 s, si_shifted flux sigma ix v = Ok s &
  size s = n' /\ forall i, (i < n')%N -> nth 0 s i = nth 0 k i - sigma * nth 0 m i.
Proof.
move=> hv ek em; have [k' e1 [t1 g1]] := si_stiffE h0 (fun x => erefl) hv.
have [m' e2 [t2 g2]] := si_massE hv; have [s e3 [t3 g3]] := si_stiffE h1 (fun x => erefl) hv.
move: e1 e2; rewrite -/(si_stiff flux ix v) ek em => -[ekk] [emm]; subst k' m'.
exists s => //; split=> // i hi; rewrite g1 // g2 // g3 //.
by rewrite mulrA [sigma * _]mulrC mulfK //; ring.
Qed.
Lemma si_eigen v lam k m : size v = n' -> si_stiff flux ix v = Ok k -> si_mass flux sigma ix v = Ok m ->
  k = times lam m <-> forall d, (d < N)%N -> d \notin dir ->
    sigma * nth 0 (A0 (ext v)) d = lam * (nth 0 (A0 (ext v)) d - nth 0 (As (ext v)) d).
Proof.
move=> hv ek em; have [k' e1 [t1 g1]] := si_stiffE h0 (fun x => erefl) hv; have [m' e2 [t2 g2]] := si_massE hv.
move: e1 e2; rewrite -/(si_stiff flux ix v) ek em => -[ekk] [emm]; subst k' m'.
have E (a b : F) : - a = lam * (- (a - b) / sigma) <-> sigma * a = lam * (a - b).
  rewrite mulNr mulrN mulrA; split=> [/oppr_inj h|<-]; first by rewrite {1}h mulrC mulfVK.
  by rewrite mulrAC mulfV // mul1r.
split=> [e d hd hd2|h].
  have hr := rank_lt hs hN hd hd2; have := g1 _ hr; rewrite {1}e /times (nth_map 0) ?t2 // g2 // /row nth_free // => q.
  exact/E.
apply: (eq_from_nth (x0 := 0)) => [|i]; rewrite ?size_map t1 ?t2 // => hi.
rewrite (nth_map 0) ?t2 // g1 // g2 // /row; have [hd hd2 _] := free_rank hs hN hi.
by apply/E/h.
Qed.
End Three.
End Ops.
