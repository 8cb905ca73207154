(** Words and tags of texts. *)
From Coq Require Import Ascii String.
From mathcomp Require Import all_ssreflect all_algebra zify.
From Verif Require Import M_Base L_Base M_Index L_Index M_Text S_ReadDomain L_Text M_Plot S_Plot.
Set Implicit Arguments. Unset Strict Implicit. Unset Printing Implicit Defensive.
Implicit Types (a b s w t : text).

(** ** Words *)
Definition ends_space s : bool := if s is [::] then true else is_space (last " "%char s).

Lemma words_cat_start cur a b : word_end b -> words_ cur (a ++ b) = words_ cur a ++ words_ [::] b.
Proof.
move=> hb; elim: a cur => [|c a IH] cur /=.
  case: b hb => [_|c b /= ->]; first by rewrite cats0.
  by case: cur.
by case: ifP => _; [case: cur => [|? ?]; rewrite IH | rewrite IH].
Qed.
Lemma words_cat a b : ends_space a || word_end b -> words (a ++ b) = words a ++ words b.
Proof.
case/orP => [|hb]; last exact: words_cat_start.
case/lastP: a => [//|a c]; rewrite /ends_space.
have -> : (if rcons a c is [::] then true else is_space (last " "%char (rcons a c))) = is_space c.
  by rewrite last_rcons; case: a.
move=> hc; rewrite -cats1 -catA /= /words !words_cat_start //= hc.
by rewrite cats0.
Qed.
Lemma words_solid w : w != [::] -> solid w -> words w = [:: w].
Proof.
move=> h0 hs; rewrite /words; have H cur : solid w -> words_ cur w = words_ (rev w ++ cur) [::].
  move=> {h0} {}hs; elim: w cur hs => [//|c w IH] cur /= /andP[hc hs].
  by rewrite (negbTE hc) IH // rev_cons cat_rcons.
rewrite H // cats0 /=; case E: (rev w) => [|c r].
  by move: h0; rewrite -(revK w) E.
by rewrite -E revK.
Qed.
Lemma words_decimal n : words (decimal n) = [:: decimal n].
Proof. exact: words_solid (decimal_nonempty n) (decimal_solid n). Qed.
Lemma words_spaces s : all is_space s -> words s = [::].
Proof. by rewrite /words; elim: s => [//|c s IH] /= /andP[-> /IH]. Qed.
Lemma ends_space_cat a b : ends_space b -> b != [::] -> ends_space (a ++ b).
Proof.
case: b => [//|c b]; rewrite /ends_space last_cat /=.
by case: a.
Qed.
Lemma ends_space_cat2 a b : ends_space a -> ends_space b -> ends_space (a ++ b).
Proof.
move=> ha hb; case: b hb => [|c b] hb; first by rewrite cats0.
exact: ends_space_cat.
Qed.
Lemma ends_space_flatten (ls : seq text) : all ends_space ls -> ends_space (flatten ls).
Proof.
elim: ls => [//|l ls IH] /= /andP[hl /IH h].
exact: ends_space_cat2.
Qed.
Lemma word_end_cat a b : word_end a -> word_end b -> word_end (a ++ b).
Proof. by case: a. Qed.
Lemma word_end_flatten (ls : seq text) : all word_end ls -> word_end (flatten ls).
Proof. by elim: ls => [//|l ls IH] /= /andP[hl /IH h]; exact: word_end_cat. Qed.
Lemma words_flatten (ls : seq text) : all ends_space ls || all word_end ls ->
  words (flatten ls) = flatten [seq words l | l <- ls].
Proof.
elim: ls => [//|l ls IH] h /=.
rewrite words_cat; last first.
  case/orP: h => /= /andP[h1 h2]; first by rewrite h1.
  by rewrite (word_end_flatten h2) orbT.
by rewrite IH //; case/orP: h => /= /andP[_ ->] //; rewrite orbT.
Qed.

(** ** Loops *)
Lemma out_loopE n f : out_loop n f = flatten (mkseq f n).
Proof.
rewrite /out_loop; elim: n => [//|n IH]; rewrite for_S IH.
by rewrite mkseqS flatten_rcons.
Qed.
Lemma out_loop_all (p : pred text) n f : (forall i, i < n -> p (f i)) -> all p (mkseq f n).
Proof. by move=> h; apply/allP => x /mapP[i]; rewrite mem_iota => /andP[_ hi] ->; apply: h. Qed.
Lemma words_out_loop_end n f : (forall i, i < n -> ends_space (f i)) ->
  words (out_loop n f) = flatten (mkseq (fun i => words (f i)) n).
Proof.
move=> h; rewrite out_loopE words_flatten ?(out_loop_all h) // -map_comp.
by [].
Qed.
Lemma words_out_loop_start n f : (forall i, i < n -> word_end (f i)) ->
  words (out_loop n f) = flatten (mkseq (fun i => words (f i)) n).
Proof.
move=> h; rewrite out_loopE words_flatten ?(out_loop_all h) ?orbT // -map_comp.
by [].
Qed.
Lemma out_loop_ends n f : (forall i, i < n -> ends_space (f i)) -> ends_space (out_loop n f).
Proof. by move=> h; rewrite out_loopE; apply: ends_space_flatten; apply: out_loop_all. Qed.
Lemma out_loop_starts n f : (forall i, i < n -> word_end (f i)) -> word_end (out_loop n f).
Proof. by move=> h; rewrite out_loopE; apply: word_end_flatten; apply: out_loop_all. Qed.
Lemma out_loop_notin c n f : (forall i, i < n -> c \notin f i) -> c \notin out_loop n f.
Proof.
move=> h; rewrite out_loopE; apply/negP => /flattenP[x] /mapP[i]; rewrite mem_iota => /andP[_ hi] ->.
exact/negP/h.
Qed.

Lemma outo_loop_ok n f s : outo_loop n f = Ok s ->
  (forall i, i < n -> f i = Ok (oval [::] (f i))) /\ s = out_loop n (fun i => oval [::] (f i)).
Proof.
rewrite /outo_loop; elim: n s => [|n IH] s; first by case=> <-.
rewrite foroS; case E: (foro _ _ _) => [s'|||] //=.
have [h1 ->] := IH _ E; case Ef: (f n) => [x|||] //= [<-]; split.
  move=> i hi; case: (ltnP i n) => [/h1 //|hni].
  have -> : i = n by apply/eqP; rewrite eqn_leq -ltnS hi hni.
  by rewrite Ef.
by rewrite /out_loop for_S Ef.
Qed.
Lemma outo_loopE n f g : (forall i, i < n -> f i = Ok (g i)) -> outo_loop n f = Ok (out_loop n g).
Proof.
rewrite /outo_loop /out_loop; elim: n => [//|n IH] h.
rewrite foroS IH; last by move=> i hi; apply: h; apply: ltnW.
by rewrite /= h // for_S.
Qed.

(** ** Tags *)
Definition element (tc : text * text) : text := "<"%char :: tc.1 ++ ">"%char :: tc.2.
Lemma pieces_cat c s r : c \notin s -> pieces c (s ++ c :: r) = s :: pieces c r.
Proof.
rewrite /pieces => h; suff G cur : pieces_ c cur (s ++ c :: r) = (rev cur ++ s) :: pieces_ c [::] r by rewrite G.
elim: s cur h => [|x s IH] cur /=; first by rewrite eqxx cats0.
rewrite inE negb_or eq_sym => /andP[/negbTE-> h].
by rewrite IH // rev_cons cat_rcons.
Qed.
Lemma pieces_none c s : c \notin s -> pieces c s = [:: s].
Proof.
rewrite /pieces => h; suff G cur : pieces_ c cur s = [:: rev cur ++ s] by rewrite G.
elim: s cur h => [|x s IH] cur /=; first by rewrite cats0.
rewrite inE negb_or eq_sym => /andP[/negbTE-> h].
by rewrite IH // rev_cons cat_rcons.
Qed.
Lemma span_notin c s r : c \notin s -> span (fun x => x != c) (s ++ c :: r) = (s, c :: r).
Proof.
move=> h; apply: span_cat; last by rewrite eqxx.
by apply/allP => x hx; apply: contraNneq h => <-.
Qed.
Definition plain_tc (tc : text * text) : bool :=
  [&& "<"%char \notin tc.1, ">"%char \notin tc.1 & "<"%char \notin tc.2].
Lemma tags_elements s (L : seq (text * text)) : "<"%char \notin s -> all plain_tc L ->
  tags (s ++ flatten [seq element tc | tc <- L]) = L.
Proof.
move=> hs hL; rewrite /tags.
have -> : pieces "<"%char (s ++ flatten [seq element tc | tc <- L]) =
    s :: [seq tc.1 ++ ">"%char :: tc.2 | tc <- L].
  elim: L s hs hL => [|[t c] L IH] s hs /= hL; first by rewrite cats0 pieces_none.
  move: hL => /andP[/and3P[/= h1 h2 h3] hL].
  rewrite pieces_cat // IH //; last by rewrite mem_cat inE (negbTE h1) (negbTE h3).
rewrite /= -map_comp -[RHS]map_id; apply/eq_in_map => -[t c] /(allP hL) /and3P[/= h1 h2 h3].
by rewrite span_notin.
Qed.
