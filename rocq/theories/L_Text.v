(** Lemmas about text streams. *)
From Coq Require Import Ascii String.
From mathcomp Require Import all_ssreflect all_algebra zify.
From Verif Require Import M_Text S_ReadDomain.
Set Implicit Arguments. Unset Strict Implicit. Unset Printing Implicit Defensive.

(** ** Lines *)
Definition unlines (ls : seq text) : text := flatten [seq l ++ endl | l <- ls].
Definition no_newline (l : text) : bool := all (fun c => c != newline) l.
Lemma lines_cat cur l s : no_newline l -> lines_ cur (l ++ newline :: s) = (rev cur ++ l) :: lines_ [::] s.
Proof.
elim: l cur => [|c l IH] cur /=; first by rewrite cats0.
by move=> /andP[/negbTE-> hl]; rewrite IH // rev_cons cat_rcons.
Qed.
Lemma lines_unlines ls : all no_newline ls -> lines (unlines ls) = ls.
Proof.
rewrite /lines; elim: ls => [//|l ls IH] /= /andP[hl hls].
by rewrite /unlines /= -catA /= lines_cat // IH.
Qed.
Lemma unlines_cat a b : unlines (a ++ b) = unlines a ++ unlines b.
Proof. by rewrite /unlines map_cat flatten_cat. Qed.
Lemma unlines1 l : unlines [:: l] = l ++ endl. Proof. by rewrite /unlines /= cats0. Qed.
Lemma no_newline_cat a b : no_newline (a ++ b) = no_newline a && no_newline b.
Proof. exact: all_cat. Qed.

(** ** Characters *)
Lemma newline_space : is_space newline. Proof. by []. Qed.
Lemma solid_no_newline w : solid w -> no_newline w.
Proof. by apply: sub_all => c; apply: contraNneq => ->. Qed.
Lemma digit_nat d : d < 10 -> nat_of_ascii (digit d) = 48 + d.
Proof.
move=> h; have : d \in iota 0 10 by rewrite mem_iota.
rewrite !inE; do 9 (case/orP => [/eqP->|]; first by vm_compute); by move/eqP->; vm_compute.
Qed.
Lemma is_digit_digit d : d < 10 -> is_digit (digit d).
Proof. by move=> h; rewrite /is_digit digit_nat //; lia. Qed.
Lemma digit_val_digit d : d < 10 -> digit_val (digit d) = d.
Proof. by move=> h; rewrite /digit_val digit_nat //; lia. Qed.
Lemma digit_not_space c : is_digit c -> ~~ is_space c.
Proof.
rewrite /is_digit /is_space => h; rewrite negb_or; apply/andP; split; last by lia.
by apply: contraTneq h => ->.
Qed.
Lemma digit_not_sign c : is_digit c -> (c == "-"%char) || (c == "+"%char) = false.
Proof. by move=> h; apply/negP => /orP[/eqP e|/eqP e]; move: h; rewrite e. Qed.

(** ** Decimal numbers *)
Lemma decimal_acc fuel n acc : decimal_ fuel n acc = decimal_ fuel n [::] ++ acc.
Proof.
elim: fuel n acc => [//|fuel IH] n acc /=; case: ifP => // _.
by rewrite IH [in RHS]IH -catA.
Qed.
Lemma decimal_ok fuel n : n <= fuel ->
  [/\ decimal_ fuel n [::] != [::], all is_digit (decimal_ fuel n [::]) & digits_val (decimal_ fuel n [::]) = n].
Proof.
have m10 k : k %% 10 < 10 by rewrite ltn_mod.
have one d : d < 10 -> [/\ [:: digit d] != [::], all is_digit [:: digit d] & digits_val [:: digit d] = d].
  move=> hd; split; [by [] | by rewrite /all is_digit_digit | ].
  by rewrite /digits_val /foldl muln0 add0n digit_val_digit.
elim: fuel n => [|fuel IH] n hn.
  have -> : n = 0 by lia.
  exact: one.
have -> : decimal_ fuel.+1 n [::] =
    if n < 10 then [:: digit (n %% 10)] else decimal_ fuel (n %/ 10) [:: digit (n %% 10)] by [].
case: ifP => h10; first by rewrite modn_small //; exact: one.
have hd : n %/ 10 <= fuel by lia.
have [h1 h2 h3] := IH _ hd; rewrite decimal_acc; split.
- by case: (decimal_ fuel (n %/ 10) [::]) h1.
- by rewrite all_cat h2 /all is_digit_digit.
rewrite /digits_val foldl_cat -/(digits_val _) h3 /foldl digit_val_digit //; lia.
Qed.
Lemma decimal_nonempty n : decimal n != [::]. Proof. by case: (decimal_ok (leqnn n)). Qed.
Lemma decimal_digits n : all is_digit (decimal n). Proof. by case: (decimal_ok (leqnn n)). Qed.
Lemma decimal_val n : digits_val (decimal n) = n. Proof. by case: (decimal_ok (leqnn n)). Qed.
Lemma decimal_solid n : solid (decimal n).
Proof. by apply: sub_all (decimal_digits n) => c; exact: digit_not_space. Qed.
Lemma decimal_no_newline n : no_newline (decimal n).
Proof. exact/solid_no_newline/decimal_solid. Qed.

(** ** Streams *)
Lemma span_cat p w r : all p w -> (if r is c :: _ then ~~ p c else true) -> span p (w ++ r) = (w, r).
Proof.
elim: w => [|c w IH] /=; first by case: r => [//|c r] _ /negbTE /= ->.
by move=> /andP[-> hw] hr; rewrite IH.
Qed.
Definition spaces (s : text) : bool := all is_space s.
Lemma skip_spaces s r : spaces s -> skip_space (s ++ r) = skip_space r.
Proof. by elim: s => [//|c s IH] /= /andP[-> /IH]. Qed.
Lemma skip_solid c w : ~~ is_space c -> skip_space (c :: w) = c :: w.
Proof. by move=> /negbTE /= ->. Qed.
(** A word after spaces, up to the next space. *)
Lemma extract_word old s w r : spaces s -> w != [::] -> solid w -> word_end r ->
  extract conv_word old (IStream (s ++ w ++ r) true) = (w, IStream r true).
Proof.
move=> hs hw hd hr; rewrite /extract /= skip_spaces //; case: w hw hd => [//|c w] _ /= /andP[hc hw].
rewrite (negbTE hc) /conv_word -cat_cons span_cat //=; first by rewrite hc.
by case: r hr => [//|d r] /= ->.
Qed.
Lemma extract_conv A (conv : text -> A * istream) old s w r : spaces s -> w != [::] -> ~~ is_space (head " "%char w) ->
  extract conv old (IStream (s ++ w ++ r) true) = conv (w ++ r).
Proof.
move=> hs hw hd; rewrite /extract /= skip_spaces //; case: w hw hd => [//|c w] _ /= hc.
by rewrite (negbTE hc).
Qed.
Lemma conv_decimal umax v r : v <= umax -> (if r is c :: _ then ~~ is_digit c else true) ->
  conv_unsigned umax (decimal v ++ r) = (v, IStream r true).
Proof.
move=> hv hr; rewrite /conv_unsigned /unsigned_of.
have := decimal_val v; have := decimal_digits v; have := decimal_nonempty v.
case: (decimal v) => [//|c w] _ /= /andP[hc hw] hd.
rewrite digit_not_sign // -cat_cons span_cat //=; last by rewrite hc.
have := digit_not_sign hc; rewrite hd ltnNge hv /=.
by case: (c == "-"%char).
Qed.
Lemma solid_head w : w != [::] -> solid w -> ~~ is_space (head " "%char w).
Proof. by case: w => [//|c w] _ /= /andP[]. Qed.
Lemma extract_decimal umax old s v r : spaces s -> v <= umax -> (if r is c :: _ then ~~ is_digit c else true) ->
  extract (conv_unsigned umax) old (IStream (s ++ decimal v ++ r) true) = (v, IStream r true).
Proof.
move=> hs hv hr; rewrite extract_conv ?decimal_nonempty //; first exact: conv_decimal.
by rewrite solid_head ?decimal_nonempty ?decimal_solid.
Qed.
Lemma extract_empty A (conv : text -> A * istream) old b : exists s, extract conv old (IStream [::] b) = (old, s).
Proof. by rewrite /extract /=; case: b; eexists. Qed.

(** Rows of numbers. *)
Lemma extract_pair umax a b x y : a <= umax -> b <= umax ->
  exists s, extract_row (conv_unsigned umax) [:: x; y] (istr (decimal a ++ t_ " " ++ decimal b)) = ([:: a; b], s).
Proof.
move=> ha hb; have e1 := @extract_decimal umax x [::] a (t_ " " ++ decimal b) isT ha isT.
have e2 := @extract_decimal umax y (t_ " ") b [::] isT hb isT; rewrite cats0 in e2.
by rewrite [extract_row _ _ _]/= [extract _ x _]e1 e2; eexists.
Qed.
Section Float.
Variables (F : ringType) (parse : text -> option (F * text)) (show : F -> text) (rnd : F -> F).
Hypothesis H : float_text parse show rnd.
Lemma extract_float old s x r : spaces s -> word_end r || (head " "%char r == ";"%char) ->
  extract (conv_float parse) old (IStream (s ++ show x ++ r) true) = (rnd x, IStream r true).
Proof.
move=> hs hr; rewrite extract_conv ?(ft_nonempty H) //; last by rewrite solid_head ?(ft_nonempty H) ?(ft_word H).
by rewrite /conv_float (ft_parse H).
Qed.
Definition float_row (xs : seq F) : text := flatten [seq t_ " " ++ show x ++ t_ " " | x <- xs].
Lemma extract_floats old s xs : spaces s -> size old = size xs ->
  exists b, extract_row (conv_float parse) old (IStream (s ++ float_row xs) true) = ([seq rnd x | x <- xs], b).
Proof.
elim: xs s old => [|x xs IH] s [|y old] // hs hsz; first by eexists.
have {}hsz : size old = size xs by case: hsz.
have e : s ++ float_row (x :: xs) = (s ++ t_ " ") ++ show x ++ t_ " " ++ float_row xs.
  by rewrite /float_row [map _ _]/= [flatten _]/= -!catA.
rewrite e [extract_row _ _ _]/= extract_float //; last by rewrite /spaces all_cat [all _ s]hs.
by case: (IH (t_ " ") old) => // b e'; rewrite e'; eexists.
Qed.
Lemma float_row_no_newline xs : no_newline (float_row xs).
Proof.
elim: xs => [//|x xs IH]; have -> : float_row (x :: xs) = t_ " " ++ show x ++ t_ " " ++ float_row xs.
  by rewrite /float_row [map _ _]/= [flatten _]/= -!catA.
by rewrite !no_newline_cat IH (solid_no_newline (ft_word H x)).
Qed.
End Float.
