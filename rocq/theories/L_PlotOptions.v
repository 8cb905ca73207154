(** Plot options and file names. *)
From Coq Require Import Ascii String.
From mathcomp Require Import all_ssreflect all_algebra zify.
From Verif Require Import M_Base L_Base M_Text S_ReadDomain L_Text M_ReadDomain M_Plot S_Plot S_PlotOptions L_PlotText L_PlotTags.
Set Implicit Arguments. Unset Strict Implicit. Unset Printing Implicit Defensive.

Section Options.
Variables (F : realFieldType) (W : nat) (asserts : bool).
Variables (parse_float : text -> outcome F) (show_float : F -> text).
Implicit Types (o : plot_options F) (name s : text).
Notation set_plot_option := (set_plot_option W asserts parse_float show_float).
Notation means := (means W parse_float).
Notation shown := (shown show_float).
Notation calls := (calls W parse_float show_float asserts).

Lemma skip_digit c w : is_digit c -> skip_space (c :: w) = c :: w.
Proof.
move=> hc; apply: skip_solid; apply/negP; rewrite /is_space => /orP[/eqP hs|]; first by rewrite hs in hc.
by move: hc; rewrite /is_digit; lia.
Qed.
Lemma stoi_decimal k : k < W %/ 2 -> stoi W (decimal k) = Ok (false, k).
Proof.
move=> hk; rewrite /stoi; move: (decimal_nonempty k) (decimal_digits k) (decimal_val k).
move: (decimal k) => s; case: s => [//|c w] _ hd hv; have hd' := hd; case/andP: hd' => hc _.
have hsign := digit_not_sign hc; rewrite skip_digit //.
have -> : unsigned_of (c :: w) = (c :: w, [::]).
  by rewrite /unsigned_of hsign -{1}[c :: w]cats0 span_cat.
have -> : (head " "%char (c :: w) == "-"%char) = false by move/negbT: hsign; rewrite negb_or => /andP[/negbTE].
by rewrite hv hk.
Qed.

Lemma field_outputDir v o x : field (set_outputDir v o) x = if x == t_ "outputDir" then VText _ v else field o x.
Proof. by rewrite /field; case: (x =P t_ "outputDir"). Qed.
Lemma field_fileName v o x : field (set_fileName v o) x = if x == t_ "fileName" then VText _ v else field o x.
Proof. by rewrite /field; case: (x =P t_ "fileName") => [->|_]. Qed.
Lemma field_fileNumber v o x : field (set_fileNumber v o) x = if x == t_ "fileNumber" then VNat _ v else field o x.
Proof. by rewrite /field; case: (x =P t_ "fileNumber") => [->|_]. Qed.
Lemma field_print v o x : field (set_printFileNumber v o) x = if x == t_ "printFileNumber" then VBool _ v else field o x.
Proof. by rewrite /field; case: (x =P t_ "printFileNumber") => [->|_]. Qed.
Lemma field_increment v o x :
  field (set_incrementFileNumber v o) x = if x == t_ "incrementFileNumber" then VBool _ v else field o x.
Proof. by rewrite /field; case: (x =P t_ "incrementFileNumber") => [->|_]. Qed.
Lemma field_plotEdges v o x : field (set_plotEdges v o) x = if x == t_ "plotEdges" then VBool _ v else field o x.
Proof. by rewrite /field; case: (x =P t_ "plotEdges") => [->|_]. Qed.
Lemma field_plotEdgeBoundaries v o x :
  field (set_plotEdgeBoundaries v o) x = if x == t_ "plotEdgeBoundaries" then VBool _ v else field o x.
Proof. by rewrite /field; case: (x =P t_ "plotEdgeBoundaries") => [->|_]. Qed.
Lemma field_scale v o x : field (set_scale v o) x = if x == t_ "scale" then VReal v else field o x.
Proof. by rewrite /field; case: (x =P t_ "scale") => [->|_]. Qed.
Lemma field_boundaryScale v o x :
  field (set_boundaryScale v o) x = if x == t_ "boundaryScale" then VReal v else field o x.
Proof. by rewrite /field; case: (x =P t_ "boundaryScale") => [->|_]. Qed.

Lemma option_textE o name : name \in option_names -> option_text asserts show_float o name = Ok (shown (field o name)).
Proof. by rewrite !inE; do ?[case/orP]; move=> /eqP ->; reflexivity. Qed.

Lemma option_set o name s v : name \in option_names -> s != [::] -> means name s v ->
  exists o', set_plot_option o name s = Ok (o', shown v) /\
             forall x, field o' x = if x == name then v else field o x.
Proof.
move=> hn hs hm.
suff [o' [h1 h2]] : exists o', assign_option W asserts parse_float o name s = Ok o' /\
    forall x, field o' x = if x == name then v else field o x.
  exists o'; split=> //; rewrite /M_Plot.set_plot_option h1 /= option_textE //=.
  by rewrite h2 eqxx.
rewrite /assign_option (negbTE hs); case: hm => [h|h|x h hx|k hname -> hk].
- by move: h; rewrite !inE => /orP[] /eqP ->; eexists; (split; first reflexivity) => x; [exact: field_outputDir|exact: field_fileName].
- move: h; rewrite !inE; do ?[case/orP]; move=> /eqP ->; eexists; (split; first reflexivity) => x.
  + exact: field_print.
  + exact: field_increment.
  + exact: field_plotEdges.
  + exact: field_plotEdgeBoundaries.
- move: h; rewrite !inE => /orP[] /eqP ->; eexists; (split; first by rewrite hx; reflexivity) => y.
  + exact: field_scale.
  + exact: field_boundaryScale.
eexists; split; first by rewrite hname stoi_decimal //; reflexivity.
by move=> x; rewrite hname; exact: field_fileNumber.
Qed.
Lemma option_get o name : name \in option_names -> set_plot_option o name [::] = Ok (o, shown (field o name)).
Proof. by move=> h; rewrite /M_Plot.set_plot_option /= option_textE. Qed.

Notation last_value := (@last_value F).
Lemma calls_last o cs : all_mean W parse_float cs -> exists o',
  calls o [seq c.1 | c <- cs] =
    Ok (o', [seq shown (last_value (field o (nth [::] [seq c.1.1 | c <- cs] i)) (nth [::] [seq c.1.1 | c <- cs] i) (take i.+1 cs))
            | i <- iota 0 (size cs)]) /\
  forall x, field o' x = last_value (field o x) x cs.
Proof.
elim: cs o => [|c cs IH] o; first by move=> _; exists o.
case=> hn [hm hcs].
have [o1 [h1 h2]] : exists o1, set_plot_option o c.1.1 c.1.2 = Ok (o1, shown (field o1 c.1.1)) /\
    forall x, field o1 x = last_value (field o x) x [:: c].
  case: (boolP (c.1.2 == [::])) hm => [/eqP he _|he hm].
    by exists o; rewrite he option_get //; split=> // x; rewrite /= he andbF.
  have [o1 [h1 h2]] := option_set o hn he (hm isT); exists o1.
  rewrite h1 h2 eqxx; split=> // x.
  by rewrite h2 /= he andbT eq_sym.
have [o' [h3 h4]] := IH o1 hcs.
exists o'; split; last by move=> x; rewrite h4 h2.
rewrite /= h1 /= h3 /=; congr (Ok (_, _ :: _)); first by rewrite h2 take0.
rewrite (iotaDl 1 0) -map_comp; apply/eq_in_map => i _.
by rewrite h2.
Qed.
End Options.

Section Names.
Variables (F : realFieldType).
Implicit Types o : plot_options F.
Lemma decimal_inj : injective decimal.
Proof. by move=> a b h; rewrite -(decimal_val a) h decimal_val. Qed.
Lemma cat_inj (T : Type) (a x y : seq T) : a ++ x = a ++ y -> x = y.
Proof. by elim: a => [//|c a IH] [] /IH. Qed.
Lemma file_name_inj o o' : outputDir o = outputDir o' -> fileName o = fileName o' -> printFileNumber o -> printFileNumber o' ->
  file_name o = file_name o' -> fileNumber o = fileNumber o'.
Proof.
move=> hd hn hp hp'; rewrite /file_name hd hn hp hp' -!catA => /cat_inj/cat_inj/cat_inj/cat_inj h.
have : span is_digit (decimal (fileNumber o) ++ t_ "." ++ t_ "vtu") =
  span is_digit (decimal (fileNumber o') ++ t_ "." ++ t_ "vtu") by rewrite h.
by rewrite !span_cat ?decimal_digits // => -[] /decimal_inj.
Qed.
End Names.
