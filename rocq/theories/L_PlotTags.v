(** What a reader finds in a plot file. *)
From Coq Require Import Ascii String.
From mathcomp Require Import all_ssreflect all_algebra zify.
From Verif Require Import M_Base L_Base M_Text S_ReadDomain L_Text M_Plot S_Plot L_PlotText L_PlotGrid L_PlotFile.
Set Implicit Arguments. Unset Strict Implicit. Unset Printing Implicit Defensive.

Lemma decimal_notin c n : ~~ is_digit c -> c \notin decimal n.
Proof. by move=> h; apply: contra h => /(allP (decimal_digits n)). Qed.
Lemma piece_tag_notin c np nc : ~~ is_digit c -> c \notin piece_tag 0 0 -> c \notin piece_tag np nc.
Proof.
move=> hd; rewrite /piece_tag !mem_cat !negb_or !(decimal_notin _ hd).
by case/and5P => -> _ -> _ ->.
Qed.
Lemma values_tag_notin c n : ~~ is_digit c -> c \notin values_tag 0 -> c \notin values_tag n.
Proof.
move=> hd; rewrite /values_tag !mem_cat !negb_or !(decimal_notin _ hd).
by case/and3P => -> _ ->.
Qed.
Lemma space_notin s : all is_space s -> "<"%char \notin s.
Proof. by move=> h; apply/negP => /(allP h). Qed.
Lemma wrap_notin s t u : "<"%char \notin t -> all is_space s -> all is_space u -> "<"%char \notin s ++ t ++ u.
Proof. by move=> ht hs hu; rewrite !mem_cat !negb_or ht !space_notin. Qed.
Lemma tc_plain t c : "<"%char \notin t -> ">"%char \notin t -> "<"%char \notin c -> plain_tc (t, c).
Proof. by move=> h1 h2 h3; apply/and3P. Qed.
Lemma piece_plain np nc c : "<"%char \notin c -> plain_tc (piece_tag np nc, c).
Proof.
have h1 : ("<"%char \notin piece_tag 0 0) by vm_compute.
have h2 : (">"%char \notin piece_tag 0 0) by vm_compute.
by move=> hc; apply: tc_plain hc; apply: piece_tag_notin.
Qed.
Lemma values_plain n c : "<"%char \notin c -> plain_tc (values_tag n, c).
Proof.
have h1 : ("<"%char \notin values_tag 0) by vm_compute.
have h2 : (">"%char \notin values_tag 0) by vm_compute.
by move=> hc; apply: tc_plain hc; apply: values_tag_notin.
Qed.
Lemma all_cons (T : Type) (p : pred T) x s : p x -> all p s -> all p (x :: s).
Proof. by move=> h1 h2; rewrite /= h1. Qed.

Section Tags.
Variables (np nc : nat) (points conn offs types : text) (idx : option text) (vals : option (nat * text)).
Hypothesis hpoints : "<"%char \notin points.
Hypothesis hconn : "<"%char \notin conn.
Hypothesis hoffs : "<"%char \notin offs.
Hypothesis htypes : "<"%char \notin types.
Hypothesis hidx : if idx is Some x then "<"%char \notin x else true.
Hypothesis hvals : if vals is Some (_, x) then "<"%char \notin x else true.
Local Notation L := (vtu_elements np nc points conn offs types idx vals).
Let file := flatten [seq element tc | tc <- L].

Lemma elements_plain : all plain_tc L.
Proof.
rewrite /vtu_elements; do 3 (apply: all_cons; first by []).
apply: all_cons; first by apply: piece_plain.
apply: all_cons; first by [].
apply: all_cons; first by apply: tc_plain => //; apply: wrap_notin.
do 3 (apply: all_cons; first by []).
apply: all_cons; first by apply: tc_plain => //; apply: wrap_notin.
apply: all_cons; first by [].
apply: all_cons; first by apply: tc_plain => //; apply: wrap_notin.
apply: all_cons; first by [].
apply: all_cons; first by apply: tc_plain => //; apply: wrap_notin.
do 2 (apply: all_cons; first by []).
apply: all_cons; first by apply: tc_plain => //; case: (idx).
rewrite all_cat; apply/andP; split.
  case: (idx) hidx => [x hx|//]; apply: all_cons; last by [].
  by apply: tc_plain => //; apply: wrap_notin.
do 2 (apply: all_cons; first by case: (vals)).
rewrite all_cat; apply/andP; split; last by [].
case: (vals) hvals => [[n x] hx|//]; apply: all_cons; last by [].
by apply: values_plain; apply: wrap_notin.
Qed.
Lemma tagsE : tags file = L.
Proof. exact: (@tags_elements [::]) elements_plain. Qed.
Lemma find_points : find_tags file points_tag = [:: (points_tag, endl ++ points ++ t_ "        ")].
Proof. by rewrite /find_tags tagsE; case: (idx) => [?|]; case: (vals) => [[? ?]|]; reflexivity. Qed.
Lemma find_connectivity : find_tags file connectivity_tag = [:: (connectivity_tag, endl ++ conn ++ t_ "        ")].
Proof. by rewrite /find_tags tagsE; case: (idx) => [?|]; case: (vals) => [[? ?]|]; reflexivity. Qed.
Lemma find_offsets : find_tags file offsets_tag = [:: (offsets_tag, endl ++ offs ++ t_ "        ")].
Proof. by rewrite /find_tags tagsE; case: (idx) => [?|]; case: (vals) => [[? ?]|]; reflexivity. Qed.
Lemma find_types : find_tags file types_tag = [:: (types_tag, endl ++ types ++ t_ "        ")].
Proof. by rewrite /find_tags tagsE; case: (idx) => [?|]; case: (vals) => [[? ?]|]; reflexivity. Qed.
Lemma find_piece : find_tags file (t_ "Piece") = [:: (piece_tag np nc, endl ++ t_ "      ")].
Proof. by rewrite /find_tags tagsE; case: (idx) => [?|]; case: (vals) => [[? ?]|]; reflexivity. Qed.
Lemma find_index : find_tags file index_tag =
  if idx is Some x then [:: (index_tag, endl ++ x ++ t_ "        ")] else [::].
Proof. by rewrite /find_tags tagsE; case: (idx) => [?|]; case: (vals) => [[? ?]|]; reflexivity. Qed.
Lemma find_values : find_tags file (q_ "DataArray type='Float32' Name='values'") =
  if vals is Some (n, x) then [:: (values_tag n, endl ++ x ++ t_ "        ")] else [::].
Proof. by rewrite /find_tags tagsE; case: (idx) => [?|]; case: (vals) => [[? ?]|]; reflexivity. Qed.
Lemma file_nested : nested file.
Proof. by rewrite /nested tagsE; case: (idx) => [?|]; case: (vals) => [[? ?]|]; reflexivity. Qed.
End Tags.

Lemma words_wrap t : ends_space t -> words (endl ++ t ++ t_ "        ") = words t.
Proof.
move=> h; rewrite words_pre // words_cat; last by rewrite h.
by rewrite cats0.
Qed.
