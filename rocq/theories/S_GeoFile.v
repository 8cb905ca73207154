(** What a .geo file says: the format of the files in /repo/domains. *)
From Coq Require Import Ascii String.
From mathcomp Require Import all_ssreflect all_algebra.
From Verif Require Import M_Text M_ReadDomain S_ReadDomain.
Set Implicit Arguments. Unset Strict Implicit. Unset Printing Implicit Defensive.

Definition blank (s : text) : bool := all is_space s.
(** The end of a number. *)
Definition number_end (r : text) : bool := if r is c :: _ then ~~ is_digit c else true.
(** The line starts with the word [K]. *)
Definition starts_with (K : string) (l : text) : Prop :=
  exists s rest, [/\ l = s ++ t_ K ++ rest, blank s & word_end rest].
(** [K = v], followed by anything but a digit. *)
Definition setting (K : string) (v : nat) (l : text) : Prop :=
  exists s1 s2 s3 rest, [/\ l = s1 ++ t_ K ++ s2 ++ t_ "=" ++ s3 ++ decimal v ++ rest,
    [&& blank s1, blank s2 & blank s3], (s2 != [::]) && (s3 != [::])
    & number_end rest].
(** [K v]. *)
Definition counted (K : string) (v : nat) (l : text) : Prop :=
  exists s1 s2 rest, [/\ l = s1 ++ t_ K ++ s2 ++ decimal v ++ rest, blank s1 && blank s2, s2 != [::]
    & number_end rest].
(** The words of the line start with words for the entries of the list; the rest of the line is free. *)
Inductive row (A : Type) (says : text -> A -> Prop) : seq A -> text -> Prop :=
| row_done rest : row says [::] rest
| row_next s w x xs l : blank s -> says w x -> word_end l -> row says xs l -> row says (x :: xs) (s ++ w ++ l).
Definition says_nat (w : text) (v : nat) : Prop := w = decimal v.
(** [w] is a word the stream reads as the number [x]. *)
Definition says_float (F : Type) (parse : text -> option (F * text)) (w : text) (x : F) : Prop :=
  [/\ w != [::], solid w & forall r, word_end r -> parse (w ++ r) = Some (x, r)].

(** Lines that do not start with [K], a line with [head], then [next]. *)
Definition up_to (K : string) (head : text -> Prop) (next : seq text -> Prop) (ls : seq text) : Prop :=
  exists c l rest, [/\ ls = c ++ l :: rest, forall l', l' \in c -> ~ starts_with K l', head l & next rest].
(** One line for each entry of the list, then [next]. *)
Inductive rows (A : Type) (says : text -> A -> Prop) (next : seq text -> Prop) : seq (seq A) -> seq text -> Prop :=
| rows_done ls : next ls -> rows says next [::] ls
| rows_next r rs l ls : row says r l -> rows says next rs ls -> rows says next (r :: rs) (l :: ls).

Section File.
Variables (F : realDomainType) (parse : text -> option (F * text)).
(** No properties, or a number of properties and one line for each hyperedge. *)
Definition says_props (D : domain_info F) (ls : seq text) : Prop :=
  (di_n_props D = 0 /\ di_props D = [::] /\ forall l, l \in ls -> ~ starts_with "HYPEREDGE_PROPERTIES:" l) \/
  up_to "HYPEREDGE_PROPERTIES:" (counted "HYPEREDGE_PROPERTIES:" (di_n_props D))
    (rows (says_float parse) (fun _ => True) (di_props D)) ls
  /\ (size (di_props D) = di_n_edges D /\ all (fun r => size r == di_n_props D) (di_props D)).
Definition says_domain (edge_dim space_dim : nat) (D : domain_info F) : seq text -> Prop :=
  up_to "Space_Dim" (setting "Space_Dim" space_dim) (
  up_to "HyperEdge_Dim" (setting "HyperEdge_Dim" edge_dim) (
  up_to "N_Points" (setting "N_Points" (di_n_points D)) (
  up_to "N_HyperNodes" (setting "N_HyperNodes" (di_n_nodes D)) (
  up_to "N_HyperEdges" (setting "N_HyperEdges" (di_n_edges D)) (
  up_to "POINTS:" (starts_with "POINTS:") (rows (says_float parse) (
  up_to "HYPERNODES_OF_HYPEREDGES:" (starts_with "HYPERNODES_OF_HYPEREDGES:") (rows says_nat (
  up_to "TYPES_OF_HYPERFACES:" (starts_with "TYPES_OF_HYPERFACES:") (rows says_nat (
  up_to "POINTS_OF_HYPEREDGES:" (starts_with "POINTS_OF_HYPEREDGES:") (rows says_nat (
  says_props D) (di_points_of D))) (di_types D))) (di_nodes D))) (di_points D))))))).
End File.
(** All numbers fit into unsigned int. *)
Definition small_domain (F : realDomainType) (umax : nat) (D : domain_info F) : bool :=
  [&& di_n_edges D <= umax, di_n_nodes D <= umax, di_n_points D <= umax, di_n_props D <= umax,
      all (all (fun x => x <= umax)) (di_nodes D), all (all (fun x => x <= umax)) (di_types D)
    & all (all (fun x => x <= umax)) (di_points_of D)].
