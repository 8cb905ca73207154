(** Vocabulary for domain files. *)
From Coq Require Import Ascii String.
From mathcomp Require Import all_ssreflect all_algebra.
From Verif Require Import M_Text M_ReadDomain.
Set Implicit Arguments. Unset Strict Implicit. Unset Printing Implicit Defensive.

(** No white space inside; the end of a word. *)
Definition solid (w : text) : bool := all (fun c => ~~ is_space c) w.
Definition word_end (r : text) : bool := if r is c :: _ then is_space c else true.
(** What is required of reading back written floating point numbers: a written number is a word, and
    reading it gives a number that depends on the written one only. *)
Record float_text (F : ringType) (parse : text -> option (F * text)) (show : F -> text) (rnd : F -> F) : Prop := FloatText {
  ft_nonempty : forall x, show x != [::];
  ft_word : forall x, solid (show x);
  ft_parse : forall x r, word_end r || (head " "%char r == ";"%char) -> parse (show x ++ r) = Some (rnd x, r) }.

(** Every hyperedge has different hypernodes and different points, all of them exist, no two points have the
    same coordinates, no two hyperedges have the same list of hypernodes or of points. *)
Record valid_domain (F : realDomainType) (dim : nat) (D : domain_info F) : Prop := ValidDomain {
  vd_nodes : forall e, e \in di_nodes D -> uniq e /\ forall x, x \in e -> x < di_n_nodes D;
  vd_points_of : forall e, e \in di_points_of D -> uniq e /\ forall x, x \in e -> x < di_n_points D;
  vd_points : forall i j, i < j -> j < size (di_points D) -> exists2 k, k < dim
    & nth 0%R (nth [::] (di_points D) i) k <> nth 0%R (nth [::] (di_points D) j) k;
  vd_uniq_nodes : uniq (di_nodes D);
  vd_uniq_points_of : uniq (di_points_of D) }.
(** The numbers of rows and their lengths. *)
Record sized_domain (F : realDomainType) (edge_dim dim : nat) (D : domain_info F) : Prop := SizedDomain {
  sd_points : size (di_points D) = di_n_points D /\ all (fun p => size p == dim) (di_points D);
  sd_nodes : size (di_nodes D) = di_n_edges D /\ all (fun e => size e == 2 * edge_dim) (di_nodes D);
  sd_types : size (di_types D) = di_n_edges D /\ all (fun e => size e == 2 * edge_dim) (di_types D);
  sd_points_of : size (di_points_of D) = di_n_edges D /\ all (fun e => size e == 2 ^ edge_dim) (di_points_of D) }.
