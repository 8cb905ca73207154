(** The C++ class says what it was made of. *)
From Coq Require Import Ascii String.
From mathcomp Require Import all_ssreflect.
From Verif Require Import M_Base M_Text M_Import S_Import.
Set Implicit Arguments. Unset Strict Implicit. Unset Printing Implicit Defensive.

Lemma balanced_strip d s : balanced d (strip s) = balanced d s.
Proof.
elim: s d => [//|x s IH] d; rewrite /strip /= -/(strip s).
have [->|_] := eqVneq x " "%char; first by rewrite IH.
by rewrite /= !IH.
Qed.
Definition closing (x : ascii) : bool := (x == ","%char) || (x == ">"%char).
Lemma balanced_split d s s' x x' r r' : balanced d s -> balanced d s' -> closing x -> closing x' ->
  s ++ x :: r = s' ++ x' :: r' -> s = s' /\ x :: r = x' :: r'.
Proof.
have no y l : closing y -> balanced 0 (y :: l) = false by rewrite /closing => /orP[]/eqP ->.
elim: s d s' => [|y s IH] d [|y' s'] //= hs hs' hx hx'.
- by case=> e _; move: hs hs' => /eqP -> hb; have := no _ s' hx; rewrite e /= hb.
- by case=> e _; move: hs' hs => /eqP -> hb; have := no _ s hx'; rewrite -e /= hb.
case=> e1 e2; subst y'; have ih := fun d h1 h2 => IH d s' h1 h2 hx hx' e2.
suff [-> ->] : s = s' /\ x :: r = x' :: r' by [].
move: hs hs'; case: (y == "<"%char) => //; first exact: ih.
case: (y == ">"%char); first by move=> /andP[_ h1] /andP[_ h2]; exact: ih h1 h2.
case: (y == ","%char); first by move=> /andP[_ h1] /andP[_ h2]; exact: ih h1 h2.
exact: ih.
Qed.
Lemma split_at (x : ascii) s s' r r' : x \notin s -> x \notin s' -> s ++ x :: r = s' ++ x :: r' -> s = s' /\ r = r'.
Proof.
elim: s s' => [|y s IH] [|y' s'] //=; rewrite ?inE ?negb_or.
- by move=> _ _ [->].
- by move=> _ /andP[/eqP ne _] [] /ne.
- by move=> /andP[/eqP ne _] _ [] /esym /ne.
by move=> /andP[_ h1] /andP[_ h2] [-> /(IH _ h1 h2) [-> ->]].
Qed.
Lemma strip_cat s t : strip (s ++ t) = strip s ++ strip t.
Proof. exact: filter_cat. Qed.
Lemma notin_strip x s : x \notin s -> x \notin strip s.
Proof. by apply: contra; rewrite mem_filter => /andP[]. Qed.

Lemma class_parts c c' : template_names c -> template_names c' -> strip (cpp_class c) = strip (cpp_class c') ->
  [/\ strip (c_loop c) = strip (c_loop c'), strip (c_topology c) = strip (c_topology c'),
      strip (c_geometry c) = strip (c_geometry c'), strip (c_node c) = strip (c_node c') &
      strip (c_solver c) = strip (c_solver c')].
Proof.
case/and5P=> h1 h2 h3 h4 h5 /and5P[g1 g2 g3 g4 g5]; rewrite /cpp_class !strip_cat.
have -> : strip (t_ "<Topology::") = "<"%char :: t_ "Topology::" by [].
have -> : strip (t_ ",Geometry::") = ","%char :: t_ "Geometry::" by [].
have -> : strip (t_ ",NodeDescriptor::") = ","%char :: t_ "NodeDescriptor::" by [].
have -> : strip (t_ ",LocalSolver::") = ","%char :: t_ "LocalSolver::" by [].
have -> : strip (t_ " >") = [:: ">"%char] by [].
move: (strip (t_ "GlobalLoop::")) (t_ "Topology::") (t_ "Geometry::") (t_ "NodeDescriptor::") (t_ "LocalSolver::") => t1 t2 t3 t4 t5.
have hc : closing ","%char by []. have hk : closing ">"%char by [].
have cI (t a b : text) : t ++ a = t ++ b -> a = b by move/eqP; rewrite eqseq_cat // eqxx => /eqP.
rewrite -balanced_strip in h2; rewrite -balanced_strip in h3; rewrite -balanced_strip in h4; rewrite -balanced_strip in h5.
rewrite -balanced_strip in g2; rewrite -balanced_strip in g3; rewrite -balanced_strip in g4; rewrite -balanced_strip in g5.
move/cI/(split_at (notin_strip h1) (notin_strip g1)) => [-> /cI].
move/(balanced_split h2 g2 hc hc) => [-> [/cI]].
move/(balanced_split h3 g3 hc hc) => [-> [/cI]].
move/(balanced_split h4 g4 hc hc) => [-> [/cI]].
by move/(balanced_split h5 g5 hk hk) => [-> _].
Qed.
