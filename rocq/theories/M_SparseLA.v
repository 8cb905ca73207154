(** Model of include/HyperHDG/sparse_la.hxx. Floating point numbers are replaced by the elements
    of an ordered field; vectors live in a heap so that aliased arguments can be expressed. *)
From mathcomp Require Import all_ssreflect all_algebra.
From Verif Require Import M_Base.
Set Implicit Arguments. Unset Strict Implicit. Unset Printing Implicit Defensive.
Import GRing.Theory Num.Theory.
Local Open Scope ring_scope.

Section SparseLA.
Variable F : realFieldType.
Implicit Types (l r v : seq F).

(** sparse_la.hxx:47-56 inner_product. *)
Definition inner_product l r : outcome F :=
  if size l == size r then Ok (for_ (size l) (fun i p => p + nth 0 l i * nth 0 r i) 0) else Abort.
(** sparse_la.hxx:70-74 norm_2; std::sqrt is a parameter. *)
Definition norm_2 (sqrt : F -> F) v : outcome F := omap sqrt (inner_product v v).
(** sparse_la.hxx:92-104 linear_combination returning a vector. *)
Definition linear_combination (lf : F) l (rf : F) r : outcome (seq F) :=
  if size l == size r
  then Ok (for_ (size l) (fun i c => upd c i (lf * nth 0 l i + rf * nth 0 r i)) (nseq (size l) 0))
  else Abort.

(** Named vectors: reference arguments are names, two names may coincide. *)
Definition heap := nat -> seq F.
Definition hset (h : heap) (a : nat) v : heap := fun b => if b == a then v else h b.
(** sparse_la.hxx:123-135 linear_combination into a reference. *)
Definition linear_combination_to (lf : F) (l : nat) (rf : F) (r res : nat) (h : heap) : outcome heap :=
  if (size (h l) == size (h r)) && (size (h l) == size (h res))
  then Ok (for_ (size (h res)) (fun i h =>
         hset h res (upd (h res) i (lf * nth 0 (h l) i + rf * nth 0 (h r) i))) h)
  else Abort.

(** The local vectors of conjugate_gradient. *)
Definition vx := 0%N. Definition vr := 1%N. Definition vd := 2%N. Definition vz := 3%N.

(** sparse_la.hxx:179-200, the loop with [k] iterations left and [used] done; the operator may fail.
    A zero divisor gives infinities or NaNs in C++; all later comparisons are then false and the
    loop ends in the exception, so the model throws at once. *)
Fixpoint cg_loop (A : seq F -> outcome (seq F)) (tol : F) (k used : nat) (h : heap) (rsq : F)
    : outcome (seq F * nat) :=
  if k is k'.+1 then
    obind (A (h vd)) (fun z => let h := hset h vz z in
    obind (inner_product (h vd) (h vz)) (fun dz =>
    if dz == 0 then Throw else let alpha := rsq / dz in
    obind (linear_combination_to 1 vx alpha vd vx h) (fun h =>
    obind (linear_combination_to 1 vr (- alpha) vz vr h) (fun h =>
    obind (inner_product (h vr) (h vr)) (fun rsq' =>
    if rsq == 0 then Throw else let beta := rsq' / rsq in
    obind (linear_combination_to 1 vr beta vd vd h) (fun h =>
    if rsq' < tol * tol then Ok (h vx, used.+1) else cg_loop A tol k' used.+1 h rsq'))))))
  else Throw.

(** sparse_la.hxx:156-203 conjugate_gradient with the internal value of n_iterations on return. *)
Definition cg_run (A : seq F -> outcome (seq F)) (b : seq F) (n_iterations : nat) (tol : F)
    : outcome (seq F * nat) :=
  let x := nseq (size b) 0 in
  let h := hset (hset (hset (fun _ => [::]) vx x) vr b) vd b in
  obind (inner_product (h vr) (h vr)) (fun rsq =>
  if rsq < tol * tol then Ok (h vx, 0%N) else
  let n_iterations := if n_iterations == 0%N then size b else n_iterations in
  if n_iterations == 0%N then Abort else cg_loop A tol n_iterations 0 h rsq).
(** What the caller gets: the vector, and the variable passed for n_iterations after the call.
    The parameter is passed by value, so the variable keeps its value. *)
Definition conjugate_gradient (A : seq F -> outcome (seq F)) (b : seq F) (n_iterations : nat) (tol : F)
    : outcome (seq F) * nat :=
  (omap fst (cg_run A b n_iterations tol), n_iterations).
End SparseLA.
