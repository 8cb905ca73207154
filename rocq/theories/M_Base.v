(** Common vocabulary of the model: loops, array updates, outcomes.
    Nothing here models a particular function of /repo; these are the C++ constructs
    (for loops, std::array / std::vector stores, exceptions, assertions) the models use. *)
From mathcomp Require Import all_ssreflect all_algebra.
Set Implicit Arguments. Unset Strict Implicit. Unset Printing Implicit Defensive.

(** Outcome of a C++ call. [Throw] is a C++ exception, [Abort] a failed [hy_assert]
    (hy_assert.hxx:42-72, active unless NDEBUG), [UB] undefined behaviour
    (for instance an access outside an array in a build without assertions). *)
Inductive outcome (A : Type) : Type :=
| Ok of A
| Throw
| Abort
| UB.
Arguments Throw {A}. Arguments Abort {A}. Arguments UB {A}.

Definition obind A B (x : outcome A) (f : A -> outcome B) : outcome B :=
  match x with Ok a => f a | Throw => Throw | Abort => Abort | UB => UB end.
Definition omap A B (f : A -> B) (x : outcome A) : outcome B := obind x (fun a => Ok (f a)).

(** [for (unsigned int i = 0; i < n; ++i) body(i)] acting on a state. *)
Definition for_ (S : Type) (n : nat) (body : nat -> S -> S) (s : S) : S :=
  foldl (fun s i => body i s) s (iota 0 n).

(** The same with bodies that may fail: the first failure ends the loop. *)
Fixpoint foldo (S I : Type) (body : I -> S -> outcome S) (s : S) (l : seq I) : outcome S :=
  match l with
  | [::] => Ok s
  | i :: l' => obind (body i s) (fun s' => foldo body s' l')
  end.
Definition foro (S : Type) (n : nat) (body : nat -> S -> outcome S) (s : S) : outcome S :=
  foldo body s (iota 0 n).

(** Array store [a[i] = v]. Out-of-range stores leave the array alone here; every model that
    could run out of range uses the checked version [store] instead. *)
Definition upd (T : Type) (s : seq T) (i : nat) (v : T) : seq T :=
  if i < size s then set_nth v s i v else s.
Definition store (T : Type) (s : seq T) (i : nat) (v : T) : outcome (seq T) :=
  if i < size s then Ok (set_nth v s i v) else UB.
(** Array load with bounds check. *)
Definition load (T : Type) (s : seq T) (i : nat) : outcome T :=
  match drop i s with x :: _ => Ok x | [::] => UB end.

Section Acc.
Variable R : ringType.
(** [a[i] += v]. *)
Definition add_at (s : seq R) (i : nat) (v : R) : seq R := upd s i (nth 0%R s i + v)%R.
(** A sequence of [a[i] += v] statements in program order. *)
Definition accumulate (s : seq R) (evs : seq (nat * R)) : seq R :=
  foldl (fun s e => add_at s e.1 e.2) s evs.
End Acc.
