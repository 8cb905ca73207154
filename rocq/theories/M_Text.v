(** Text files and the C++ stream operations the readers and writers of /repo use: std::getline,
    std::istringstream >> word / unsigned int / floating point number, std::ostream << unsigned int.
    Nothing here models a function of /repo. *)
From Coq Require Import Ascii String.
From mathcomp Require Import all_ssreflect all_algebra.
Set Implicit Arguments. Unset Strict Implicit. Unset Printing Implicit Defensive.

Lemma ascii_eqP : Equality.axiom Ascii.eqb. Proof. exact: Ascii.eqb_spec. Qed.
Canonical ascii_eqType := EqType ascii (EqMixin ascii_eqP).
Definition text := seq ascii.
Definition t_ (s : string) : text := list_ascii_of_string s.

(** isspace in the C locale. *)
Definition newline : ascii := Ascii.ascii_of_nat 10.
Definition is_space (c : ascii) : bool := (c == " "%char) || (8 < nat_of_ascii c < 14).

(** The lines std::getline delivers one after the other: separated by newlines; nothing after a final
    newline. *)
Fixpoint lines_ (cur : text) (s : text) : seq text :=
  match s with
  | [::] => if cur is [::] then [::] else [:: rev cur]
  | c :: s' => if c == newline then rev cur :: lines_ [::] s' else lines_ (c :: cur) s'
  end.
Definition lines (s : text) : seq text := lines_ [::] s.

(** The state of an istringstream: the rest and whether it is good (no failbit). *)
Record istream := IStream { is_rest : text; is_good : bool }.
Definition istr (l : text) : istream := IStream l true.

Fixpoint skip_space (s : text) : text :=
  if s is c :: s' then (if is_space c then skip_space s' else s) else [::].
(** The longest prefix of characters with [p], and the rest. *)
Fixpoint span (p : pred ascii) (s : text) : text * text :=
  if s is c :: s' then (if p c then let: (a, b) := span p s' in (c :: a, b) else ([::], s)) else ([::], [::]).

(** [>>]: the old value stays if the stream is bad or only space is left; otherwise [conv] reads from the
    first other character. *)
Definition extract (A : Type) (conv : text -> A * istream) (old : A) (s : istream) : A * istream :=
  if ~~ is_good s then (old, s) else
  if skip_space (is_rest s) is c :: r then conv (c :: r) else (old, IStream [::] false).
(** std::string. *)
Definition conv_word (s : text) : text * istream :=
  let: (w, r) := span (fun c => ~~ is_space c) s in (w, IStream r true).
(** An unsigned integer with largest value [umax]: 0 if there is no number, the largest value on overflow;
    a minus sign wraps. *)
Definition is_digit (c : ascii) : bool := 47 < nat_of_ascii c < 58.
Definition digit_val (c : ascii) : nat := nat_of_ascii c - 48.
Definition digits_val (s : text) : nat := foldl (fun v c => 10 * v + digit_val c) 0 s.
Definition unsigned_of (s : text) : text * text :=
  span is_digit (if s is c :: r then (if (c == "-"%char) || (c == "+"%char) then r else s) else s).
Definition conv_unsigned (umax : nat) (s : text) : nat * istream :=
  let: (d, r) := unsigned_of s in
  if d is [::] then (0, IStream r false) else
  let v := digits_val d in
  if umax < v then (umax, IStream r false)
  else (if (head " "%char s == "-"%char) && (v != 0) then umax.+1 - v else v, IStream r true).
(** A floating point number; [parse] recognises a number at the start of a text; 0 if there is none. *)
Definition conv_float (F : ringType) (parse : text -> option (F * text)) (s : text) : F * istream :=
  if parse s is Some (x, r) then (x, IStream r true) else (0%R, IStream [::] false).
(** An uninitialised variable. *)
Definition conv_some (A : Type) (conv : text -> A * istream) (s : text) : option A * istream :=
  let: (x, r) := conv s in (Some x, r).

(** [for (i = 0; i < n; ++i) stream >> a[i]]; [a] is a list of the old values. *)
Fixpoint extract_row (A : Type) (conv : text -> A * istream) (old : seq A) (s : istream) : seq A * istream :=
  if old is x :: old' then
    let: (x, s) := extract conv x s in
    let: (l, s) := extract_row conv old' s in (x :: l, s)
  else ([::], s).

(** [<<] of an unsigned integer: decimal digits. *)
Definition digit (n : nat) : ascii := Ascii.ascii_of_nat (48 + n).
Fixpoint decimal_ (fuel n : nat) (acc : text) : text :=
  let acc := digit (n %% 10) :: acc in
  if fuel is fuel'.+1 then (if n < 10 then acc else decimal_ fuel' (n %/ 10) acc) else acc.
Definition decimal (n : nat) : text := decimal_ n n [::].
(** std::endl. *)
Definition endl : text := [:: newline].
