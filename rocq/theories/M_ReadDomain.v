(** Model of include/HyperHDG/read_domain.hxx.  A file is its text.  Simplifications: floating point
    numbers are elements of a real field, std::istream >> double is a parameter [parse]; memory
    exhaustion is not modelled; [umax] is the largest unsigned int.  All index types are unsigned int (the
    defaults).  hy_assert is active unless [asserts] is false. *)
From Coq Require Import Ascii String.
From mathcomp Require Import all_ssreflect all_algebra.
From Verif Require Import M_Base M_DenseLA M_Text.
Set Implicit Arguments. Unset Strict Implicit. Unset Printing Implicit Defensive.

(** hy_assert.hxx:42-79. *)
Definition hassert (asserts : bool) (b : bool) A (k : outcome A) : outcome A :=
  if b || ~~ asserts then k else Abort.

(** 26-31 is_unique; [lt], [eq] are operator<, operator== of the entries.  std::sort is any function that
    returns a sorted permutation; for the orders used the result is unique. *)
Fixpoint has_adjacent (A : Type) (eq : A -> A -> bool) (s : seq A) : bool :=
  if s is x :: s' then (if s' is y :: _ then eq x y || has_adjacent eq s' else false) else false.
Definition is_unique (A : Type) (lt eq : A -> A -> bool) (s : seq A) : bool :=
  ~~ has_adjacent eq (sort (fun a b => ~~ lt b a) s).
(** operator< and operator== of std::array<unsigned int, n>. *)
Fixpoint arr_lt (a b : seq nat) : bool :=
  match a, b with
  | x :: a', y :: b' => if x < y then true else if y < x then false else arr_lt a' b'
  | [::], _ :: _ => true
  | _, [::] => false
  end.

Section Read.
Variable F : realDomainType.
Variables (parse : text -> option (F * text)) (umax : nat) (asserts : bool).
Variables (edge_dim space_dim : nat).
Local Notation assert := (hassert asserts).

(** 52-106 DomainInfo. *)
Record domain_info := DomainInfo {
  di_n_edges : nat; di_n_nodes : nat; di_n_points : nat; di_n_props : nat;
  di_points : seq (seq F); di_nodes : seq (seq nat); di_types : seq (seq nat);
  di_points_of : seq (seq nat); di_props : seq (seq F) }.

(** 111-153 check_consistency: [consistent] is overwritten in each step of the loops. *)
Definition check_indices (bound : nat) (l : seq (seq nat)) (consistent : bool) : outcome bool :=
  foldo (fun hyEdge consistent =>
    assert (is_unique ltn eqn hyEdge)
      (foldo (fun x _ => assert (x < bound) (Ok (x < bound))) consistent hyEdge)) consistent l.
Definition check_consistency (D : domain_info) : outcome bool :=
  obind (check_indices (di_n_nodes D) (di_nodes D) true) (fun consistent =>
  obind (check_indices (di_n_points D) (di_points_of D) consistent) (fun _ =>
  let consistent := is_unique (mat_lt space_dim) (mat_eq space_dim) (di_points D) in
  assert consistent (if ~~ consistent then Ok false else
  let consistent := is_unique arr_lt eq_op (di_nodes D) in
  assert consistent (if ~~ consistent then Ok false else
  let consistent := is_unique arr_lt eq_op (di_points_of D) in
  assert consistent (if ~~ consistent then Ok false else Ok true))))).

(** The variables keyword, equal_sign, linestream and the file: 183-185. *)
Record rstate := RState { r_key : text; r_eq : text; r_line : istream; r_file : seq text }.
(** [while (keyword != K && std::getline(infile, line)) { linestream = ...; linestream >> keyword; }], 193-197
    and its copies. *)
Fixpoint find_key (K : text) (key : text) (line : istream) (ls : seq text) : text * istream * seq text :=
  if key == K then (key, line, ls) else
  if ls is l :: ls' then
    let: (key, line) := extract conv_word key (istr l) in find_key K key line ls'
  else (key, line, [::]).
Definition goto_key (K : string) (st : rstate) : rstate :=
  let: (key, line, ls) := find_key (t_ K) (r_key st) (r_line st) (r_file st) in
  RState key (r_eq st) line ls.
(** [linestream >> equal_sign >> x], 198 and its copies. *)
Definition read_eq A (conv : text -> A * istream) (old : A) (st : rstate) : A * rstate :=
  let: (eq, line) := extract conv_word (r_eq st) (r_line st) in
  let: (x, line) := extract conv old line in
  (x, RState (r_key st) eq line (r_file st)).
Definition key_ok (K : string) (st : rstate) : bool := r_key st == t_ K.
Definition eq_ok (st : rstate) : bool := r_eq st == t_ "=".
(** 193-204, 206-217: a dimension; the variable is not initialised.  Evaluating an uninitialised variable
    in an assertion is undefined behaviour. *)
Definition read_dim (K : string) (expected : nat) A (st : rstate) (k : rstate -> outcome A) : outcome A :=
  let st := goto_key K st in
  let: (x, st) := read_eq (conv_some (conv_unsigned umax)) None st in
  assert (key_ok K st) (assert (eq_ok st)
    (if asserts then (if x is Some v then assert (v == expected) (k st) else UB) else k st)).
(** 219-253: a number. *)
Definition read_count (K : string) A (st : rstate) (k : nat -> rstate -> outcome A) : outcome A :=
  let st := goto_key K st in
  let: (v, st) := read_eq (conv_unsigned umax) 0 st in
  assert (key_ok K st) (assert (eq_ok st) (assert (v != 0) (k v st))).
(** 258-276: up to [n] lines, one point each; a coordinate that is missing keeps the value of the point before. *)
Fixpoint read_points (n : nat) (pt : seq F) (ls : seq text) : seq (seq F) * seq text :=
  if n is n'.+1 then
    if ls is l :: ls' then
      let: (pt, _) := extract_row (conv_float parse) pt (istr l) in
      let: (pts, ls) := read_points n' pt ls' in (pt :: pts, ls)
    else ([::], [::])
  else ([::], ls).
(** 289-296 and its copies: up to [n] lines, one array each, with initial value [row]. *)
Fixpoint read_rows A (conv : text -> A * istream) (row : seq A) (n : nat) (ls : seq text) : seq (seq A) * seq text :=
  if n is n'.+1 then
    if ls is l :: ls' then
      let: (r, _) := extract_row conv row (istr l) in
      let: (rs, ls) := read_rows conv row n' ls' in (r :: rs, ls)
    else ([::], [::])
  else ([::], ls).
(** Rows that were not read keep their initial value. *)
Definition fill A (row : A) (n : nat) (rs : seq A) : seq A := rs ++ nseq (n - size rs) row.
Definition set_file (st : rstate) (ls : seq text) : rstate := RState (r_key st) (r_eq st) (r_line st) ls.
(** 278-298, 300-316, 318-335: keyword and rows. *)
Definition read_section (K : string) (width n : nat) A (st : rstate)
    (k : seq (seq nat) -> rstate -> outcome A) : outcome A :=
  let st := goto_key K st in
  assert (key_ok K st)
    (let: (rs, ls) := read_rows (conv_unsigned umax) (nseq width 0) n (r_file st) in
     assert (size rs == n) (k (fill (nseq width 0) n rs) (set_file st ls))).

(** 179-180 and its copies: std::string::substr throws if the name has fewer than 4 characters. *)
Definition has_suffix A (suf : string) (name : text) (k : bool -> outcome A) : outcome A :=
  if size name < 4 then Throw else k (drop (size name - 4) name == t_ suf).

(** 176-372 read_domain_geo; [file] is the text of the file. *)
Definition read_domain_geo (name : text) (file : text) : outcome domain_info :=
  obind (if asserts then has_suffix ".geo" name (fun b => assert b (Ok tt)) else Ok tt) (fun _ =>
  let st := RState [::] [::] (istr [::]) (lines file) in
  read_dim "Space_Dim" space_dim st (fun st =>
  read_dim "HyperEdge_Dim" edge_dim st (fun st =>
  read_count "N_Points" st (fun n_points st =>
  read_count "N_HyperNodes" st (fun n_nodes st =>
  read_count "N_HyperEdges" st (fun n_edges st =>
  let st := goto_key "POINTS:" st in
  assert (key_ok "POINTS:" st)
  (let: (pts, ls) := read_points n_points (nseq space_dim 0%R) (r_file st) in
  assert (size pts == n_points)
  (let st := set_file st ls in
  read_section "HYPERNODES_OF_HYPEREDGES:" (2 * edge_dim) n_edges st (fun nodes st =>
  read_section "TYPES_OF_HYPERFACES:" (2 * edge_dim) n_edges st (fun types st =>
  read_section "POINTS_OF_HYPEREDGES:" (2 ^ edge_dim) n_edges st (fun points_of st =>
  let pts := fill (nseq space_dim 0%R) n_points pts in
  let st := goto_key "HYPEREDGE_PROPERTIES:" st in
  if ~~ key_ok "HYPEREDGE_PROPERTIES:" st then
    Ok (DomainInfo n_edges n_nodes n_points 0 pts nodes types points_of [::])
  else
    let: (n_props, _) := extract (conv_unsigned umax) 0 (r_line st) in
    let: (rs, _) := read_rows (conv_float parse) (nseq n_props 0%R) n_edges (r_file st) in
    assert (size rs == n_edges)
      (Ok (DomainInfo n_edges n_nodes n_points n_props pts nodes types points_of
             (fill [::] n_edges rs)))))))))))))).
End Read.
