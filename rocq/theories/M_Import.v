(** Model of import/HyperHDG/import_cxx: names.py, cpp.py, config.py, compile_prep.py, include.py.
    The world is the files below the main directory (paths are relative to it), the build directory, and the
    running Python process.  Simplifications: the SHA-256 digest is a parameter [digest]; configparser is a
    parameter [cfg_default] that gives the default replacements a .cfg file states; the replacement strings of
    re.sub contain no backslashes; Python.h has the path "Python.h"; the log file, the messages and the
    options taken from CMake are left out; cython, compiler and linker are one step that takes no time, succeeds or fails, and
    leaves the old shared object in that case; the clock advances with every change of a file, and no
    file is deleted.  glob.glob lists files in the order of [w_files].  A failed assertion and any other
    exception is [Throw]. *)
From Coq Require Import Ascii String.
From mathcomp Require Import all_ssreflect.
From Verif Require Import M_Base M_Text.
Set Implicit Arguments. Unset Strict Implicit. Unset Printing Implicit Defensive.

(** ** Strings and dictionaries *)
Definition starts (p s : text) : bool := take (size p) s == p.
(** [p in s]. *)
Fixpoint contains (p s : text) : bool := starts p s || (if s is _ :: s' then contains p s' else false).
(** re.sub of a pattern without special characters; [skip] characters of a match are still to be skipped. *)
Fixpoint subst_ (p r : text) (skip : nat) (s : text) : text :=
  if s is c :: s' then
    if skip is k.+1 then subst_ p r k s'
    else if starts p s then r ++ subst_ p r (size p).-1 s' else c :: subst_ p r 0 s'
  else [::].
Definition subst (p r s : text) : text := subst_ p r 0 s.
Fixpoint get (A : Type) (k : text) (l : seq (text * A)) : option A :=
  if l is kv :: l' then (if kv.1 == k then Some kv.2 else get k l') else None.
Fixpoint put (A : Type) (k : text) (v : A) (l : seq (text * A)) : seq (text * A) :=
  if l is kv :: l' then (if kv.1 == k then (k, v) :: l' else kv :: put k v l') else [:: (k, v)].

Definition is_upper (c : ascii) : bool := 64 < nat_of_ascii c < 91.
Definition is_lower (c : ascii) : bool := 96 < nat_of_ascii c < 123.
Definition lower (c : ascii) : ascii := if is_upper c then Ascii.ascii_of_nat (nat_of_ascii c + 32) else c.

(** ** names.py *)
(** 5: re.sub('(.)([A-Z][a-z]+)', ...); [m] is set inside the last group of a match. *)
Fixpoint camel1 (m : bool) (s : text) : text :=
  match s with
  | c :: s' =>
    if m && is_lower c then c :: camel1 true s' else
    match s' with
    | d :: e :: s'' => if [&& c != newline, is_upper d & is_lower e]
                       then [:: c; "_"%char; d; e] ++ camel1 true s'' else c :: camel1 false s'
    | _ => c :: camel1 false s'
    end
  | [::] => [::]
  end.
(** 6: re.sub('([a-z0-9])([A-Z])', ...). *)
Fixpoint camel2 (s : text) : text :=
  match s with
  | c :: s' => match s' with
               | d :: s'' => if (is_lower c || is_digit c) && is_upper d
                             then [:: c; "_"%char; d] ++ camel2 s'' else c :: camel2 s'
               | [::] => c :: camel2 s'
               end
  | [::] => [::]
  end.
(** 4-6 cython_from_cpp. *)
Definition cython_from_cpp (name : text) : text := map lower (camel2 (camel1 false name)).

(** config.py:7-16.  [c_include] is None if the list of the class itself is used: it is shared by all
    configurations that do not set their own. *)
Record config := Config {
  c_loop : text; c_solver : text; c_topology : text; c_geometry : text; c_node : text;
  c_replace : seq text; c_code : text; c_include : option (seq text); c_debug : bool }.

Section Import.
Variables (digest : text -> text) (cfg_default : text -> option (seq (option text))).

(** 9-18 files: the C++ class and the name of the Python class, which is the name of the module. *)
Definition cpp_class (c : config) : text :=
  t_ "GlobalLoop::" ++ c_loop c ++ t_ "<Topology::" ++ c_topology c ++ t_ ",Geometry::" ++ c_geometry c ++
  t_ ",NodeDescriptor::" ++ c_node c ++ t_ ",LocalSolver::" ++ c_solver c ++ t_ " >".
Definition is_special (c : ascii) : bool := c \in t_ "+-*/<>,:".
Definition strip (s : text) : text := [seq x <- s | x != " "%char].
Definition module_key (c : config) : text := strip (cpp_class c ++ (if c_debug c then t_ "_deb" else t_ "_rel")).
Definition module_name (c : config) : text :=
  [seq if is_special x then "_"%char else x | x <- t_ "mod" ++ digest (module_key c)].
Definition cython_class (c : config) : text := module_name c ++ t_ "CP".

(** ** cpp.py *)
(** 5-7 extract_classname. *)
Definition extract_classname (fullname : text) : text :=
  take (find (fun x => (x == "<"%char) || (x == " "%char)) fullname) fullname.

(** The files: text and time of the last change. *)
Record file := File { f_text : text; f_time : nat }.
Definition files := seq (text * file).
(** 11: glob of include/HyperHDG/folder/*.hxx. *)
Definition in_folder (folder p : text) : bool :=
  let d := t_ "include/HyperHDG/" ++ folder ++ t_ "/" in
  let b := drop (size d) p in
  [&& starts d p, "/"%char \notin b, head "."%char b != "."%char & drop (size b - 4) b == t_ ".hxx"].
(** 13: the "or" of two nonempty strings is the first of them: structs are not looked for. *)
Definition class_text (name : text) : text := endl ++ t_ "class " ++ name ++ endl ++ t_ "{".
(** 10-15 find_definition; None if the assertion fails. *)
Fixpoint find_definition (fs : files) (folder name : text) : option text :=
  if fs is pf :: fs' then
    if in_folder folder pf.1 && contains (class_text name) (f_text pf.2) then Some (drop 8 pf.1)
    else find_definition fs' folder name
  else None.

(** ** config.py *)
(** 19-45 consistent; the types are right. *)
Definition consistent (c : config) : bool :=
  [&& c_loop c != [::], c_solver c != [::], c_topology c != [::], c_geometry c != [::] & c_node c != [::]].
(** 48-64: the list of included files afterwards, and whether all definitions were found. *)
Definition add_definition (fs : files) (st : seq text * bool) (fn : text * text) : seq text * bool :=
  if st.2 then
    if find_definition fs fn.1 (extract_classname fn.2) is Some h
    then (if h \in st.1 then st.1 else rcons st.1 h, true) else (st.1, false)
  else st.
Definition add_definitions (fs : files) (c : config) (l : seq text) : seq text * bool :=
  foldl (add_definition fs) (l, true)
    [:: (t_ "geometry", c_geometry c); (t_ "node_descriptor", c_node c); (t_ "topology", c_topology c);
        (t_ "global_loop", c_loop c); (t_ "local_solver", c_solver c)].
(** 65-70: the include string. *)
Definition quoted : text := [:: Ascii.ascii_of_nat 34].
Definition include_line (x : text) : text :=
  t_ "cdef extern from " ++ quoted ++ t_ "<" ++ x ++ t_ ">" ++ quoted ++ t_ ": pass" ++ endl.
Definition include_string (l : seq text) (cpp_inc : text) : text :=
  flatten (map include_line l) ++ (if cpp_inc == [::] then [::] else include_line cpp_inc).
(** 73-86 generate_cy_replace; None if the file, the number or a default is missing. *)
Definition cython_path (c : config) (ending : string) : text :=
  t_ "cython/" ++ cython_from_cpp (c_loop c) ++ t_ "." ++ t_ ending.
Fixpoint choose (given : seq text) (defaults : seq (option text)) : option (seq text) :=
  if defaults is d :: defaults' then
    let g := head [::] given in
    if (if g == [::] then d else Some g) is Some x then
      if choose (behead given) defaults' is Some l then Some (x :: l) else None
    else None
  else Some [::].
Definition cy_replace (fs : files) (c : config) : option (seq text) :=
  if get (cython_path c "cfg") fs is Some f then
    if cfg_default (f_text f) is Some ds then choose (c_replace c) ds else None
  else None.

(** ** compile_prep.py *)
(** 54-60: the names in #include <HyperHDG/...>; None if the closing bracket is missing. *)
Definition include_start : text := t_ "#include <HyperHDG/".
Fixpoint includes (s : text) : option (seq text) :=
  if s is _ :: s' then
    if includes s' is Some l then
      if starts include_start s then
        let r := drop 10 s in
        if ">"%char \in r then Some (take (index ">"%char r) r :: l) else None
      else Some l
    else None
  else Some [::].
(** 48-51. *)
Definition resolve (fs : files) (x : text) : option file :=
  if get (t_ "include/" ++ x) fs is Some f then Some f else get x fs.
(** 61-62. *)
Definition add_names (deps names : seq text) : seq text :=
  foldl (fun d x => if x \in d then d else rcons d x) deps names.
(** 46-63 need_compile_check_hy_files: the loop runs over the list while it grows; Ok None if it takes more
    than [fuel] steps. *)
Fixpoint check_files (fuel : nat) (fs : files) (time_so : nat) (deps : seq text) (i : nat) : outcome (option bool) :=
  if fuel is fuel'.+1 then
    if drop i deps is x :: _ then
      if resolve fs x is Some f then
        if time_so < f_time f then Ok (Some true) else
        if includes (f_text f) is Some names then check_files fuel' fs time_so (add_names deps names) i.+1 else Throw
      else Throw
    else Ok (Some false)
  else Ok None.
(** Enough steps (C52_terminates). *)
Definition enough (fs : files) (deps : seq text) : nat := (size deps + sumn [seq size (f_text pf.2) | pf <- fs]).+1.

(** What a module was built from. *)
Record built := Built { b_conf : config; b_includes : seq text; b_code : option text; b_files : files }.
(** The world: [w_code] are the .hxx files in build/cython_files, [w_so] the shared objects with their times,
    [w_mods] is sys.modules, [w_shared] the list config.include_files of the class. *)
Record world := World {
  w_clock : nat; w_files : files; w_code : seq (text * text); w_so : seq (text * (built * nat));
  w_mods : seq (text * built); w_shared : seq text }.
Definition set_code (w : world) (name code : text) : world :=
  World (w_clock w) (w_files w) (put name code (w_code w)) (w_so w) (w_mods w) (w_shared w).
Definition set_shared (w : world) (l : seq text) : world :=
  World (w_clock w) (w_files w) (w_code w) (w_so w) (w_mods w) l.
Definition set_so (w : world) (name : text) (b : built) : world :=
  World (w_clock w).+1 (w_files w) (w_code w) (put name (b, w_clock w) (w_so w)) (w_mods w) (w_shared w).
Definition set_mod (w : world) (name : text) (b : built) : world :=
  World (w_clock w) (w_files w) (w_code w) (w_so w) (put name b (w_mods w)) (w_shared w).

(** 66-76 own_code. *)
Definition own_code (w : world) (c : config) (name : text) : world * bool :=
  if c_code c == [::] then (w, false)
  else if get name (w_code w) == Some (c_code c) then (w, false)
  else (set_code w name (c_code c), true).
(** [time_so < os.stat(p).st_mtime]; os.stat throws if there is no such file. *)
Definition newer (fs : files) (time_so : nat) (p : text) : outcome bool :=
  if get p fs is Some f then Ok (time_so < f_time f) else Throw.
Definition newer_if (fs : files) (time_so : nat) (p : text) : outcome bool :=
  Ok (if get p fs is Some f then time_so < f_time f else false).
(** [a or b]: b is not evaluated if a is true. *)
Definition oor (a b : outcome bool) : outcome bool := obind a (fun x => if x then Ok true else b).
(** 27-43: the comparisons of times; 39: glob of a directory is the directory itself. *)
Definition out_of_date (fs : files) (c : config) (includes : seq text) (time_so : nat) : outcome bool :=
  oor (newer fs time_so (t_ "Python.h"))
  (oor (newer fs time_so (t_ "import/HyperHDG/import_cxx/compile_prep.py"))
  (oor (newer_if fs time_so (t_ "build/cmake_cython.cfg"))
  (oor (newer fs time_so (cython_path c "pxd"))
  (oor (newer fs time_so (cython_path c "pyx"))
  (oor (newer fs time_so (cython_path c "cfg"))
  (oor (newer_if fs time_so (t_ "import/HyperHDG/import_cxx"))
  (let deps := [seq x <- includes | contains (t_ ".hxx") x] in
   obind (check_files (enough fs deps) fs time_so deps 0) (fun r => if r is Some b then Ok b else UB)))))))).
(** 20-43 need_compile. *)
Definition need_compile (w : world) (c : config) (includes : seq text) (name : text) : world * outcome bool :=
  let: (w, own) := own_code w c name in
  (w, if own then Ok true else
      if get name (w_so w) is Some so then out_of_date (w_files w) c includes so.2 else Ok true).

(** ** include.py *)
(** '%02d'. *)
Definition two_digits (n : nat) : text := if n < 10 then t_ "0" ++ decimal n else decimal n.
(** 45-54: the generated .pxd or .pyx file. *)
Definition fill_template (c : config) (includes : text) (replace : seq text) (content : text) : text :=
  let content := subst (t_ "C++ClassName") (quoted ++ cpp_class c ++ quoted) content in
  let content := subst (t_ "CythonClassName") (cython_class c) content in
  let content := subst (t_ "PythonClassName") (module_name c) content in
  let content := subst (t_ "IncludeFiles") includes content in
  foldl (fun content i => subst (t_ "CyReplace" ++ two_digits i.+1) (nth [::] replace i) content) content
    (iota 0 (size replace)).
(** 37-40: the argument of extract_includes. *)
Definition code_path (c : config) : text :=
  if c_code c == [::] then [::] else t_ "build/cython_files/" ++ module_name c ++ t_ ".hxx".
(** The Cython sources (.pxd and .pyx) for a configuration whose list of included files is [includes]. *)
Definition cython_source (fs : files) (c : config) (includes : seq text) (ending : string) : option text :=
  if cy_replace fs c is Some replace then
    if get (cython_path c ending) fs is Some f
    then Some (fill_template c (include_string includes (code_path c)) replace (f_text f)) else None
  else None.
(** 66-70: import of the module. *)
Definition import_module (w : world) (name : text) : world * outcome built :=
  if get name (w_mods w) is Some b then (w, Ok b)
  else if get name (w_so w) is Some so then (set_mod w name so.1, Ok so.1) else (w, Throw).
(** 11-78 include; [ok]: the commands succeed. *)
Definition include (w : world) (c : config) (ok : bool) : world * outcome built :=
  if ~~ consistent c then (w, Throw) else
  if cy_replace (w_files w) c is None then (w, Throw) else
  let name := module_name c in
  let: (l, found) := add_definitions (w_files w) c (odflt (w_shared w) (c_include c)) in
  let w := if c_include c is None then set_shared w l else w in
  if ~~ found then (w, Throw) else
  let: (w, necessary) := need_compile w c l name in
  match necessary with
  | Ok true =>
    if isSome (get (cython_path c "pxd") (w_files w)) && isSome (get (cython_path c "pyx") (w_files w))
    then
      if ok then import_module (set_so w name (Built c l (if c_code c == [::] then None else get name (w_code w)) (w_files w))) name
      else (w, Throw)
    else (w, Throw)
  | Ok false => import_module w name
  | Throw => (w, Throw) | Abort => (w, Abort) | UB => (w, UB)
  end.

(** ** Histories: a file is written, include is called, a new Python process starts. *)
Inductive op := Edit of text & text | Include of config & bool | Restart.
Definition step (w : world) (o : op) : world :=
  match o with
  | Edit p s => World (w_clock w).+1 (put p (File s (w_clock w)) (w_files w)) (w_code w) (w_so w) (w_mods w) (w_shared w)
  | Include c ok => (include w c ok).1
  | Restart => World (w_clock w) (w_files w) (w_code w) (w_so w) [::] [::]
  end.
Definition run (w : world) (h : seq op) : world := foldl step w h.
End Import.
