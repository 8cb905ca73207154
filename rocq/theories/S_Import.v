(** Words for the properties of the Python import: C52-C55. *)
From Coq Require Import Ascii String.
From mathcomp Require Import all_ssreflect.
From Verif Require Import M_Base M_Text M_Import.
Set Implicit Arguments. Unset Strict Implicit. Unset Printing Implicit Defensive.

(** The text [s] has the directive #include <name> for a project header [name]. *)
Definition mentions (s name : text) : Prop :=
  exists a r b, [/\ name = t_ "HyperHDG/" ++ r, ">"%char \notin r & s = a ++ t_ "#include <" ++ name ++ t_ ">" ++ b].
(** [f] is the file that the name [x] stands for: below include/ if it is there, else below the main directory. *)
Definition header (fs : files) (x : text) (f : file) : Prop :=
  get (t_ "include/" ++ x) fs = Some f \/ (get (t_ "include/" ++ x) fs = None /\ get x fs = Some f).
(** Headers that the headers [l] include, directly or not. *)
Inductive reach (fs : files) (l : seq text) : text -> Prop :=
| reach_start x : x \in l -> reach fs l x
| reach_step x f y : reach fs l x -> header fs x f -> mentions (f_text f) y -> reach fs l y.

(** Names of C++ classes with template arguments: brackets match, and commas are inside brackets. *)
Fixpoint balanced (depth : nat) (s : text) : bool :=
  if s is x :: s' then
    if x == "<"%char then balanced depth.+1 s'
    else if x == ">"%char then (0 < depth) && balanced depth.-1 s'
    else if x == ","%char then (0 < depth) && balanced depth s'
    else balanced depth s'
  else depth == 0.
Definition template_names (c : config) : bool :=
  [&& "<"%char \notin c_loop c, balanced 0 (c_topology c), balanced 0 (c_geometry c), balanced 0 (c_node c) &
      balanced 0 (c_solver c)].

(** Before the first call: nothing was built, and files were written in the past. *)
Definition new_world (w : world) : Prop :=
  [/\ w_so w = [::], w_mods w = [::] & forall p f, get p (w_files w) = Some f -> f_time f < w_clock w].
(** The headers that the generated source for [c] includes. *)
Definition included (w : world) (c : config) : seq text :=
  (add_definitions (w_files w) c (odflt (w_shared w) (c_include c))).1.
Definition headers (w : world) (c : config) : seq text := [seq x <- included w c | contains (t_ ".hxx") x].
(** [b] was built from the file [p] as it is now. *)
Definition built_from (w : world) (b : built) (p : text) : Prop :=
  exists2 f, get p (w_files w) = Some f & get p (b_files b) = Some f.

Section Histories.
Variables (digest : text -> text) (cfg_default : text -> option (seq (option text))).
(** In the history [h] that starts in [w] every call for the module [n] has code of its own and succeeds. *)
Fixpoint calls_succeed (n : text) (w : world) (h : seq op) : Prop :=
  if h is o :: h' then
    (if o is Include c ok then
       module_name digest c = n ->
       c_code c <> [::] /\ exists b, (include digest cfg_default w c ok).2 = Ok b
     else True) /\ calls_succeed n (step digest cfg_default w o) h'
  else True.
End Histories.

(** A word of a class name: a capital letter followed by small letters and digits, at least one. *)
Definition word (s : text) : bool :=
  if s is c :: d :: s' then [&& is_upper c, is_lower d || is_digit d & all (fun x => is_lower x || is_digit x) s'] else false.
(** A hexadecimal number. *)
Definition hexadecimal (s : text) : bool := all (fun x => is_digit x || (96 < nat_of_ascii x < 103)) s.
(** The words in small letters, with underscores between them. *)
Definition snake (ws : seq text) : text :=
  if ws is w :: ws' then map lower w ++ flatten [seq t_ "_" ++ map lower v | v <- ws'] else [::].
(** No template arguments: neither an opening bracket nor a space. *)
Definition plain_name (s : text) : Prop := "<"%char \notin s /\ " "%char \notin s.

(** ** A small project for the examples: two headers of a cycle, and a class for each part of a configuration. *)
Definition ex_header (name : string) (rest : text) : text := rest ++ endl ++ t_ "class " ++ t_ name ++ endl ++ t_ "{" ++ endl ++ t_ "};" ++ endl.
Definition ex_inc (name : string) : text := t_ "#include <HyperHDG/" ++ t_ name ++ t_ ">" ++ endl.
Definition ex_file (s : text) : file := File s 0.
Definition ex_files : files :=
  [:: (t_ "include/HyperHDG/geometry/unit_cube.hxx", ex_file (ex_header "UnitCube" (ex_inc "topology/cubic.hxx")));
      (t_ "include/HyperHDG/node_descriptor/cubic.hxx", ex_file (ex_header "Cubic" (ex_inc "hypercube.hxx")));
      (t_ "include/HyperHDG/topology/cubic.hxx", ex_file (ex_header "Cubic" (ex_inc "geometry/unit_cube.hxx" ++ ex_inc "tools.hxx")));
      (t_ "include/HyperHDG/global_loop/elliptic.hxx", ex_file (ex_header "Elliptic" [::]));
      (t_ "include/HyperHDG/local_solver/diffusion_ldgh.hxx", ex_file (ex_header "Diffusion" [::]));
      (t_ "include/HyperHDG/local_solver/bilaplacian_ldgh.hxx", ex_file (ex_header "Bilaplacian" [::]));
      (t_ "include/HyperHDG/hypercube.hxx", ex_file (t_ "// cube"));
      (t_ "include/HyperHDG/tools.hxx", ex_file (t_ "// tools"));
      (t_ "include/HyperHDG/extra.hxx", ex_file (t_ "// extra"));
      (t_ "cython/elliptic.pxd", ex_file (t_ "IncludeFiles" ++ endl ++ t_ "cdef cppclass CythonClassName C++ClassName"));
      (t_ "cython/elliptic.pyx", ex_file (t_ "cdef class PythonClassName : vector[ CyReplace01 ]"));
      (t_ "cython/elliptic.cfg", ex_file (t_ "replacement01 = double"));
      (t_ "Python.h", ex_file (t_ "// Python"));
      (t_ "import/HyperHDG/import_cxx/compile_prep.py", ex_file (t_ "import glob"))].
Definition ex_world : world := World 1 ex_files [::] [::] [::] [::].
Definition ex_cfg : text -> option (seq (option text)) := fun _ => Some [:: Some (t_ "double")].
Definition ex_bits (c : ascii) : text :=
  let: Ascii b0 b1 b2 b3 b4 b5 b6 b7 := c in
  [seq if b then "1"%char else "0"%char | b <- [:: b0; b1; b2; b3; b4; b5; b6; b7]].
Definition ex_digest (s : text) : text := flatten (map ex_bits s).
Definition ex_conf2 : config :=
  Config (t_ "Elliptic") (t_ "Bilaplacian<1,1>") (t_ "Cubic<1,3>") (t_ "UnitCube<1,3>") (t_ "Cubic<1,3>") [::] [::] None false.
Definition ex_conf (replace : seq text) (code : text) : config :=
  Config (t_ "Elliptic") (t_ "Diffusion<1,1>") (t_ "Cubic<1,3>") (t_ "UnitCube<1,3>") (t_ "Cubic<1,3>") replace code None false.
