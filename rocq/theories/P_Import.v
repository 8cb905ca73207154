(** Properties C52-C55: the Python import. *)
From Coq Require Import Ascii String.
From mathcomp Require Import all_ssreflect.
From Verif Require Import M_Base M_Text M_Import S_Import L_Import L_ImportEx L_ImportClass.
Set Implicit Arguments. Unset Strict Implicit. Unset Printing Implicit Defensive.

(** C52.  After any history of edits, calls and new processes: the module that a call returns in a process that has not
    imported it was built from the present contents of every project header that can be reached from the included headers,
    and of the Cython files. *)
Theorem C52_current digest cfg_default w0 h c ok b : let w := run digest cfg_default w0 h in
  new_world w0 -> get (module_name digest c) (w_mods w) = None -> (include digest cfg_default w c ok).2 = Ok b ->
  (forall x f, reach (w_files w) (headers w c) x -> header (w_files w) x f -> header (b_files b) x f) /\
  (forall e, [\/ e = "pxd"%string, e = "pyx"%string | e = "cfg"%string] -> built_from w b (cython_path c e)).
Proof. exact: include_current_. Qed.

(** It is not compiled again only if there is a shared object, and all these headers exist and are not newer. *)
Theorem C52_reused w c l n w' : need_compile w c l n = (w', Ok false) ->
  exists b t, get n (w_so w) = Some (b, t) /\
    forall x, reach (w_files w) [seq x <- l | contains (t_ ".hxx") x] x -> exists2 f, header (w_files w) x f & f_time f <= t.
Proof. exact: need_compile_false. Qed.

(** The scan of the headers ends, whatever they include. *)
Theorem C52_terminates w c l n : (need_compile w c l n).2 <> UB.
Proof. exact: need_compile_terminates. Qed.

(** The included files are those the user gives and, for each of the five classes, a header of its folder that defines it. *)
Theorem C52_included fs c l l' : add_definitions fs c l = (l', true) ->
  {subset l <= l'} /\
  forall folder name, List.In (t_ folder, name) [:: (t_ "geometry", c_geometry c); (t_ "node_descriptor", c_node c);
      (t_ "topology", c_topology c); (t_ "global_loop", c_loop c); (t_ "local_solver", c_solver c)] ->
    exists p f h, [/\ List.In (p, f) fs, in_folder (t_ folder) p, p = t_ "include/" ++ h, h \in l' &
      exists a b, f_text f = a ++ endl ++ t_ "class " ++ extract_classname name ++ endl ++ t_ "{" ++ b].
Proof. exact: included_definitions. Qed.

(** Not so for the headers that only the user's own code includes. *)
Theorem C52_own_code_refuted : exists digest cfg_default w0 h c b x f, let w := run digest cfg_default w0 h in
  [/\ new_world w0, get (module_name digest c) (w_mods w) = None, (include digest cfg_default w c true).2 = Ok b,
      mentions (c_code c) x & header (w_files w) x f /\ ~ header (b_files b) x f].
Proof. exact: own_code_not_current. Qed.

(** C53.  False: a call after one whose compilation failed returns the module built from older code; *)
Theorem C53_failed_refuted : exists digest cfg_default w0 c d b, let h := [:: Include c true; Restart; Include d false; Restart] in
  let w := run digest cfg_default w0 h in
  [/\ new_world w0, w_mods w = [::], (include digest cfg_default w d true).2 = Ok b & c_code d <> [::] /\ b_code b <> Some (c_code d)].
Proof. exact: failed_compilation. Qed.
(** a call without code returns the module built with code; *)
Theorem C53_removed_refuted : exists digest cfg_default w0 c d b, let h := [:: Include c true; Restart] in
  let w := run digest cfg_default w0 h in
  [/\ new_world w0, w_mods w = [::], (include digest cfg_default w d true).2 = Ok b & c_code d = [::] /\ b_code b <> None].
Proof. exact: removed_code. Qed.
(** a second call in the same process compiles, but returns the module of the first. *)
Theorem C53_process_refuted : exists digest cfg_default w0 c d b, let h := [:: Include c true] in
  let w := run digest cfg_default w0 h in
  [/\ new_world w0, (include digest cfg_default w d true).2 = Ok b, b_code b <> Some (c_code d) &
      exists b' t, get (module_name digest d) (w_so (include digest cfg_default w d true).1) = Some (b', t) /\ b_code b' = Some (c_code d)].
Proof. exact: same_process. Qed.
(** True if all calls for the module have code and succeed, and the process has not imported the module. *)
Theorem C53_code_partial digest cfg_default w0 h c ok b : let w := run digest cfg_default w0 h in
  new_world w0 -> calls_succeed digest cfg_default (module_name digest c) w0 h ->
  get (module_name digest c) (w_mods w) = None -> c_code c <> [::] ->
  (include digest cfg_default w c ok).2 = Ok b -> b_code b = Some (c_code c).
Proof. exact: include_code. Qed.

(** C54.  False: two configurations with different Cython sources get the same module, the one built first. *)
Theorem C54_refuted : exists digest cfg_default w0 c d b, let w := run digest cfg_default w0 [:: Include c true; Restart] in
  [/\ new_world w0, (forall s, hexadecimal (digest s)) /\ injective digest,
      cython_source digest cfg_default (w_files w) c (included w c) "pyx" <> cython_source digest cfg_default (w_files w) d (included w d) "pyx",
      (include digest cfg_default w d true).2 = Ok b & b_conf b = c].
Proof. exact: shared_module. Qed.
(** The same configuration has different sources after calls for other configurations: the default list of included files
    is one list that every call extends. *)
Theorem C54_history_refuted : exists digest cfg_default w0 c d, let w := run digest cfg_default w0 [:: Include c true] in
  new_world w0 /\
  cython_source digest cfg_default (w_files w) d (included w d) "pxd" <> cython_source digest cfg_default (w_files w0) d (included w0 d) "pxd".
Proof. exact: shared_list. Qed.
(** After any history, the returned module was built for a configuration with the same C++ class, up to spaces, and
    the same debug flag, unless the digests of the two class names collide. *)
Theorem C54_class_partial digest cfg_default w0 h c ok b : let w := run digest cfg_default w0 h in
  new_world w0 -> (include digest cfg_default w c ok).2 = Ok b ->
  hexadecimal (digest (module_key (b_conf b))) -> hexadecimal (digest (module_key c)) ->
  (digest (module_key (b_conf b)) = digest (module_key c) -> module_key (b_conf b) = module_key c) ->
  strip (cpp_class (b_conf b)) = strip (cpp_class c) /\ c_debug (b_conf b) = c_debug c.
Proof. exact: include_class. Qed.

(** The class determines loop, topology, geometry, node descriptor and local solver, up to spaces. *)
Theorem C54_parts c c' : template_names c -> template_names c' -> strip (cpp_class c) = strip (cpp_class c') ->
  [/\ strip (c_loop c) = strip (c_loop c'), strip (c_topology c) = strip (c_topology c'),
      strip (c_geometry c) = strip (c_geometry c'), strip (c_node c) = strip (c_node c') &
      strip (c_solver c) = strip (c_solver c')].
Proof. exact: class_parts. Qed.

(** C55. *)
Theorem C55_file_name ws : all word ws -> cython_from_cpp (flatten ws) = snake ws.
Proof. exact: cython_from_cppE. Qed.
Theorem C55_class_name name : plain_name name -> extract_classname name = name /\
  forall rest, extract_classname (name ++ "<"%char :: rest) = name /\ extract_classname (name ++ " "%char :: rest) = name.
Proof. exact: classnameE. Qed.

(** ** Examples *)
(** The module is built once, taken again by the next process, and built again after a change of a header that is
    included by way of a cycle. *)
Definition ex_current (o : outcome built) (time : nat) (w : world) (c : config) (text : text) : bool :=
  if o is Ok b then
    (if get (module_name ex_digest c) (w_so w) is Some (_, t) then t == time else false) &&
    (if get (t_ "include/HyperHDG/tools.hxx") (b_files b) is Some f then f_text f == text else false)
  else false.
Example C52_example :
  let c := ex_conf [::] [::] in
  let w1 := run ex_digest ex_cfg ex_world [:: Include c true; Restart] in
  let w2 := run ex_digest ex_cfg w1 [:: Include c false; Edit (t_ "include/HyperHDG/tools.hxx") (t_ "// new"); Restart] in
  [&& ex_current (include ex_digest ex_cfg w1 c false).2 1 (include ex_digest ex_cfg w1 c false).1 c (t_ "// tools"),
      ex_current (include ex_digest ex_cfg w2 c true).2 3 (include ex_digest ex_cfg w2 c true).1 c (t_ "// new") &
      if (include ex_digest ex_cfg w2 c false).2 is Throw then true else false].
Proof. by vm_compute. Qed.
Example C52_example_new : new_world ex_world.
Proof. exact: ex_new. Qed.
Example C52_example_reach : reach ex_files [:: t_ "HyperHDG/geometry/unit_cube.hxx"] (t_ "HyperHDG/tools.hxx").
Proof. exact: ex_reach. Qed.
(** Two processes with different code. *)
Example C53_example :
  let c1 := ex_conf [::] (t_ "int x;") in let c2 := ex_conf [::] (t_ "int y;") in
  let h := [:: Include c1 true; Restart; Include c2 true; Restart] in
  [/\ new_world ex_world, calls_succeed ex_digest ex_cfg (module_name ex_digest c1) ex_world h,
      get (module_name ex_digest c1) (w_mods (run ex_digest ex_cfg ex_world h)) = None &
      exists b, (include ex_digest ex_cfg (run ex_digest ex_cfg ex_world h) c1 true).2 = Ok b].
Proof. exact: ex_calls. Qed.
Example C54_example : template_names (ex_conf [::] [::]) && template_names ex_conf2.
Proof. by vm_compute. Qed.
Example C55_example :
  [&& cython_from_cpp (t_ "MassApproxEigenvalue") == t_ "mass_approx_eigenvalue",
      all word [:: t_ "Mass"; t_ "Approx"; t_ "H1"; t_ "Eigenvalue"] &
      extract_classname (t_ "Diffusion<1,2>") == t_ "Diffusion"].
Proof. by vm_compute. Qed.

Print Assumptions C52_current.
Print Assumptions C52_reused.
Print Assumptions C52_terminates.
Print Assumptions C52_included.
Print Assumptions C52_own_code_refuted.
Print Assumptions C53_failed_refuted.
Print Assumptions C53_removed_refuted.
Print Assumptions C53_process_refuted.
Print Assumptions C53_code_partial.
Print Assumptions C54_refuted.
Print Assumptions C54_history_refuted.
Print Assumptions C54_class_partial.
Print Assumptions C54_parts.
Print Assumptions C55_file_name.
Print Assumptions C55_class_name.
