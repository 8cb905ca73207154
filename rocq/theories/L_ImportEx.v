(** The statements of P_Import: consequences of L_Import, and the counterexamples. *)
From Coq Require Import Ascii String.
From mathcomp Require Import all_ssreflect zify.
From Verif Require Import M_Base M_Text M_Import S_Import L_Import.
Set Implicit Arguments. Unset Strict Implicit. Unset Printing Implicit Defensive.

Lemma include_current_ digest cfg_default w0 h c ok b : let w := run digest cfg_default w0 h in
  new_world w0 -> get (module_name digest c) (w_mods w) = None -> (include digest cfg_default w c ok).2 = Ok b ->
  (forall x f, reach (w_files w) (headers w c) x -> header (w_files w) x f -> header (b_files b) x f) /\
  (forall e, [\/ e = "pxd"%string, e = "pyx"%string | e = "cfg"%string] -> built_from w b (cython_path c e)).
Proof. by move=> w h1 h2 h3; have [g1 g2] := include_current h1 h2 h3; split=> // x f hx; apply: g1. Qed.

Lemma need_compile_false w c l n w' : need_compile w c l n = (w', Ok false) ->
  exists b t, get n (w_so w) = Some (b, t) /\
    forall x, reach (w_files w) [seq x <- l | contains (t_ ".hxx") x] x -> exists2 f, header (w_files w) x f & f_time f <= t.
Proof.
rewrite /need_compile; have := own_codeP w c n; case: own_code => [w1 [] //] [e1 _ e3 _ _] //.
case; rewrite e3 e1; case: get => [[b t]|] // _ /out_of_date_false [_ h].
by exists b, t.
Qed.
Lemma oor_UB a b : oor a b = UB -> a = UB \/ b = UB.
Proof. by rewrite /oor; case: a => [[]|||] //= h; [right|left]. Qed.
Lemma check_not_UB k fs t deps i : check_files k fs t deps i <> UB.
Proof.
elim: k deps i => [//|k IH] deps i; rewrite check_filesS.
by case: drop => // x _; case: resolve => // f; case: ifP => // _; case: includes => // names; apply: IH.
Qed.
Lemma need_compile_terminates w c l n : (need_compile w c l n).2 <> UB.
Proof.
rewrite /need_compile; case: own_code => w1 [] //=; case: get => [[b t]|] //=; rewrite /out_of_date.
have nn fs p : newer fs t p <> UB by rewrite /newer; case: get.
do 2![case/oor_UB => [/nn //|]]; case/oor_UB => [//|]; do 3![case/oor_UB => [/nn //|]]; case/oor_UB => [//|].
case e: check_files => [[r|]|||] //=; first by case: (check_terminates e).
by move: e => /check_not_UB.
Qed.
Lemma included_definitions fs c l l' : add_definitions fs c l = (l', true) ->
  {subset l <= l'} /\
  forall folder name, List.In (t_ folder, name) [:: (t_ "geometry", c_geometry c); (t_ "node_descriptor", c_node c);
      (t_ "topology", c_topology c); (t_ "global_loop", c_loop c); (t_ "local_solver", c_solver c)] ->
    exists p f h, [/\ List.In (p, f) fs, in_folder (t_ folder) p, p = t_ "include/" ++ h, h \in l' &
      exists a b, f_text f = a ++ endl ++ t_ "class " ++ extract_classname name ++ endl ++ t_ "{" ++ b].
Proof.
move=> e; have := @add_definitionsP fs (l, true) [:: (t_ "geometry", c_geometry c); (t_ "node_descriptor", c_node c);
      (t_ "topology", c_topology c); (t_ "global_loop", c_loop c); (t_ "local_solver", c_solver c)].
rewrite -/(add_definitions fs c l) e => -[//|_ h1 h2]; split=> // folder name hin.
have hin2 : (t_ folder, name) \in [:: (t_ "geometry", c_geometry c); (t_ "node_descriptor", c_node c);
      (t_ "topology", c_topology c); (t_ "global_loop", c_loop c); (t_ "local_solver", c_solver c)].
  by move: hin; rewrite !inE; case=> [->|[->|[->|[->|[->|[]]]]]]; rewrite eqxx ?orbT.
have [h /find_definitionP [p [f [g1 g2 /containsP [a [b g3]] g4]]] hh] := h2 _ hin2.
exists p, f, h; split=> //; last by exists a, b; rewrite g3 /class_text -!catA.
have /and4P [/startsP [r er] _ _ _] := g2; rewrite g4 er /=.
by [].
Qed.

(** ** Counterexamples *)
Lemma ex_new : new_world ex_world.
Proof.
split=> // p f; rewrite /ex_world /ex_files /=.
by do 14![case: ifP => _; first by case=> <-].
Qed.
Definition code1 : text := ex_inc "extra.hxx".
Definition code2 : text := t_ "int y;".
Local Notation runx := (run ex_digest ex_cfg ex_world).
Local Notation inc := (include ex_digest ex_cfg).
Definition oktest (P : built -> bool) (r : outcome built) : bool := if r is Ok b then P b else false.
Lemma oktestP P r : oktest P r -> exists2 b, r = Ok b & P b.
Proof. by case: r => // b h; exists b. Qed.
Definition conf1 : config := ex_conf [::] code1.
Definition conf2 : config := ex_conf [::] code2.
Definition conf0 : config := ex_conf [::] [::].
Definition conff : config := ex_conf [:: t_ "float"] [::].

Definition changed : text := t_ "// changed".
Definition hist1 : seq op := [:: Include conf1 true; Edit (t_ "include/HyperHDG/extra.hxx") changed; Restart].
Lemma own_code_not_current : exists digest cfg_default w0 h c b x f, let w := run digest cfg_default w0 h in
  [/\ new_world w0, get (module_name digest c) (w_mods w) = None, (include digest cfg_default w c true).2 = Ok b,
      mentions (c_code c) x & header (w_files w) x f /\ ~ header (b_files b) x f].
Proof.
have [|b hb h1] := @oktestP (fun b => if resolve (b_files b) (t_ "HyperHDG/extra.hxx") is Some f then f_text f != changed else true)
  (inc (runx hist1) conf1 true).2; first by vm_compute.
exists ex_digest, ex_cfg, ex_world, hist1, conf1, b, (t_ "HyperHDG/extra.hxx"), (File changed 2); cbv zeta; split.
- exact: ex_new.
- by vm_compute.
- exact: hb.
- by exists [::], (t_ "extra.hxx"), endl; split; vm_compute.
split; first by left; vm_compute.
by move/headerP=> h2; move: h1; rewrite h2 => /negP; apply; apply: eqxx.
Qed.

Lemma failed_compilation : exists digest cfg_default w0 c d b, let h := [:: Include c true; Restart; Include d false; Restart] in
  let w := run digest cfg_default w0 h in
  [/\ new_world w0, w_mods w = [::], (include digest cfg_default w d true).2 = Ok b & c_code d <> [::] /\ b_code b <> Some (c_code d)].
Proof.
have [|b hb h1] := @oktestP (fun b => b_code b != Some code2)
  (inc (runx [:: Include conf1 true; Restart; Include conf2 false; Restart]) conf2 true).2; first by vm_compute.
exists ex_digest, ex_cfg, ex_world, conf1, conf2, b; cbv zeta; split.
- exact: ex_new.
- by vm_compute.
- exact: hb.
by clear hb; split=> //; apply/eqP.
Qed.
Lemma removed_code : exists digest cfg_default w0 c d b, let h := [:: Include c true; Restart] in
  let w := run digest cfg_default w0 h in
  [/\ new_world w0, w_mods w = [::], (include digest cfg_default w d true).2 = Ok b & c_code d = [::] /\ b_code b <> None].
Proof.
have [|b hb h1] := @oktestP (fun b => b_code b != None) (inc (runx [:: Include conf1 true; Restart]) conf0 true).2; first by vm_compute.
exists ex_digest, ex_cfg, ex_world, conf1, conf0, b; cbv zeta; split.
- exact: ex_new.
- by vm_compute.
- exact: hb.
by clear hb; split=> //; apply/eqP.
Qed.
Lemma same_process : exists digest cfg_default w0 c d b, let h := [:: Include c true] in
  let w := run digest cfg_default w0 h in
  [/\ new_world w0, (include digest cfg_default w d true).2 = Ok b, b_code b <> Some (c_code d) &
      exists b' t, get (module_name digest d) (w_so (include digest cfg_default w d true).1) = Some (b', t) /\ b_code b' = Some (c_code d)].
Proof.
have [|b hb h1] := @oktestP (fun b => b_code b != Some code2) (inc (runx [:: Include conf1 true]) conf2 true).2; first by vm_compute.
have h2 : (if get (module_name ex_digest conf2) (w_so (inc (runx [:: Include conf1 true]) conf2 true).1) is Some (b', _)
           then b_code b' == Some code2 else false) by vm_compute.
exists ex_digest, ex_cfg, ex_world, conf1, conf2, b; cbv zeta; split.
- exact: ex_new.
- exact: hb.
- by clear hb h2; apply/eqP.
clear hb h1; by case: get h2 => [[b' t]|] // /eqP h2; exists b', t.
Qed.

Lemma ex_digest_hex s : hexadecimal (ex_digest s).
Proof.
rewrite /ex_digest /hexadecimal; elim: s => [//|c s IH] /=; rewrite all_cat IH andbT.
have e (b : bool) : is_digit (if b then "1"%char else "0"%char) by case: b.
by case: c => b0 b1 b2 b3 b4 b5 b6 b7; rewrite [ex_bits _]/(map _ _) /= !e.
Qed.
Lemma ex_digest_inj : injective ex_digest.
Proof.
have sz c : size (ex_bits c) = 8 by case: c.
move=> s; rewrite /ex_digest; elim: s => [|c s IH] [|d r] //=; try by move/(congr1 size); rewrite size_cat sz.
move/eqP; rewrite eqseq_cat ?sz // => /andP [/eqP h1 /eqP /IH ->]; congr cons.
case: c d h1 => a0 a1 a2 a3 a4 a5 a6 a7 [b0 b1 b2 b3 b4 b5 b6 b7] [].
have e (x y : bool) : (if x then "1"%char else "0"%char) = (if y then "1"%char else "0"%char) -> x = y by case: x y => -[].
by do 8![move=> /e ->].
Qed.
Definition fields (c : config) :=
  (c_loop c, c_solver c, c_topology c, c_geometry c, c_node c, c_replace c, c_code c, c_include c, c_debug c).
Lemma fields_inj : injective fields.
Proof. by case=> ? ? ? ? ? ? ? ? ? [] ? ? ? ? ? ? ? ? ? [] -> -> -> -> -> -> -> -> ->. Qed.
Lemma shared_module : exists digest cfg_default w0 c d b, let w := run digest cfg_default w0 [:: Include c true; Restart] in
  [/\ new_world w0, (forall s, hexadecimal (digest s)) /\ injective digest,
      cython_source digest cfg_default (w_files w) c (included w c) "pyx" <> cython_source digest cfg_default (w_files w) d (included w d) "pyx",
      (include digest cfg_default w d true).2 = Ok b & b_conf b = c].
Proof.
have [|b hb h1] := @oktestP (fun b => fields (b_conf b) == fields conf0) (inc (runx [:: Include conf0 true; Restart]) conff true).2; first by vm_compute.
exists ex_digest, ex_cfg, ex_world, conf0, conff, b; cbv zeta; split.
- exact: ex_new.
- split; [exact: ex_digest_hex|exact: ex_digest_inj].
- by apply/eqP; vm_compute.
- exact: hb.
exact/fields_inj/eqP.
Qed.
Lemma shared_list : exists digest cfg_default w0 c d, let w := run digest cfg_default w0 [:: Include c true] in
  new_world w0 /\
  cython_source digest cfg_default (w_files w) d (included w d) "pxd" <> cython_source digest cfg_default (w_files w0) d (included w0 d) "pxd".
Proof.
exists ex_digest, ex_cfg, ex_world, conf0, ex_conf2; split; first exact: ex_new.
by apply/eqP; vm_compute.
Qed.
Lemma include_class digest cfg_default w0 h c ok b : let w := run digest cfg_default w0 h in
  new_world w0 -> (include digest cfg_default w c ok).2 = Ok b ->
  hexadecimal (digest (module_key (b_conf b))) -> hexadecimal (digest (module_key c)) ->
  (digest (module_key (b_conf b)) = digest (module_key c) -> module_key (b_conf b) = module_key c) ->
  strip (cpp_class (b_conf b)) = strip (cpp_class c) /\ c_debug (b_conf b) = c_debug c.
Proof. by move=> w hw hb h1 h2 h3; apply: key_inj; apply: h3; apply: same_module h1 h2 _; apply: include_named hw hb. Qed.
Lemma classnameE name : plain_name name -> extract_classname name = name /\
  forall rest, extract_classname (name ++ "<"%char :: rest) = name /\ extract_classname (name ++ " "%char :: rest) = name.
Proof.
move=> [h1 h2]; have hn : no_args name.
  by apply/allP => x hx; apply/andP; split; [apply: contra h1|apply: contra h2] => /eqP <-.
split; first by rewrite -{1}(cats0 name) extract_classnameE //; left.
by move=> rest; split; apply: extract_classnameE => //; right; eexists; exists rest; split=> //; [left|right].
Qed.

(** ** Examples *)
Lemma ex_reach : reach ex_files [:: t_ "HyperHDG/geometry/unit_cube.hxx"] (t_ "HyperHDG/tools.hxx").
Proof.
apply: (@reach_step _ _ (t_ "HyperHDG/topology/cubic.hxx")
  (ex_file (ex_header "Cubic" (ex_inc "geometry/unit_cube.hxx" ++ ex_inc "tools.hxx")))); last first.
- exists (ex_inc "geometry/unit_cube.hxx"), (t_ "tools.hxx"), (endl ++ ex_header "Cubic" [::]); split=> //; by vm_compute.
- by left; vm_compute.
apply: (@reach_step _ _ (t_ "HyperHDG/geometry/unit_cube.hxx")
  (ex_file (ex_header "UnitCube" (ex_inc "topology/cubic.hxx")))); last first.
- exists [::], (t_ "topology/cubic.hxx"), (endl ++ ex_header "UnitCube" [::]); split=> //; by vm_compute.
- by left; vm_compute.
by apply: reach_start; rewrite mem_head.
Qed.
Lemma ok_ex (r : outcome built) : oktest (fun _ => true) r -> exists b, r = Ok b.
Proof. by case/oktestP => b -> _; exists b. Qed.
Lemma ex_calls : 
  let c1 := ex_conf [::] (t_ "int x;") in let c2 := ex_conf [::] (t_ "int y;") in
  let h := [:: Include c1 true; Restart; Include c2 true; Restart] in
  [/\ new_world ex_world, calls_succeed ex_digest ex_cfg (module_name ex_digest c1) ex_world h,
      get (module_name ex_digest c1) (w_mods (run ex_digest ex_cfg ex_world h)) = None &
      exists b, (include ex_digest ex_cfg (run ex_digest ex_cfg ex_world h) c1 true).2 = Ok b].
Proof.
cbv zeta; split; [exact: ex_new| |by vm_compute|by apply: ok_ex; vm_compute].
split; first by move=> _; split=> //; apply: ok_ex; vm_compute.
split; first by [].
split; first by move=> _; split=> //; apply: ok_ex; vm_compute.
by split.
Qed.
