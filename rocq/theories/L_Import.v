(** Proofs about the Python import. *)
From Coq Require Import Ascii String.
From mathcomp Require Import all_ssreflect zify.
From Verif Require Import M_Base M_Text M_Import S_Import.
Set Implicit Arguments. Unset Strict Implicit. Unset Printing Implicit Defensive.

(** ** Dictionaries and strings *)
Lemma get_put (A : Type) (k k' : text) (v : A) l : get k (put k' v l) = if k' == k then Some v else get k l.
Proof.
elim: l => [|[k2 v2] l IH] //=; case: (k2 =P k') => [->|/eqP ne] /=; first by case: eqP.
by rewrite IH; case: (k2 =P k) => [e|//]; rewrite -e eq_sym (negbTE ne).
Qed.
Lemma startsP p s : reflect (exists r, s = p ++ r) (starts p s).
Proof.
apply: (iffP eqP) => [e|[r ->]]; last by rewrite take_size_cat.
by exists (drop (size p) s); rewrite -{1}e cat_take_drop.
Qed.
Lemma containsP p s : reflect (exists a b, s = a ++ p ++ b) (contains p s).
Proof.
elim: s => [|x s IH] /=.
  rewrite orbF; apply: (iffP (startsP p [::])) => [[r e]|[a [b e]]].
    by exists [::], r.
  by exists b; move: e; case: a.
apply: (iffP orP) => [[/startsP [r e]|/IH [a [b e]]]|[[|y a] [b e]]].
- by exists [::], r.
- by exists (x :: a), b; rewrite e.
- by left; apply/startsP; exists b.
- by right; apply/IH; case: e => _ e; exists a, b.
Qed.

(** ** Included names *)
Lemma includes_cons x s : includes (x :: s) =
  if includes s is Some l then
    if starts include_start (x :: s) then
      if ">"%char \in drop 10 (x :: s)
      then Some (take (index ">"%char (drop 10 (x :: s))) (drop 10 (x :: s)) :: l) else None
    else Some l
  else None.
Proof. by []. Qed.
Lemma includes_mentions s l name : includes s = Some l -> mentions s name -> name \in l.
Proof.
move=> h [a [r [b [en nr es]]]]; subst name s.
elim: a l h => [|x a IH] l.
  set s := _ ++ _ => h.
  have es : s = t_ "#include <" ++ (t_ "HyperHDG/" ++ r) ++ t_ ">" ++ b by [].
  case: s es h => // x s es; rewrite includes_cons; case: includes => // l'; rewrite es.
  have -> : starts include_start (t_ "#include <" ++ (t_ "HyperHDG/" ++ r) ++ t_ ">" ++ b).
    by apply/startsP; exists (r ++ t_ ">" ++ b); rewrite !catA.
  have -> : drop 10 (t_ "#include <" ++ (t_ "HyperHDG/" ++ r) ++ t_ ">" ++ b) = (t_ "HyperHDG/" ++ r) ++ t_ ">" ++ b by [].
  have ni : ">"%char \notin t_ "HyperHDG/" ++ r by rewrite mem_cat negb_or nr.
  move: (t_ "HyperHDG/" ++ r) ni => q ni.
  have hi : index ">"%char (q ++ t_ ">" ++ b) = size q by rewrite index_cat (negbTE ni) /= addn0.
  by rewrite mem_cat hi mem_cat mem_head orbT take_size_cat // => -[<-]; rewrite mem_head.
rewrite cat_cons includes_cons; case e: includes => [l'|] //; have h := IH _ e.
case: ifP => _; last by case=> <-.
by case: ifP => // _ [<-]; rewrite inE h orbT.
Qed.
Lemma mentions_includes s l name : includes s = Some l -> name \in l -> mentions s name.
Proof.
elim: s l => [|x s IH] l; first by case=> <-.
rewrite includes_cons; case e: includes => [l'|] //.
have ext : mentions s name -> mentions (x :: s) name.
  by case=> a [r [b [h1 h2 h3]]]; exists (x :: a), r, b; split=> //; rewrite h3.
case: ifP => [/startsP [r0 er]|_]; last by case=> <- /(IH _ e) /ext.
case: ifP => // hin [<-]; rewrite inE => /orP [/eqP ->|/(IH _ e) /ext //].
have ed : drop 9 s = t_ "HyperHDG/" ++ r0 by rewrite -[drop 9 s]/(drop 10 (x :: s)) er.
have {}hin : ">"%char \in t_ "HyperHDG/" ++ r0 by rewrite -ed.
rewrite ed.
have h0 : ">"%char \notin t_ "HyperHDG/" by [].
have hr : ">"%char \in r0 by move: hin; rewrite mem_cat (negbTE h0).
exists [::], (take (index ">"%char r0) r0), (drop (index ">"%char r0).+1 r0).
have ei : index ">"%char (t_ "HyperHDG/" ++ r0) = size (t_ "HyperHDG/") + index ">"%char r0 by rewrite index_cat (negbTE h0).
rewrite ei take_cat ltnNge leq_addr /= addKn; split=> //.
  have lt : index ">"%char r0 < size r0 by rewrite index_mem.
  apply/negP => /(nthP " "%char) [i hi]; rewrite size_take lt in hi.
  by rewrite nth_take // => /eqP e2; have := before_find " "%char hi; rewrite /= e2.
have e2 : r0 = take (index ">"%char r0) r0 ++ ">"%char :: drop (index ">"%char r0).+1 r0.
  by rewrite -{2}(nth_index " "%char hr) -drop_nth ?index_mem // cat_take_drop.
by rewrite er {1}e2 /include_start; move: (take _ _) (drop _ _) => A B.
Qed.
Lemma size_includes s l : includes s = Some l -> size l <= size s.
Proof.
elim: s l => [|x s IH] l; first by case=> <-.
rewrite includes_cons; case: includes IH => [l'|] // /(_ _ erefl) IH.
case: ifP => _; last by case=> <-; apply: leqW.
by case: ifP => // _ [<-].
Qed.

(** ** The loop over dependent files *)
Lemma add_names_sub deps names : {subset deps <= add_names deps names} /\ {subset names <= add_names deps names}.
Proof.
rewrite /add_names; elim: names deps => [|n names IH] deps /=; first by split.
have [h1 h2] := IH (if n \in deps then deps else rcons deps n).
have s1 : {subset deps <= if n \in deps then deps else rcons deps n}.
  by move=> x hx; case: ifP => // _; rewrite mem_rcons inE hx orbT.
split=> x; first by move/s1/h1.
rewrite inE => /orP [/eqP ->|/h2 //]; apply: h1; case: ifP => // _; by rewrite mem_rcons mem_head.
Qed.
Lemma add_names_prefix deps names : exists2 r, add_names deps names = deps ++ r & {subset r <= names} /\ (uniq r /\ {in r, forall x, x \notin deps}).
Proof.
rewrite /add_names; elim: names deps => [|n names IH] deps /=; first by exists [::]; rewrite ?cats0.
have [r -> [h1 [h2 h3]]] := IH (if n \in deps then deps else rcons deps n).
case: ifP h3 => hn h3.
  by exists r => //; split=> [x /h1|//]; rewrite inE orbC => ->.
exists (n :: r); first by rewrite cat_rcons.
split=> [x|]; first by rewrite !inE => /orP [-> //|/h1 ->]; rewrite orbT.
split=> [|x]; first by rewrite /= h2 andbT; apply/negP => /h3; rewrite mem_rcons mem_head.
rewrite inE => /orP [/eqP ->|/h3]; first by rewrite hn.
by rewrite mem_rcons inE negb_or => /andP [].
Qed.

Definition settled (fs : files) (t : nat) (deps : seq text) (x : text) : Prop :=
  exists f names, [/\ resolve fs x = Some f, f_time f <= t, includes (f_text f) = Some names & {subset names <= deps}].

Lemma check_filesS fuel fs t deps i : check_files fuel.+1 fs t deps i =
    if drop i deps is x :: _ then
      if resolve fs x is Some f then
        if t < f_time f then Ok (Some true) else
        if includes (f_text f) is Some names then check_files fuel fs t (add_names deps names) i.+1 else Throw
      else Throw
    else Ok (Some false).
Proof. by []. Qed.

Lemma check_false fuel fs t deps i : check_files fuel fs t deps i = Ok (Some false) ->
  (forall j, j < i -> j < size deps -> settled fs t deps (nth [::] deps j)) ->
  exists2 deps', {subset deps <= deps'} & {in deps', forall x, settled fs t deps' x}.
Proof.
elim: fuel deps i => [//|fuel IH] deps i; rewrite check_filesS.
case: (ltnP i (size deps)) => hi; last first.
  rewrite drop_oversize // => _ h; exists deps => // x hx.
  have hj : index x deps < size deps by rewrite index_mem.
  by have := h _ (leq_trans hj hi) hj; rewrite nth_index.
rewrite (drop_nth [::]) //; case er: resolve => [f|] //.
case: ltnP => // ht; case ei: includes => [names|] // /IH H h.
have [s1 s2] := add_names_sub deps names; have [r er2 _] := add_names_prefix deps names.
have mono x : settled fs t deps x -> settled fs t (add_names deps names) x.
  by case=> f' [n' [? ? ? hn]]; exists f', n'; split=> // y /hn /s1.
case: H => [j|deps' sd hd]; last by exists deps' => // x /s1 /sd.
rewrite ltnS leq_eqVlt => /orP [/eqP -> _|hj _]; last first.
  have hjs : j < size deps := ltn_trans hj hi.
  by rewrite er2 nth_cat hjs -er2; apply: mono; apply: h.
by rewrite er2 nth_cat hi -er2; exists f, names; split.
Qed.

Lemma headerP fs x f : header fs x f <-> resolve fs x = Some f.
Proof.
rewrite /header /resolve; split=> [[->|[-> ->]] //|].
by case: get => [g [->]|h]; [left|right].
Qed.

Lemma check_reach fuel fs t deps : check_files fuel fs t deps 0 = Ok (Some false) ->
  forall x, reach fs deps x -> exists2 f, header fs x f & f_time f <= t.
Proof.
case/check_false=> // deps' sd hd x hx.
have hin : x \in deps'.
  elim: hx => {x} [x /sd //|x f y _ hx /headerP hf hm].
  have [f' [names [ef _ en hn]]] := hd _ hx.
  by move: ef; rewrite hf => -[ef]; subst f'; apply: hn; apply: includes_mentions en hm.
by have [f [names [/headerP h1 h2 _ _]]] := hd _ hin; exists f.
Qed.

(** ** Termination *)
Definition all_names (fs : files) : seq text := flatten [seq odflt [::] (includes (f_text pf.2)) | pf <- fs].
Lemma get_names fs p f names : get p fs = Some f -> includes (f_text f) = Some names -> {subset names <= all_names fs}.
Proof.
elim: fs => [//|[q g] fs IH] /=; case: eqP => _ => [[->] h x hx|h1 h2 x /(IH h1 h2) hx].
  by rewrite /all_names /= h mem_cat hx.
by rewrite /all_names /= mem_cat -/(all_names fs) hx orbT.
Qed.
Lemma size_all_names fs : size (all_names fs) <= sumn [seq size (f_text pf.2) | pf <- fs].
Proof.
rewrite /all_names; elim: fs => [//|[q f] fs IH] /=; rewrite size_cat leq_add //.
by case e: includes => [l|] //=; apply: size_includes e.
Qed.
Lemma check_some fs t deps0 fuel deps i :
  (exists2 r, deps = deps0 ++ r & uniq r /\ {subset r <= all_names fs}) ->
  size deps0 + size (all_names fs) < fuel + i -> i <= size deps ->
  check_files fuel fs t deps i <> Ok None.
Proof.
move=> hd hf hi.
have bound d : (exists2 r, d = deps0 ++ r & uniq r /\ {subset r <= all_names fs}) -> size d <= size deps0 + size (all_names fs).
  by case=> r -> [hu hs]; rewrite size_cat leq_add2l; apply: uniq_leq_size.
elim: fuel deps i hd hf hi => [|fuel IH] deps i hd hf hi.
  by have := bound _ hd; lia.
rewrite check_filesS; case: (ltnP i (size deps)) => hlt; last by rewrite drop_oversize.
rewrite (drop_nth [::]) //; case er: resolve => [f|] //; case: ltnP => // _.
case ei: includes => [names|] //; apply: IH; last 2 first.
- by lia.
- by have [r -> _] := add_names_prefix deps names; rewrite size_cat; apply: ltn_addr.
have [q -> [h1 [h2 h3]]] := add_names_prefix deps names; have [r er2 [hu hs]] := hd.
have hn : {subset names <= all_names fs}.
  move: er; rewrite /resolve; case e: get => [g|] h; last exact: get_names h ei.
  by case: h => h; subst g; apply: get_names e ei.
exists (r ++ q); first by rewrite catA -er2.
split=> [|x]; last by rewrite mem_cat => /orP [/hs|/h1 /hn].
rewrite cat_uniq hu h2 andbT /=; apply/hasPn => x /h3; apply: contra => hx.
by rewrite er2 mem_cat; apply/orP; right.
Qed.
Lemma check_terminates fs t deps : check_files (enough fs deps) fs t deps 0 <> Ok None.
Proof.
apply: (@check_some _ _ deps) => //; first by exists [::]; rewrite ?cats0.
by rewrite /enough addn0 ltnS leq_add2l size_all_names.
Qed.

(** ** Calls *)
Section Calls.
Variables (digest : text -> text) (cfg_default : text -> option (seq (option text))).
Local Notation include := (include digest cfg_default).
Local Notation step := (step digest cfg_default).
Local Notation run := (run digest cfg_default).
Local Notation mname := (module_name digest).

(** What a call does: it fails and leaves the shared objects, it imports what there is, or it builds. *)
Variant call_spec (w : world) (c : config) : world * outcome built -> Prop :=
| CallFails w' r : (forall b, r <> Ok b) -> w_files w' = w_files w -> w_clock w' = w_clock w -> w_so w' = w_so w ->
    w_mods w' = w_mods w ->
    (forall n, n <> mname c -> get n (w_code w') = get n (w_code w)) -> call_spec w c (w', r)
| CallReuses w' b t l : add_definitions (w_files w) c (odflt (w_shared w) (c_include c)) = (l, true) ->
    get (mname c) (w_so w) = Some (b, t) -> out_of_date (w_files w) c l t = Ok false ->
    w_files w' = w_files w -> w_clock w' = w_clock w -> w_so w' = w_so w -> w_code w' = w_code w ->
    c_code c = [::] \/ get (mname c) (w_code w) = Some (c_code c) ->
    cy_replace cfg_default (w_files w) c ->
    (forall n, get n (w_mods w') = if mname c == n then Some (odflt b (get (mname c) (w_mods w))) else get n (w_mods w)) ->
    call_spec w c (w', Ok (odflt b (get (mname c) (w_mods w))))
| CallBuilds w' b : b = Built c (included w c) (if c_code c == [::] then None else Some (c_code c)) (w_files w) ->
    w_files w' = w_files w -> w_clock w' = (w_clock w).+1 ->
    w_so w' = put (mname c) (b, w_clock w) (w_so w) ->
    (forall n, get n (w_code w') = if (c_code c != [::]) && (mname c == n) then Some (c_code c) else get n (w_code w)) ->
    cython_source digest cfg_default (w_files w) c (included w c) "pxd" ->
    cython_source digest cfg_default (w_files w) c (included w c) "pyx" ->
    (forall n, get n (w_mods w') = if mname c == n then Some (odflt b (get (mname c) (w_mods w))) else get n (w_mods w)) ->
    call_spec w c (w', Ok (odflt b (get (mname c) (w_mods w)))).

Lemma importE w n b t : get n (w_so w) = Some (b, t) ->
  exists w', [/\ import_module w n = (w', Ok (odflt b (get n (w_mods w)))), w_files w' = w_files w, w_clock w' = w_clock w,
                 w_so w' = w_so w & w_code w' = w_code w /\
                 forall k, get k (w_mods w') = if n == k then Some (odflt b (get n (w_mods w))) else get k (w_mods w)].
Proof.
rewrite /import_module => ->; case e: (get n (w_mods w)) => [b'|]; eexists; split=> //=; split=> // k; last by rewrite get_put.
by case: eqP => // <-.
Qed.

Lemma own_codeP w c n : let: (w', own) := own_code w c n in
  [/\ w_files w' = w_files w, w_clock w' = w_clock w, w_so w' = w_so w, w_mods w' = w_mods w &
      (forall k, get k (w_code w') = if (c_code c != [::]) && (n == k) then Some (c_code c) else get k (w_code w)) /\
      (own = false -> w' = w /\ (c_code c = [::] \/ get n (w_code w) = Some (c_code c)))].
Proof.
rewrite /own_code; case: eqP => [->|ne] /=; first by split=> //; split=> // _; split=> //; left.
case: eqP => [e|_] /=; split=> //; split=> //; first by move=> k; case: eqP => // <-.
  by move=> _; split=> //; right.
by move=> k; rewrite get_put.
Qed.

Lemma includeP w c ok : call_spec w c (include w c ok).
Proof.
rewrite /M_Import.include; case: ifP => _; first by apply: CallFails.
case er: cy_replace => [rep|]; last by apply: CallFails.
case ed: add_definitions => [l found].
set w1 := (if c_include c is None then set_shared w l else w).
have [f1 f2 f3 f4 f5] : [/\ w_files w1 = w_files w, w_clock w1 = w_clock w, w_so w1 = w_so w, w_mods w1 = w_mods w & w_code w1 = w_code w].
  by rewrite /w1; case: c_include.
case: found ed => ed /=; last by apply: CallFails => //; rewrite f5.
have el : l = included w c by rewrite /included ed.
rewrite /need_compile; have := own_codeP w1 c (mname c).
case eo: own_code => [w2 own] [g1 g2 g3 g4 [g5 g6]].
have gc k : k <> mname c -> get k (w_code w2) = get k (w_code w).
  by move=> ne; rewrite g5 f5; case: (mname c =P k) => [e|_]; [case: ne|rewrite andbF].
have fail r : (forall b, r <> Ok b) -> call_spec w c (w2, r).
  by move=> hr; apply: CallFails => //; rewrite ?g1 ?g2 ?g3 ?g4.
set need := (if own then _ else _).
have build : call_spec w c (if isSome (get (cython_path c "pxd") (w_files w2)) && isSome (get (cython_path c "pyx") (w_files w2)) then
   if ok then import_module (set_so w2 (mname c) (Built c l (if c_code c == [::] then None else get (mname c) (w_code w2)) (w_files w2))) (mname c)
   else (w2, Throw) else (w2, Throw)).
  case: ifP => [/andP [h1 h2]|_]; last exact: fail.
  case: ok; last exact: fail.
  set b := Built _ _ _ _.
  have hso : get (mname c) (w_so (set_so w2 (mname c) b)) = Some (b, w_clock w2) by rewrite /= get_put eqxx.
  have [w' [-> e1 e2 e3 [e4 e5]]] := importE hso.
  rewrite /= g4 f4; apply: CallBuilds; rewrite ?e1 ?e2 ?e3 ?e4 /= ?g1 ?g2 ?g3 ?f1 ?f2 ?f3 //.
  - by rewrite /b g1 f1 -el g5 eqxx; case: eqP.
  - by move=> n; rewrite g5 f5.
  - by rewrite /cython_source er; move: h1; rewrite g1 f1; case: get.
  - by rewrite /cython_source er; move: h2; rewrite g1 f1; case: get.
  - by move=> n; rewrite e5 /= g4 f4.
case en: need => [[]|||]; [exact: build| |exact: fail..].
move: en; rewrite /need; case: own eo g6 {need} => eo g6 //.
have [ew hc] := g6 erefl; subst w2.
case es: get => [[b t]|] // ho.
have [w' [-> e1 e2 e3 [e4 e5]]] := importE es.
rewrite f4; apply: (@CallReuses _ _ w' b t l); rewrite ?e1 ?e2 ?e3 ?e4 ?er //.
- by rewrite -f3.
- by rewrite -f1.
- by rewrite -f5.
- by move=> n; rewrite e5 /= f4.
Qed.

(** ** What is built stays known *)
Definition dated (w : world) : Prop :=
  (forall p f, get p (w_files w) = Some f -> f_time f < w_clock w) /\
  (forall n b t, get n (w_so w) = Some (b, t) ->
     [/\ t < w_clock w, (forall p f, get p (w_files w) = Some f -> f_time f <= t -> get p (b_files b) = Some f) &
         (forall p, get p (w_files w) = None -> get p (b_files b) = None)]).
Lemma step_dated w o : dated w -> dated (step w o).
Proof.
case: o => [p s|c ok|] // [h1 h2]; last first.
  rewrite /M_Import.step; case: (include w c ok) / includeP => [w' r _|w' b t l _ _ _|w' b eb] e1 e2 e3 *.
  - by rewrite /dated e1 e2 e3.
  - by rewrite /dated e1 e2 e3.
  rewrite /dated e1 e2 e3; split=> [p f /h1|n b' t']; first exact: leqW.
  rewrite get_put; case: eqP => [_ [<- <-]|_ /h2 [g1 g2 g3]]; last by split=> //; apply: leqW.
  by rewrite eb /=; split.
split=> /= [q f|n b t /h2 [g1 g2 g3]].
  by rewrite get_put; case: eqP => [_ [<-] //|_ /h1]; apply: leqW.
split=> [|q f|q]; first exact: leqW.
  rewrite get_put; case: eqP => [_ [<-] /= ht|_]; last exact: g2.
  by move: (leq_ltn_trans ht g1); rewrite ltnn.
by rewrite get_put; case: eqP => // _; apply: g3.
Qed.
Lemma run_inv (P : world -> Prop) w h : (forall w o, P w -> P (step w o)) -> P w -> P (run w h).
Proof. by move=> hs; rewrite /M_Import.run; elim: h w => [//|o h IH] w hw /=; apply: IH; apply: hs. Qed.
Lemma run_dated w h : new_world w -> dated (run w h).
Proof. by case=> e _ ht; apply: run_inv step_dated _; split=> // n b t; rewrite e. Qed.

Lemma oor_false a b : oor a b = Ok false -> a = Ok false /\ b = Ok false.
Proof. by rewrite /oor; case: a => [[]|||]. Qed.
Lemma newer_false fs t p : newer fs t p = Ok false -> exists2 f, get p fs = Some f & f_time f <= t.
Proof. by rewrite /newer; case: get => [f [h]|//]; exists f => //; rewrite leqNgt h. Qed.
Lemma out_of_date_false fs c l t : out_of_date fs c l t = Ok false ->
  (forall p, p \in [:: cython_path c "pxd"; cython_path c "pyx"; cython_path c "cfg"; t_ "Python.h";
                      t_ "import/HyperHDG/import_cxx/compile_prep.py"] -> exists2 f, get p fs = Some f & f_time f <= t) /\
  (forall x, reach fs [seq x <- l | contains (t_ ".hxx") x] x -> exists2 f, header fs x f & f_time f <= t).
Proof.
rewrite /out_of_date.
case/oor_false=> /newer_false h1; case/oor_false=> /newer_false h2; case/oor_false=> _.
case/oor_false=> /newer_false h3; case/oor_false=> /newer_false h4; case/oor_false=> /newer_false h5.
case/oor_false=> _; case e: check_files => [[r|]|||] //= er.
split=> [p|].
  by rewrite !inE => /orP [/eqP -> //|/orP [/eqP -> //|/orP [/eqP -> //|/orP [/eqP -> //|/eqP -> //]]]].
by case: er e => -> /check_reach.
Qed.
Lemma dated_header w b t x f : dated w -> forall n, get n (w_so w) = Some (b, t) -> header (w_files w) x f -> f_time f <= t ->
  header (b_files b) x f.
Proof.
move=> [_ h] n /h [_ g1 g2] hx ht; case: hx => [hx|[hn hx]]; [left|right]; first exact: g1.
by split; [apply: g2|apply: g1].
Qed.

(** The module that a call returns in a new process was built from the headers and templates as they are. *)
Lemma include_current w0 h c ok b : new_world w0 -> get (mname c) (w_mods (run w0 h)) = None ->
  (include (run w0 h) c ok).2 = Ok b ->
  (forall x, reach (w_files (run w0 h)) (headers (run w0 h) c) x -> forall f, header (w_files (run w0 h)) x f -> header (b_files b) x f) /\
  (forall e, [\/ e = "pxd"%string, e = "pyx"%string | e = "cfg"%string] -> built_from (run w0 h) b (cython_path c e)).
Proof.
move=> hw; have := run_dated h hw; move: (run w0 h) => w hd hm.
case: (include w c ok) / includeP => [w' r hr|w' b' t l el es ho e1 e2 e3 _ _ _ _|w' b' eb e1 e2 e3 e4 h1 h2 _] /=.
- by move=> _ _ _ _ _ /hr.
- rewrite hm /= => -[<-]; have [hp hh] := out_of_date_false ho; split=> [x|e he].
    rewrite /headers /included el /= => /hh [f hx ht] f' hx'.
    have e : f' = f by move/headerP: (hx) (hx') => h1 /headerP; rewrite h1 => -[].
    by subst f'; apply: (dated_header hd es).
  have [|f hf ht] := hp (cython_path c e).
    by rewrite !inE; case: he => ->; rewrite eqxx ?orbT.
  by exists f => //; have [_ /(_ _ _ _ es) [_ g _]] := hd; apply: g.
rewrite hm /= => -[<-]; rewrite eb /=; split=> // e; rewrite /built_from /=.
have ex p : get p (w_files w) -> exists2 f, get p (w_files w) = Some f & get p (w_files w) = Some f.
  by case: get => // f _; exists f.
move=> he; apply: ex; move: h1 h2; rewrite /cython_source /cy_replace.
case e6: get => [f|] //; case: cfg_default => // ds; case: choose => // rep.
case e7: get => [g|] // _; case e8: get => [g'|] // _.
by case: he => ->; rewrite ?e6 ?e7 ?e8.
Qed.
(** ** Own code *)
Definition coded (n : text) (w : world) : Prop :=
  forall b t, get n (w_so w) = Some (b, t) -> exists2 s, b_code b = Some s & get n (w_code w) = Some s.
Lemma run_coded n w h : coded n w -> calls_succeed digest cfg_default n w h -> coded n (run w h).
Proof.
rewrite /M_Import.run; elim: h w => [//|o h IH] w hw /= [ho hh]; apply: IH hh.
case: o ho => [p s|c ok|] // ho; rewrite /M_Import.step; move: ho.
case: (include w c ok) / includeP => [w' r hr e1 e2 e3 e4 e5|w' b t l _ _ _ e1 e2 e3 e4 _ _ _|w' b eb e1 e2 e3 e4 _ _ _] ho /=.
- move=> b t; rewrite e3 => /hw [s h1 h2]; exists s => //; rewrite e5 // => en.
  by have [_ [b' /= /hr]] := ho (esym en).
- by move=> b' t'; rewrite e3 e4; apply: hw.
move=> b' t'; rewrite e3 e4 get_put; case: eqP => [en [<- _]|ne /hw]; last by rewrite andbF.
have [/eqP hne _] := ho en; exists (c_code c); first by rewrite eb /= (negbTE hne).
by rewrite hne.
Qed.
Lemma include_code w0 h c ok b : new_world w0 -> calls_succeed digest cfg_default (mname c) w0 h ->
  get (mname c) (w_mods (run w0 h)) = None -> c_code c <> [::] ->
  (include (run w0 h) c ok).2 = Ok b -> b_code b = Some (c_code c).
Proof.
case=> eso _ _ hs; have hc : coded (mname c) (run w0 h) by apply: run_coded hs => b' t; rewrite eso.
move: (run w0 h) hc => w hc hm hne.
case: (include w c ok) / includeP => [w' r hr|w' b' t l el es ho e1 e2 e3 e4 e5 _ _|w' b' eb e1 e2 e3 e4 h1 h2 _] /=.
- by move=> _ _ _ _ _ /hr.
- rewrite hm => -[<-] /=; have [s -> e6] := hc _ _ es.
  by case: e5 => //; rewrite e6.
by rewrite hm => -[<-] /=; rewrite eb /=; case: eqP.
Qed.

(** ** Names of modules *)
Definition named (w : world) : Prop :=
  (forall n b t, get n (w_so w) = Some (b, t) -> mname (b_conf b) = n) /\
  (forall n b, get n (w_mods w) = Some b -> mname (b_conf b) = n).
Lemma step_named w o : named w -> named (step w o).
Proof.
case: o => [p s|c ok|] // [h1 h2]; last by split.
rewrite /M_Import.step.
case: (include w c ok) / includeP => [w' r hr e1 e2 e3 e4 e5|w' b t l _ es _ e1 e2 e3 _ _ _ e4|w' b eb e1 e2 e3 _ _ _ e4] /=.
- by rewrite /named e3 e4.
- rewrite /named e3; split=> // n b'; rewrite e4; case: eqP => [en [<-]|_ /h2 //].
  by rewrite -en; case em: get => [b2|] /=; [apply: h2 em|apply: h1 es].
rewrite /named e3; split=> n b' => [t|]; rewrite ?get_put ?e4.
  by case: eqP => [en [<- _]|_ /h1 //]; rewrite eb.
case: eqP => [en [<-]|_ /h2 //].
by rewrite -en; case em: get => [b2|] /=; [apply: h2 em|rewrite eb].
Qed.
Lemma run_named w h : new_world w -> named (run w h).
Proof. by case=> e1 e2 _; apply: run_inv step_named _; split=> n b => [t|]; rewrite ?e1 ?e2. Qed.
Lemma include_named w0 h c ok b : new_world w0 -> (include (run w0 h) c ok).2 = Ok b -> mname (b_conf b) = mname c.
Proof.
move=> /(run_named h); move: (run w0 h) => w [h1 h2].
case: (include w c ok) / includeP => [w' r hr e1 e2 e3 e4 e5|w' b' t l _ es _ _ _ _ _ _ _ _|w' b' eb _ _ _ _ _ _ _] /=.
- by move/hr.
- by case=> <-; case em: get => [b2|] /=; [apply: h2 em|apply: h1 es].
by case=> <-; case em: get => [b2|] /=; [apply: h2 em|rewrite eb].
Qed.
Lemma hex_not_special s : hexadecimal s -> [seq if is_special x then "_"%char else x | x <- s] = s.
Proof.
elim: s => [//|x s IH] /= /andP [hx /IH ->]; case: ifP => // hs.
by move: hs hx; rewrite /is_special !inE; do 7![case/orP=> [/eqP -> //|]]; move/eqP=> ->.
Qed.
Lemma strip_cat s r : strip (s ++ r) = strip s ++ strip r.
Proof. exact: filter_cat. Qed.
Lemma key_inj c d : module_key c = module_key d -> strip (cpp_class c) = strip (cpp_class d) /\ c_debug c = c_debug d.
Proof.
rewrite /module_key [strip (cpp_class c ++ _)]strip_cat [strip (cpp_class d ++ _)]strip_cat; move: (strip (cpp_class c)) (strip (cpp_class d)) => a b.
have canc (r : text) : a ++ r = b ++ r -> a = b.
  move=> e; have es : size a = size b by move/(congr1 size): e; rewrite !size_cat; lia.
  by move/eqP: e; rewrite eqseq_cat // => /andP [/eqP].
have last4 s (r : text) : size r = 4 -> drop (size (s ++ r) - 4) (s ++ r) = r.
  by move=> e; rewrite size_cat e addnK drop_size_cat.
case: c_debug; case: c_debug => e.
- by split=> //; apply: canc e.
- by have := last4 a (strip (t_ "_deb")) erefl; rewrite e last4.
- by have := last4 a (strip (t_ "_rel")) erefl; rewrite e last4.
- by split=> //; apply: canc e.
Qed.
Lemma same_module c d : hexadecimal (digest (module_key c)) -> hexadecimal (digest (module_key d)) ->
  mname c = mname d -> digest (module_key c) = digest (module_key d).
Proof.
move=> hc hd; rewrite /module_name !map_cat (hex_not_special hc) (hex_not_special hd) => /eqP.
by rewrite eqseq_cat // => /andP [_ /eqP].
Qed.
End Calls.

(** ** Names *)
Definition lod (x : ascii) : bool := is_lower x || is_digit x.
Fixpoint hump (s : text) : text :=
  if s is c :: s' then c :: (if lod c && is_upper (head " "%char s') then "_"%char :: hump s' else hump s') else [::].
Lemma upper_lod x : is_upper x -> lod x = false.
Proof. by rewrite /is_upper /lod /is_lower /is_digit; lia. Qed.
Lemma hump_cons c s : hump (c :: s) = c :: (if lod c && is_upper (head " "%char s) then "_"%char :: hump s else hump s).
Proof. by []. Qed.
Lemma camel2_cons c d s : camel2 (c :: d :: s) =
  if (is_lower c || is_digit c) && is_upper d then [:: c, "_"%char, d & camel2 s] else c :: camel2 (d :: s).
Proof. by []. Qed.
Lemma camel2E s : camel2 s = hump s.
Proof.
have [n] := ubnP (size s); elim: n s => // n IH [//|c [|d s]] hs; first by rewrite /= andbF.
rewrite camel2_cons hump_cons -/(lod c) [head _ _]/=.
case: ifP => [/andP [_ hd]|_]; last by rewrite IH //; move: hs => /=; lia.
by rewrite IH ?hump_cons ?(upper_lod hd) //; move: hs => /=; lia.
Qed.
Definition humped : rel ascii := fun c d => is_upper d ==> lod c.
Lemma lod_newline x : lod x -> x != newline.
Proof. by move=> h; apply/eqP => e; move: h; rewrite e. Qed.
Lemma camel1_head m c s : exists s', camel1 m (c :: s) = c :: s'.
Proof.
rewrite /=; case: ifP => _; first by eexists.
by case: s => [|d [|e s]]; try (by eexists); case: ifP => _; eexists.
Qed.
Lemma camel1E m s : sorted humped s -> hump (camel1 m s) = hump s.
Proof.
have [n] := ubnP (size s); elim: n m s => // n IH m [//|c s] hs hp.
have hp' : sorted humped s by move: hp => /=; apply: path_sorted.
have next m' : hump (c :: camel1 m' s) = hump (c :: s).
  have hs' : size s < n by [].
  case: s hp hp' hs hs' => [//|d s] hp hp' hs hs'.
  have e := IH m' _ hs' hp'; have [r er] := camel1_head m' d s.
  by rewrite er in e *; move: e; rewrite /= => -[->].
rewrite /=; case: ifP => _; first exact: next.
case: s hp hp' hs next => [|d [|e s]] hp hp' hs next; try exact: next.
case: ifP => [/and3P [_ hd he]|_]; last exact: next.
have hc : lod c by move: hp => /= /andP []; rewrite /humped hd.
have e1 : camel1 true (e :: s) = e :: camel1 true s by rewrite /= he.
rewrite -[X in hump X]/[:: c, "_"%char, d & e :: camel1 true s] -e1.
have h2 : hump (camel1 true (e :: s)) = hump (e :: s).
  by apply: IH; [move: hs => /=; lia|move: hp' => /=; case/andP].
rewrite !hump_cons h2.
rewrite [in RHS]/= hc hd [lod _]/= (upper_lod hd) andbF /=.
by [].
Qed.

Lemma word_lod w : word w -> exists c d s, [/\ w = [:: c, d & s], is_upper c & all lod (d :: s)].
Proof. by case: w => [|c [|d s]] //= /and3P [h1 h2 h3]; exists c, d, s; rewrite /= /lod h2. Qed.
Lemma sorted_lod s r : all lod s -> sorted humped r -> s != [::] -> sorted humped (s ++ r).
Proof.
elim: s => [//|c s IH] /= /andP [hc hs] hr _.
case: s IH hs => [|d s] IH hs /=; last by have := IH hs hr isT; rewrite /= /humped hc implybT.
by case: (r) hr => [//|e r'] /= ->; rewrite /humped hc implybT.
Qed.
Lemma sorted_words ws : all word ws -> sorted humped (flatten ws).
Proof.
elim: ws => [//|w ws IH] /= /andP [/word_lod [c [d [s [-> hc hs]]]] /IH h].
have := sorted_lod hs h isT; rewrite /= => ->; rewrite andbT /humped.
by case: (boolP (is_upper d)) => [/upper_lod e|//]; move: hs => /=; rewrite e.
Qed.
Lemma hump_word s r : all lod s -> s != [::] ->
  hump (s ++ r) = s ++ (if is_upper (head " "%char r) then "_"%char :: hump r else hump r).
Proof.
elim: s => [//|c s IH] /andP [hc hs] _; rewrite cat_cons hump_cons hc /=; congr cons.
case: s IH hs => [//|d s] IH hs; rewrite IH //.
have hd : is_upper d = false by apply/negP => /upper_lod e; move: hs => /=; rewrite e.
by rewrite [head _ ((d :: s) ++ r)]/= hd.
Qed.
Lemma hump_words w ws : all word (w :: ws) -> hump (flatten (w :: ws)) = w ++ flatten [seq t_ "_" ++ v | v <- ws].
Proof.
elim: ws w => [|v ws IH] w /andP [/word_lod [c [d [s [-> hc hs]]]] h].
  rewrite [flatten _]/= !cats0 hump_cons (upper_lod hc) andFb; congr cons.
  by rewrite -[in LHS](cats0 (d :: s)) hump_word // cats0.
have -> : flatten [:: [:: c, d & s], v & ws] = c :: (d :: s) ++ flatten (v :: ws) by [].
rewrite hump_cons (upper_lod hc) andFb hump_word // IH //.
by have /andP [/word_lod [c' [d' [s' [-> hc' _]]]] _] := h; rewrite [head _ _]/= hc'.
Qed.
Lemma cython_from_cppE ws : all word ws -> cython_from_cpp (flatten ws) = snake ws.
Proof.
case: ws => [//|w ws] h; rewrite /cython_from_cpp camel2E camel1E; last exact: sorted_words.
rewrite hump_words // map_cat map_flatten -map_comp /snake.
by congr (_ ++ flatten _).
Qed.

Definition no_args (s : text) : bool := all (fun x => (x != "<"%char) && (x != " "%char)) s.
Lemma extract_classnameE name rest : no_args name -> rest = [::] \/ (exists x s, rest = x :: s /\ (x = "<"%char \/ x = " "%char)) ->
  extract_classname (name ++ rest) = name.
Proof.
move=> hn hr; rewrite /extract_classname find_cat.
have -> : has (fun x => (x == "<"%char) || (x == " "%char)) name = false.
  by apply/negbTE/hasPn => x /(allP hn); rewrite negb_or.
case: hr => [->|[x [s [-> hx]]]]; first by rewrite cats0 addn0 take_size.
by rewrite /=; case: hx => -> /=; rewrite addn0 take_size_cat.
Qed.

(** ** The definitions that are included *)
Lemma find_definitionP fs folder name h : find_definition fs folder name = Some h ->
  exists p f, [/\ List.In (p, f) fs, in_folder folder p, contains (class_text name) (f_text f) & h = drop 8 p].
Proof.
elim: fs => [//|[p f] fs IH] /=; case: ifP => [/andP [h1 h2] [<-]|_ /IH [q [g [h1 h2 h3 h4]]]].
  by exists p, f; split=> //; left.
by exists q, g; split=> //; right.
Qed.
Lemma add_definitionP fs st fn : (add_definition fs st fn).2 ->
  [/\ st.2, {subset st.1 <= (add_definition fs st fn).1} &
      exists2 h, find_definition fs fn.1 (extract_classname fn.2) = Some h & h \in (add_definition fs st fn).1].
Proof.
rewrite /add_definition; case: st => l [] //=; case: find_definition => [h|] //= _; split=> //.
  by move=> x hx; case: ifP => // _; rewrite mem_rcons inE hx orbT.
by exists h => //; case: ifP => // _; rewrite mem_rcons mem_head.
Qed.
Lemma add_definitionsP fs st fns : (foldl (add_definition fs) st fns).2 ->
  [/\ st.2, {subset st.1 <= (foldl (add_definition fs) st fns).1} &
      {in fns, forall fn, exists2 h, find_definition fs fn.1 (extract_classname fn.2) = Some h & h \in (foldl (add_definition fs) st fns).1}].
Proof.
elim: fns st => [|fn fns IH] st /=; first by split.
case/IH=> h1 h2 h3; have [g1 g2 [h eh hin]] := add_definitionP h1; split=> // [x /g2 /h2 //|fn'].
by rewrite inE => /orP [/eqP ->|/h3 //]; exists h => //; apply: h2.
Qed.
