(** Reading a .geo file of the documented format. *)
From Coq Require Import Ascii String.
From mathcomp Require Import all_ssreflect all_algebra zify.
From Verif Require Import M_Base L_Base M_DenseLA M_Text M_ReadDomain S_ReadDomain L_Text L_ReadDomain M_EpsGraph.
From Verif Require Import S_GeoFile L_EpsEx.
Set Implicit Arguments. Unset Strict Implicit. Unset Printing Implicit Defensive.

Definition tail_of (K : string) (l tail : text) : Prop :=
  exists2 s, l = s ++ t_ K ++ tail & blank s && word_end tail.
Lemma skip_spec l : exists2 s, blank s & l = s ++ skip_space l.
Proof.
elim: l => [|c l [s h1 h2]] /=; first by exists [::].
by case: ifP => hc; [exists (c :: s); rewrite /= ?hc // -h2 | exists [::]].
Qed.
Lemma span_spec p m : [/\ m = (span p m).1 ++ (span p m).2, all p (span p m).1
  & if (span p m).2 is c :: _ then ~~ p c else true].
Proof.
elim: m => [//|c m [h1 h2 h3]] /=; case: ifP => hc; last by rewrite /= hc.
by move: h1 h2 h3; case: (span p m) => a b /= -> ->; rewrite hc.
Qed.
Lemma other_line K key l : key != t_ K -> ~ starts_with K l ->
  exists key' line, extract conv_word key (istr l) = (key', line) /\ key' != t_ K.
Proof.
move=> hk hl; rewrite /extract /=; have [s h1 h2] := skip_spec l.
case E: (skip_space l) h2 => [|c r] h2; first by exists key; eexists.
rewrite /conv_word; have [g1 g2 g3] := span_spec (fun c => ~~ is_space c) (c :: r).
move: g1 g2 g3; case: (span _ _) => a b /= g1 g2 g3; exists a, (IStream b true); split=> //.
apply/eqP => e; apply: hl; exists s, b; split=> //; first by rewrite h2 -e g1.
by case: (b) g3 => //= d _ /negbNE.
Qed.
Lemma goto_up K st c l rest tail : t_ K != [::] -> solid (t_ K) -> r_key st != t_ K ->
  r_file st = c ++ l :: rest -> (forall l', l' \in c -> ~ starts_with K l') -> tail_of K l tail ->
  goto_key K st = RState (t_ K) (r_eq st) (IStream tail true) rest.
Proof.
move=> h1 h2; rewrite /goto_key => hk -> hc [s -> /andP[hs ht]].
have fk : find_key (t_ K) (r_key st) (r_line st) (c ++ (s ++ t_ K ++ tail) :: rest) =
    (t_ K, IStream tail true, rest); last by rewrite fk.
move: (r_key st) (r_line st) hk hc; elim: c => [|l' c IH] key line hk hc.
  rewrite /= (negbTE hk) extract_word //; by case: (rest) => [|? ?] /=; rewrite eqxx.
rewrite cat_cons /= (negbTE hk).
have [key' [line' [e hk']]] := other_line hk (hc _ (mem_head _ _)).
by rewrite e; apply: IH => // x hx; apply: hc; rewrite inE hx orbT.
Qed.
Lemma goto_none K st : t_ K != [::] -> solid (t_ K) -> r_key st != t_ K ->
  (forall l', l' \in r_file st -> ~ starts_with K l') -> key_ok K (goto_key K st) = false.
Proof.
move=> h1 h2; rewrite /goto_key /key_ok.
move: (r_key st) (r_line st) (r_file st) => key line ls; elim: ls key line => [|l ls IH] key line hk hc.
  by rewrite /= (negbTE hk) /= (negbTE hk).
rewrite /= (negbTE hk).
have [key' [line' [e hk']]] := other_line hk (hc _ (mem_head _ _)).
by rewrite e; apply: IH => // x hx; apply: hc; rewrite inE hx orbT.
Qed.

Section Rows.
Variables (A : Type) (says : text -> A -> Prop) (conv : text -> A * istream) (good : pred A).
Hypothesis H : forall w x r, says w x -> good x -> word_end r ->
  [/\ w != [::], ~~ is_space (head " "%char w) & conv (w ++ r) = (x, IStream r true)].
Lemma extract_rowE xs l old : row says xs l -> all good xs -> size old = size xs ->
  exists s, extract_row conv old (istr l) = (xs, s).
Proof.
move=> h; elim: h old => [rest|s w x ys l' h1 h2 h3 _ IH] [|y old] // hg hs; first by eexists.
case/andP: hg => g1 g2; have [w1 w2 w3] := H h2 g1 h3.
rewrite [extract_row _ _ _]/= extract_conv // w3.
by case: (IH old g2); [case: hs | move=> b ->; eexists].
Qed.
Lemma read_rowsE next rs ls old : rows says next rs ls -> all (all good) rs -> 
  all (fun r => size r == size old) rs ->
  exists2 rest, next rest & read_rows conv old (size rs) ls = (rs, rest).
Proof.
move=> h; elim: h => [ls' hn|r rs' l ls' h1 _ IH] hg hs; first by exists ls'.
case/andP: hg => g1 g2; case/andP: hs => /eqP s1 s2; have [rest hr e] := IH g2 s2; exists rest => //=.
by have [s ->] := extract_rowE h1 g1 (esym s1); rewrite e.
Qed.
End Rows.

Section File.
Variables (F : realDomainType) (parse : text -> option (F * text)).
Variables (umax : nat) (asserts : bool) (edge_dim dim : nat).
Lemma conv_nat_row w x r : says_nat w x -> x <= umax -> word_end r ->
  [/\ w != [::], ~~ is_space (head " "%char w) & conv_unsigned umax (w ++ r) = (x, IStream r true)].
Proof.
move=> -> hx hr; split; [exact: decimal_nonempty | exact: (solid_head (decimal_nonempty _) (decimal_solid _)) |].
apply: conv_decimal => //; case: r hr => //= c r hc; apply/negP => hd; by have := digit_not_space hd; rewrite hc.
Qed.
Lemma conv_float_row w x r : says_float parse w x -> true -> word_end r ->
  [/\ w != [::], ~~ is_space (head " "%char w) & conv_float parse (w ++ r) = (x, IStream r true)].
Proof. by case=> h1 h2 h3 _ hr; split=> //; [exact: solid_head | rewrite /conv_float h3]. Qed.
Lemma read_pointsE next ps ls (pt : seq F) : rows (says_float parse) next ps ls -> 
  all (fun r => size r == size pt) ps ->
  exists2 rest, next rest & read_points parse (size ps) pt ls = (ps, rest).
Proof.
move=> h; elim: h pt => [ls' hn|r rs' l ls' h1 _ IH] pt hs; first by exists ls'.
case/andP: hs => /eqP s1 s2.
have hg : all predT r by apply/allP.
have [s e] := extract_rowE conv_float_row h1 hg (esym s1).
have s2' : all (fun q => size q == size r) rs' by rewrite s1.
by have [rest hr e'] := IH r s2'; exists rest => //=; rewrite e e'.
Qed.

Lemma setting_tail K v l : setting K v l -> exists s2 s3 rest,
  [/\ tail_of K l (s2 ++ t_ "=" ++ s3 ++ decimal v ++ rest), blank s2 && blank s3, (s2 != [::]) && (s3 != [::])
    & number_end rest].
Proof.
case=> s1 [s2 [s3 [rest [-> /and3P[b1 b2 b3] /andP[n2 n3] hr]]]]; exists s2, s3, rest; rewrite b2 b3 n2 n3; split=> //.
by exists s1 => //; rewrite b1 /=; case: (s2) n2 b2 => //= c s _ /andP[].
Qed.
Definition okey st (K : string) := r_key st == t_ K.
Lemma read_eqE A (conv : text -> A * istream) old st s2 s3 v rest x r :
  r_line st = IStream (s2 ++ t_ "=" ++ s3 ++ decimal v ++ rest) true -> blank s2 -> blank s3 -> s3 != [::] ->
  conv (decimal v ++ rest) = (x, r) ->
  read_eq conv old st = (x, RState (r_key st) (t_ "=") r (r_file st)).
Proof.
move=> hl h2 h3 n3 hc; rewrite /read_eq hl extract_word //.
  rewrite extract_conv ?hc //; first exact: decimal_nonempty.
  exact: (solid_head (decimal_nonempty _) (decimal_solid _)).
by case: (s3) n3 h3 => //= c s _ /andP[].
Qed.
Lemma read_dimE K v A st ls next (k : rstate -> outcome A) : t_ K != [::] -> solid (t_ K) -> r_key st != t_ K ->
  r_file st = ls -> up_to K (setting K v) next ls -> v <= umax ->
  exists st', [/\ read_dim umax asserts K v st k = k st', r_key st' = t_ K & next (r_file st')].
Proof.
move=> h1 h2 h3 h4 [c [l [rest [e hc hl hn]]]] hv.
have [s2 [s3 [r [ht /andP[b2 b3] /andP[n2 n3] hr]]]] := setting_tail hl.
rewrite /read_dim (goto_up h1 h2 h3 (etrans h4 e) hc ht).
rewrite (@read_eqE _ _ _ _ s2 s3 v r (Some v) (IStream r true)) //; last first.
  by rewrite /conv_some (conv_decimal hv hr).
rewrite /hassert /key_ok /eq_ok /= !eqxx /=.
eexists; split; [by case: asserts; reflexivity | by [] | exact: hn].
Qed.
Lemma read_countE K v A st ls next (k : nat -> rstate -> outcome A) : t_ K != [::] -> solid (t_ K) -> r_key st != t_ K ->
  r_file st = ls -> up_to K (setting K v) next ls -> v <= umax ->
  exists st', [/\ read_count umax asserts K st k = hassert asserts (v != 0) (k v st'), r_key st' = t_ K & next (r_file st')].
Proof.
move=> h1 h2 h3 h4 [c [l [rest [e hc hl hn]]]] hv.
have [s2 [s3 [r [ht /andP[b2 b3] /andP[n2 n3] hr]]]] := setting_tail hl.
rewrite /read_count (goto_up h1 h2 h3 (etrans h4 e) hc ht).
rewrite (@read_eqE _ _ _ _ s2 s3 v r v (IStream r true)) //; last by rewrite (conv_decimal hv hr).
rewrite /hassert /key_ok /eq_ok /= !eqxx /=.
eexists; split; [reflexivity | by [] | exact: hn].
Qed.
Lemma goto_title K st ls next : t_ K != [::] -> solid (t_ K) -> r_key st != t_ K ->
  r_file st = ls -> up_to K (starts_with K) next ls ->
  exists st', [/\ goto_key K st = st', r_key st' = t_ K & next (r_file st')].
Proof.
move=> h1 h2 h3 h4 [c [l [rest [e hc [s [tail [hl b hw]]] hn]]]].
have ht : tail_of K l tail by exists s; rewrite ?b.
by rewrite (goto_up h1 h2 h3 (etrans h4 e) hc ht); eexists; split; first reflexivity.
Qed.
Lemma read_sectionE K width rs A st ls next (k : seq (seq nat) -> rstate -> outcome A) :
  t_ K != [::] -> solid (t_ K) -> r_key st != t_ K ->
  r_file st = ls -> up_to K (starts_with K) (rows says_nat next rs) ls ->
  all (fun r => size r == width) rs -> all (all (fun x => x <= umax)) rs ->
  exists st', [/\ read_section umax asserts K width (size rs) st k = k rs st', r_key st' = t_ K & next (r_file st')].
Proof.
move=> h1 h2 h3 h4 h5 h6 h7; rewrite /read_section; have [st' [-> k1 h8]] := goto_title h1 h2 h3 h4 h5.
rewrite {1}/hassert /key_ok k1 eqxx orTb.
have hs : all (fun r : seq nat => size r == size (nseq width 0)) rs by rewrite size_nseq.
have [rest hn ->] := read_rowsE conv_nat_row h8 h7 hs.
rewrite /hassert eqxx orTb /fill subnn cats0; eexists; split; first reflexivity; by [].
Qed.
Lemma read_geoE name file (D : domain_info F) : sized_domain edge_dim dim D -> small_domain umax D ->
  says_domain parse edge_dim dim D (lines file) -> dim <= umax -> edge_dim <= umax ->
  (asserts -> 4 <= size name /\ drop (size name - 4) name = t_ ".geo") ->
  (asserts -> [/\ 0 < di_n_points D, 0 < di_n_nodes D & 0 < di_n_edges D]) ->
  read_domain_geo parse umax asserts edge_dim dim name file = Ok D.
Proof.
move=> [[p1 p2] [n1 n2] [t1 t2] [q1 q2]] /and5P[u1 u2 u3 u4 /and3P[v1 v2 v3]] hf hd he hn hz.
rewrite /read_domain_geo.
have -> : (if asserts then has_suffix ".geo" name (fun b => hassert asserts b (Ok tt)) else Ok tt) = Ok tt.
  case: asserts hn => // /(_ isT)[h1 h2]; rewrite /has_suffix ltnNge h1 /= h2.
  by rewrite /hassert eqxx.
have pos b n : (asserts -> 0 < n) -> hassert asserts (n != 0) b = b :> outcome (domain_info F).
  rewrite /hassert => h; case: asserts h => [/(_ isT)|_]; last by rewrite orbT.
  by rewrite lt0n => ->.
have z1 (a : asserts) : 0 < di_n_points D by case: (hz a).
have z2 (a : asserts) : 0 < di_n_nodes D by case: (hz a).
have z3 (a : asserts) : 0 < di_n_edges D by case: (hz a).
have kne K K' st : r_key st = t_ K -> t_ K != t_ K' -> r_key st != t_ K' by move=> ->.
rewrite /obind.
set f1 := (fun st : rstate => read_dim _ _ _ _ _ _).
have [s1 [-> k1 {}hf]] := @read_dimE "Space_Dim" dim _ (RState [::] [::] (istr [::]) (lines file)) _ _ f1 isT isT isT (erefl _) hf hd.
rewrite {}/f1; set f := (fun st : rstate => _).
have [s2 [-> k2 {}hf]] := @read_dimE "HyperEdge_Dim" edge_dim _ s1 _ _ f isT isT (kne _ "HyperEdge_Dim"%string _ k1 isT) (erefl _) hf he.
rewrite {}/f; set f := (fun (n : nat) (st : rstate) => _).
have [s3 [-> k3 {}hf]] := @read_countE "N_Points" (di_n_points D) _ s2 _ _ f isT isT (kne _ "N_Points"%string _ k2 isT) (erefl _) hf u3.
rewrite (pos _ _ z1) {}/f; set f := (fun (n : nat) (st : rstate) => _).
have [s4 [-> k4 {}hf]] := @read_countE "N_HyperNodes" (di_n_nodes D) _ s3 _ _ f isT isT (kne _ "N_HyperNodes"%string _ k3 isT) (erefl _) hf u2.
rewrite (pos _ _ z2) {}/f; set f := (fun (n : nat) (st : rstate) => _).
have [s5 [-> k5 {}hf]] := @read_countE "N_HyperEdges" (di_n_edges D) _ s4 _ _ f isT isT (kne _ "N_HyperEdges"%string _ k4 isT) (erefl _) hf u1.
rewrite (pos _ _ z3) {}/f.
have [s6 [-> k6 {}hf]] := @goto_title "POINTS:" _ _ _ isT isT (kne _ "POINTS:"%string _ k5 isT) (erefl _) hf.
rewrite {1}/hassert /key_ok k6 eqxx orTb -p1.
have hs : all (fun r : seq F => size r == size (nseq dim (0%R : F))) (di_points D) by rewrite size_nseq.
have [rest {}hf ->] := read_pointsE hf hs.
rewrite {1}/hassert eqxx orTb /fill subnn cats0.
set s7 := set_file s6 rest.
have k7 : r_key s7 = t_ "POINTS:" by [].
have {}hf : _ (r_file s7) := hf.
set f := (fun (n : seq (seq nat)) (st : rstate) => _).
rewrite -n1.
have [s8 [-> k8 {}hf]] := @read_sectionE "HYPERNODES_OF_HYPEREDGES:" _ _ _ s7 _ _ f isT isT (kne _ "HYPERNODES_OF_HYPEREDGES:"%string _ k7 isT) (erefl _) hf n2 v1.
rewrite {}/f; set f := (fun (n : seq (seq nat)) (st : rstate) => _).
rewrite -t1.
have [s9 [-> k9 {}hf]] := @read_sectionE "TYPES_OF_HYPERFACES:" _ _ _ s8 _ _ f isT isT (kne _ "TYPES_OF_HYPERFACES:"%string _ k8 isT) (erefl _) hf t2 v2.
rewrite {}/f; set f := (fun (n : seq (seq nat)) (st : rstate) => _).
rewrite -q1.
have [s10 [-> k10 {}hf]] := @read_sectionE "POINTS_OF_HYPEREDGES:" _ _ _ s9 _ _ f isT isT (kne _ "POINTS_OF_HYPEREDGES:"%string _ k9 isT) (erefl _) hf q2 v3.
rewrite {}/f.
case: hf => [[e1 [e2 hl]]|[[c [l [rest' [e hc hl hr]]]] [e1 e2]]].
  rewrite -/(key_ok _ _) goto_none // ?k10 //.
  by rewrite p1; case: (D) e1 e2 => //= ? ? ? ? ? ? ? ? ? -> ->.
case: hl => a1 [a2 [a3 [hl /andP[b1 b2] b3 b4]]].
have ht : tail_of "HYPEREDGE_PROPERTIES:" l (a2 ++ decimal (di_n_props D) ++ a3).
  by exists a1 => //; rewrite b1 /=; case: (a2) b2 b3 => //= c' a /andP[].
have h10 : r_key s10 != t_ "HYPEREDGE_PROPERTIES:" by rewrite k10.
rewrite (goto_up _ _ h10 e hc ht) //= extract_decimal //.
have hs' : all (fun r : seq F => size r == size (nseq (di_n_props D) (0%R : F))) (di_props D) by rewrite size_nseq.
have hg : all (all predT) (di_props D) by apply/allP => r _; apply/allP.
rewrite -[X in read_rows _ _ X]e1; have [? _ ->] := read_rowsE conv_float_row hr hg hs'.
rewrite e1 eqxx /hassert subnn cats0 p1 /=.
by case: (D).
Qed.
End File.

Lemma read_geo_domain (F : rcfType) parse show umax (asserts : bool) edge_dim dim name file (D : domain_info F) :
  sized_domain edge_dim dim D -> small_domain umax D ->
  says_domain parse edge_dim dim D (lines file) -> dim <= umax -> edge_dim <= umax ->
  4 <= size name -> drop (size name - 4) name = t_ ".geo" ->
  (asserts -> [/\ 0 < di_n_points D, 0 < di_n_nodes D & 0 < di_n_edges D]) ->
  (asserts -> valid_domain dim D) ->
  read_domain parse show umax asserts dim edge_dim name (Some file) = Ok D.
Proof.
move=> h1 h2 h3 h4 h5 h6 h7 h8 h9; rewrite /read_domain {1}/hassert /= /has_suffix ltnNge h6 /= h7.
have -> : (t_ ".geo" == t_ ".pts") = false by [].
rewrite [obind _ _]/= ltnNge h6 /= h7.
have -> : (if asserts then hassert asserts (t_ ".geo" == t_ ".geo") (Ok tt) else Ok tt) = Ok tt.
  by rewrite /hassert eqxx; case: (asserts).
rewrite /= (read_geoE h1 h2 h3) //= => {h8}.
case: asserts h9 => // /(_ isT) hv; rewrite check_debug.
by rewrite (introT (validP dim D) hv) /= /hassert.
Qed.
Lemma says_unique (F : realDomainType) (parse : text -> option (F * text)) edge_dim dim (D D' : domain_info F) ls :
  all no_newline ls -> sized_domain edge_dim dim D -> sized_domain edge_dim dim D' ->
  says_domain parse edge_dim dim D ls -> says_domain parse edge_dim dim D' ls -> D = D'.
Proof.
move=> hl s1 s2 h1 h2.
pose top (l : seq (seq nat)) := foldr maxn 0 (flatten l).
have topP l : forall m, top l <= m -> all (all (fun x => x <= m)) l.
  move=> m; rewrite /top; elim: l => [//|r l IH] /=; elim: r => [|x r IHr] /=; first exact: IH.
  by rewrite geq_max -andbA => /andP[-> /IHr].
pose m (E : domain_info F) := maxn (di_n_edges E) (maxn (di_n_nodes E) (maxn (di_n_points E) (maxn (di_n_props E)
  (maxn (top (di_nodes E)) (maxn (top (di_types E)) (top (di_points_of E))))))).
have small E u : m E <= u -> small_domain u E.
  rewrite /m !geq_max => /and5P[a b c d /and3P[e f g]]; rewrite /small_domain a b c d /=.
  by rewrite !topP.
pose u := maxn (maxn (m D) (m D')) (maxn dim edge_dim).
have g1 : small_domain u D by apply: small; rewrite /u; lia.
have g2 : small_domain u D' by apply: small; rewrite /u; lia.
have u1 : dim <= u by rewrite /u; lia.
have u2 : edge_dim <= u by rewrite /u; lia.
have r E : sized_domain edge_dim dim E -> small_domain u E -> says_domain parse edge_dim dim E ls ->
    read_domain_geo parse u false edge_dim dim [::] (unlines ls) = Ok E.
  by move=> a b c; apply: read_geoE => //; rewrite lines_unlines.
by have := r D s1 g1 h1; rewrite (r D' s2 g2 h2) => -[].
Qed.
(** Any domain can be written. *)
Section Write.
Variables (F : realDomainType) (parse : text -> option (F * text)) (show : F -> text) (rnd : F -> F).
Hypothesis H : float_text parse show rnd.
Definition row_text A (f : A -> text) (xs : seq A) : text := flatten [seq t_ " " ++ f x | x <- xs].
Definition set_text (K : string) (v : nat) : text := t_ K ++ t_ " = " ++ decimal v ++ t_ "; # a number".
Definition doc (edge_dim dim : nat) (D : domain_info F) : seq text :=
  [:: t_ "# A domain", [::], set_text "Space_Dim" dim, set_text "HyperEdge_Dim" edge_dim,
      set_text "N_Points" (di_n_points D), set_text "N_HyperNodes" (di_n_nodes D),
      set_text "N_HyperEdges" (di_n_edges D), [::], t_ "POINTS:" & map (row_text show) (di_points D)] ++
  [:: [::], t_ "HYPERNODES_OF_HYPEREDGES:" & map (row_text decimal) (di_nodes D)] ++
  [:: [::], t_ "TYPES_OF_HYPERFACES:" & map (row_text decimal) (di_types D)] ++
  [:: [::], t_ "POINTS_OF_HYPEREDGES:" & map (row_text decimal) (di_points_of D)] ++
  (if di_n_props D == 0 then [::] else
   (t_ "HYPEREDGE_PROPERTIES: " ++ decimal (di_n_props D)) :: map (row_text show) (di_props D)).
Definition exact (xs : seq (seq F)) : Prop := forall r x, r \in xs -> x \in r -> rnd x = x.
Lemma blank_line K : t_ K != [::] -> ~ starts_with K [::].
Proof. by move=> h1 [[|? ?] [rest [e _ _]]] //; move: e h1; case: (t_ K). Qed.
Lemma not_start K K' l : solid (t_ K') -> t_ K' != [::] -> starts_with K' l -> solid (t_ K) -> t_ K != [::] ->
  t_ K != t_ K' -> ~ starts_with K l.
Proof.
move=> s1 n1 [s [r [-> b1 w1]]] s2 n2 hne [s' [r' [e b2 w2]]]; case/eqP: hne.
have := @extract_word [::] s (t_ K') r b1 n1 s1 w1; rewrite e.
by have -> := @extract_word [::] s' (t_ K) r' b2 n2 s2 w2; case.
Qed.
Lemma row_row (A : eqType) (says : text -> A -> Prop) f (xs : seq A) : (forall x, x \in xs -> says (f x) x) ->
  row says xs (row_text f xs).
Proof.
elim: xs => [|x xs IH] h; first exact: row_done.
have -> : row_text f (x :: xs) = t_ " " ++ f x ++ row_text f xs by [].
apply: row_next => //; [exact: h (mem_head _ _) | by case: (xs) |].
by apply: IH => y hy; apply: h; rewrite inE hy orbT.
Qed.
Lemma rows_rows (A : eqType) (says : text -> A -> Prop) f (next : seq text -> Prop) (xs : seq (seq A)) ls : 
  (forall r x, r \in xs -> x \in r -> says (f x) x) -> next ls -> rows says next xs (map (row_text f) xs ++ ls).
Proof.
elim: xs => [|x xs IH] h hn; first exact: rows_done.
rewrite /=; apply: rows_next; first by apply: row_row => y hy; exact: h (mem_head _ _) hy.
by apply: IH => // r y hr hy; apply: (h r) => //; rewrite inE hr orbT.
Qed.
Lemma up_now K (head : text -> Prop) (next : seq text -> Prop) l ls : head l -> next ls -> up_to K head next (l :: ls).
Proof. by move=> h1 h2; exists [::], l, ls. Qed.
Lemma up_blank K (head : text -> Prop) (next : seq text -> Prop) l ls : t_ K != [::] -> head l -> next ls ->
  up_to K head next ([::] :: l :: ls).
Proof.
by move=> h0 h1 h2; exists [:: [::]], l, ls; split=> // l'; rewrite inE => /eqP->; exact: blank_line.
Qed.
Lemma set_setting K v : setting K v (set_text K v).
Proof.
exists [::], (t_ " "), (t_ " "), (t_ "; # a number"); split=> //.
Qed.
Lemma title_starts K : starts_with K (t_ K).
Proof. by exists [::], [::]; rewrite cats0. Qed.
Lemma float_says xs r x : exact xs -> r \in xs -> x \in r -> says_float parse (show x) x.
Proof.
move=> h h1 h2; split; [exact: ft_nonempty H x | exact: ft_word H x | move=> w hw].
by rewrite (ft_parse H) ?hw // (h _ _ h1 h2).
Qed.
Lemma doc_says edge_dim dim D : exact (di_points D) -> exact (di_props D) ->
  size (di_props D) = (if di_n_props D == 0 then 0 else di_n_edges D) ->
  all (fun r => size r == di_n_props D) (di_props D) ->
  says_domain parse edge_dim dim D (doc edge_dim dim D).
Proof.
move=> hp hq s1 s2; rewrite /says_domain /doc.
exists [:: t_ "# A domain"; [::]]; eexists; eexists; split; first by rewrite !cat_cons cat0s; reflexivity.
- move=> l; rewrite !inE => /orP[] /eqP->; last exact: blank_line.
  by apply: (@not_start _ "#") => //; exists [::], (t_ " A domain").
- exact: set_setting.
apply: up_now; first exact: set_setting.
apply: up_now; first exact: set_setting.
apply: up_now; first exact: set_setting.
apply: up_now; first exact: set_setting.
apply: up_blank => //; first exact: title_starts.
apply: rows_rows; first by move=> r x; exact: float_says.
rewrite ?cat_cons; apply: up_blank => //; first exact: title_starts.
apply: rows_rows; first by [].
rewrite ?cat_cons; apply: up_blank => //; first exact: title_starts.
apply: rows_rows; first by [].
rewrite ?cat_cons; apply: up_blank => //; first exact: title_starts.
apply: rows_rows; first by [].
move: s1; case: eqP => hn s1; first by left; split; [| split; [exact: size0nil |]].
right; split=> //; apply: up_now.
  exists [::], (t_ " "), [::]; split=> //; first by rewrite cats0.
by rewrite -[map _ _]cats0; apply: rows_rows => // r x; exact: float_says.
Qed.
Lemma row_text_line A (f : A -> text) xs : (forall x, no_newline (f x)) -> no_newline (row_text f xs).
Proof. by move=> h; elim: xs => [//|x xs IH]; rewrite [row_text _ _]/= /= no_newline_cat h. Qed.
Lemma doc_lines edge_dim dim D : all no_newline (doc edge_dim dim D).
Proof.
have hf rs : all no_newline (map (row_text show) rs).
  rewrite all_map; apply/allP => r _ /=; apply: row_text_line => x; exact: solid_no_newline (ft_word H x).
have hd rs : all no_newline (map (row_text decimal) rs).
  rewrite all_map; apply/allP => r _ /=; apply: row_text_line => x; exact: decimal_no_newline.
have hc l ls : all no_newline (l :: ls) = no_newline l && all no_newline ls by [].
have hs K v : no_newline (t_ K) -> no_newline (set_text K v).
  by move=> h; rewrite /set_text !no_newline_cat h decimal_no_newline.
rewrite /doc !all_cat !hc !hs // hf !hd; case: (di_n_props D == 0) => //.
by rewrite hc hf no_newline_cat decimal_no_newline.
Qed.
Lemma doc_file edge_dim dim D : exact (di_points D) -> exact (di_props D) ->
  size (di_props D) = (if di_n_props D == 0 then 0 else di_n_edges D) ->
  all (fun r => size r == di_n_props D) (di_props D) ->
  exists file, says_domain parse edge_dim dim D (lines file).
Proof.
move=> h1 h2 h3 h4; exists (unlines (doc edge_dim dim D)); rewrite lines_unlines ?doc_lines //.
exact: doc_says.
Qed.
End Write.
Lemma says_unique' (F : realDomainType) (parse : text -> option (F * text)) edge_dim dim (D D' : domain_info F) ls :
  all (fun l => newline \notin l) ls -> sized_domain edge_dim dim D -> sized_domain edge_dim dim D' ->
  says_domain parse edge_dim dim D ls -> says_domain parse edge_dim dim D' ls -> D = D'.
Proof.
move=> h; apply: says_unique; apply: sub_all h => l hl; apply/allP => c hc.
by apply: contraNneq hl => <-.
Qed.
Definition squares (F : realDomainType) : domain_info F := DomainInfo 2 7 6 1
    [:: [:: 0; 0]; [:: 1; 0]; [:: 2%:R; 0]; [:: 0; 1]; [:: 1; 1]; [:: 2%:R; 1]]%R
    [:: [:: 0; 1; 2; 3]; [:: 1; 4; 5; 6]] [:: [:: 1; 0; 0; 0]; [:: 0; 2; 0; 0]] [:: [:: 0; 1; 3; 4]; [:: 1; 2; 4; 5]]
    [:: [:: 5%:R]; [:: 7%:R]]%R.
Lemma example_says (F : realDomainType) :
  [/\ sized_domain 2 2 (squares F), small_domain 100 (squares F)
    & exists file, says_domain (nat_parse F) 2 2 (squares F) (lines file)].
Proof.
split; [by split | by [] |].
have hr k : k < 10 -> nat_rnd 10 (k%:R : F)%R = k%:R%R by exact: nat_rnd_id.
have h0 : nat_rnd 10 (0 : F)%R = 0%R by exact: (hr 0).
have h1 : nat_rnd 10 (1 : F)%R = 1%R by exact: (hr 1).
apply: (@doc_file F _ _ _ (nat_float_text F 10)) => // r x; rewrite !inE.
  by do ![case/orP] => /eqP->; rewrite !inE => /orP[] /eqP->; rewrite ?h0 ?h1 ?hr.
by do ![case/orP] => /eqP->; rewrite !inE => /eqP->; rewrite hr.
Qed.
