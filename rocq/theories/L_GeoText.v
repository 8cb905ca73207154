(** Proofs about files written by the epsilon-graph writer and read back. *)
From Coq Require Import Ascii String.
From mathcomp Require Import all_ssreflect all_algebra zify.
From Verif Require Import M_Base L_Base M_DenseLA M_Text M_ReadDomain S_ReadDomain L_Text L_ReadDomain M_EpsGraph.
Set Implicit Arguments. Unset Strict Implicit. Unset Printing Implicit Defensive.

Definition key_line (K : string) (s s' : text) (v : text) : text := t_ K ++ s ++ t_ "=" ++ s' ++ v ++ t_ ";".
Definition gap (s : text) : bool := (s != [::]) && spaces s.

Section Keys.
Variable F : realDomainType.
Variables (umax : nat) (asserts : bool).
Implicit Types (K : string) (st : rstate).

Lemma goto_blank K st ls : r_key st != t_ K -> r_file st = [::] :: ls ->
  goto_key K st = goto_key K (RState (r_key st) (r_eq st) (IStream [::] false) ls).
Proof. by rewrite /goto_key => hk -> /=; rewrite (negbTE hk). Qed.
Lemma goto_line K st l ls r : r_key st != t_ K -> r_file st = l :: ls ->
  extract conv_word (r_key st) (istr l) = (t_ K, r) ->
  goto_key K st = RState (t_ K) (r_eq st) r ls.
Proof. by rewrite /goto_key => hk -> he /=; rewrite (negbTE hk) he; case: ls => [|l' ls] /=; rewrite eqxx. Qed.
Lemma goto_end K st : r_file st = [::] -> r_key st != t_ K -> key_ok K (goto_key K st) = false.
Proof. by rewrite /goto_key /key_ok => -> hk /=; rewrite (negbTE hk) /= (negbTE hk). Qed.
Lemma key_line_word K s s' v old : t_ K != [::] -> solid (t_ K) -> gap s ->
  extract conv_word old (istr (key_line K s s' v)) = (t_ K, IStream (s ++ t_ "=" ++ s' ++ v ++ t_ ";") true).
Proof.
move=> h1 h2 /andP[h3 h4]; apply: (@extract_word old [::]) => //.
by case: s h3 h4 => [//|c s] _ /= /andP[].
Qed.
Lemma plain_line_word K old : t_ K != [::] -> solid (t_ K) ->
  extract conv_word old (istr (t_ K)) = (t_ K, IStream [::] true).
Proof. by move=> h1 h2; have := @extract_word old [::] (t_ K) [::] isT h1 h2 isT; rewrite cat0s cats0. Qed.
Lemma read_eq_line A (conv : text -> A * istream) old st s s' w x :
  r_line st = IStream (s ++ t_ "=" ++ s' ++ w ++ t_ ";") true -> spaces s -> gap s' -> 
  w != [::] -> ~~ is_space (head " "%char w) -> conv (w ++ t_ ";") = (x, IStream (t_ ";") true) ->
  read_eq conv old st = (x, RState (r_key st) (t_ "=") (IStream (t_ ";") true) (r_file st)).
Proof.
move=> hl hs /andP[g1 g2] hw hh hc; rewrite /read_eq hl.
have he := @extract_word (r_eq st) s (t_ "=") (s' ++ w ++ t_ ";") hs isT isT.
rewrite he; last by case: s' g1 g2 {he hl} => [//|c s'] _ /= /andP[].
by rewrite extract_conv // hc.
Qed.
Definition after K ls : rstate := RState (t_ K) (t_ "=") (IStream (t_ ";") true) ls.
Lemma dim_line K s s' v A st ls (k : rstate -> outcome A) : t_ K != [::] -> solid (t_ K) -> gap s -> gap s' ->
  r_key st != t_ K -> r_file st = key_line K s s' (decimal v) :: ls -> v <= umax ->
  read_dim umax asserts K v st k = k (after K ls).
Proof.
move=> h1 h2 h3 h4 h5 h6 hv; rewrite /read_dim.
rewrite (goto_line h5 h6 (key_line_word s' (decimal v) (r_key st) h1 h2 h3)).
rewrite (@read_eq_line _ _ _ _ s s' (decimal v) (Some v)) //=; first last.
- by rewrite /conv_some conv_decimal.
- by rewrite solid_head ?decimal_nonempty ?decimal_solid.
- exact: decimal_nonempty.
- by case/andP: h3.
by rewrite /hassert /key_ok /eq_ok /= !eqxx; case: asserts.
Qed.
Lemma count_line K s s' v A st ls (k : nat -> rstate -> outcome A) : t_ K != [::] -> solid (t_ K) -> gap s -> gap s' ->
  r_key st != t_ K -> r_file st = key_line K s s' (decimal v) :: ls -> v <= umax ->
  read_count umax asserts K st k = if (v != 0) || ~~ asserts then k v (after K ls) else Abort.
Proof.
move=> h1 h2 h3 h4 h5 h6 hv; rewrite /read_count.
rewrite (goto_line h5 h6 (key_line_word s' (decimal v) (r_key st) h1 h2 h3)).
rewrite (@read_eq_line _ _ _ _ s s' (decimal v) v) //=; first last.
- by rewrite conv_decimal.
- by rewrite solid_head ?decimal_nonempty ?decimal_solid.
- exact: decimal_nonempty.
- by case/andP: h3.
by rewrite /hassert /key_ok /eq_ok /= !eqxx.
Qed.
Lemma dim_blank K v A st ls (k : rstate -> outcome A) : r_key st != t_ K -> r_file st = [::] :: ls ->
  read_dim umax asserts K v st k = read_dim umax asserts K v (RState (r_key st) (r_eq st) (IStream [::] false) ls) k.
Proof. by move=> h1 h2; rewrite /read_dim (goto_blank h1 h2). Qed.
Lemma count_blank K A st ls (k : nat -> rstate -> outcome A) : r_key st != t_ K -> r_file st = [::] :: ls ->
  read_count umax asserts K st k = read_count umax asserts K (RState (r_key st) (r_eq st) (IStream [::] false) ls) k.
Proof. by move=> h1 h2; rewrite /read_count (goto_blank h1 h2). Qed.

Lemma dim_line' K s s' v A st (k : rstate -> outcome A) : t_ K != [::] -> solid (t_ K) -> gap s -> gap s' ->
  r_key st != t_ K -> r_file st = key_line K s s' (decimal v) :: behead (r_file st) -> v <= umax ->
  read_dim umax asserts K v st k = k (after K (behead (r_file st))).
Proof. exact: dim_line. Qed.
Lemma count_line' K s s' v A st (k : nat -> rstate -> outcome A) : t_ K != [::] -> solid (t_ K) -> gap s -> gap s' ->
  r_key st != t_ K -> r_file st = key_line K s s' (decimal v) :: behead (r_file st) -> v <= umax ->
  read_count umax asserts K st k = if (v != 0) || ~~ asserts then k v (after K (behead (r_file st))) else Abort.
Proof. exact: count_line. Qed.
Lemma count_blank' K A st (k : nat -> rstate -> outcome A) : r_key st != t_ K -> r_file st = [::] :: behead (r_file st) ->
  read_count umax asserts K st k =
  read_count umax asserts K (RState (r_key st) (r_eq st) (IStream [::] false) (behead (r_file st))) k.
Proof. exact: count_blank. Qed.

(** Sections of rows. *)
Definition pair_line (e : nat * nat) : text := decimal e.1 ++ t_ " " ++ decimal e.2.
Definition pair_row (e : nat * nat) : seq nat := [:: e.1; e.2].
Lemma read_rows_cons A (conv : text -> A * istream) row n l ls r s : extract_row conv row (istr l) = (r, s) ->
  read_rows conv row n.+1 (l :: ls) = (r :: (read_rows conv row n ls).1, (read_rows conv row n ls).2).
Proof. by move=> e /=; rewrite e; case: (read_rows _ _ _ _). Qed.
Lemma read_pairs conn ls : all (fun e => (e.1 <= umax) && (e.2 <= umax)) conn ->
  read_rows (conv_unsigned umax) [:: 0; 0] (size conn) (map pair_line conn ++ ls) = (map pair_row conn, ls).
Proof.
elim: conn => [//|e conn IH] /andP[/andP[h1 h2] h3].
have [s hs] := extract_pair 0 0 h1 h2.
by rewrite [map _ _]/= cat_cons (read_rows_cons _ _ hs) IH.
Qed.
Lemma goto_plain K st : t_ K != [::] -> solid (t_ K) -> r_key st != t_ K ->
  r_file st = [:: [::], t_ K & behead (behead (r_file st))] ->
  goto_key K st = RState (t_ K) (r_eq st) (IStream [::] true) (behead (behead (r_file st))).
Proof.
move=> h1 h2 h3 h4; rewrite (goto_blank h3 h4).
by rewrite (@goto_line _ _ (t_ K) (behead (behead (r_file st))) (IStream [::] true)) //; exact: plain_line_word.
Qed.
Lemma section_lines K A st conn ls (k : seq (seq nat) -> rstate -> outcome A) :
  t_ K != [::] -> solid (t_ K) -> r_key st != t_ K -> r_file st = [:: [::], t_ K & map pair_line conn ++ ls] ->
  all (fun e => (e.1 <= umax) && (e.2 <= umax)) conn ->
  read_section umax asserts K 2 (size conn) st k =
  k (map pair_row conn) (RState (t_ K) (r_eq st) (IStream [::] true) ls).
Proof.
move=> h1 h2 h3 h4 h5; rewrite /read_section (goto_blank h3 h4).
rewrite (@goto_line _ _ (t_ K) (map pair_line conn ++ ls) (IStream [::] true)) //; last exact: plain_line_word.
rewrite /hassert /key_ok [r_key _]/= eqxx [r_file _]/= [nseq 2 0]/= read_pairs // size_map eqxx /=.
by rewrite /fill size_map subnn cats0.
Qed.
End Keys.

Section Round.
Variables (F : rcfType) (parse : text -> option (F * text)) (show : F -> text) (rnd : F -> F).
Variables (umax : nat) (asserts : bool) (dim : nat).
Hypothesis H : float_text parse show rnd.
Implicit Types (points : seq (seq F)) (conn : seq (nat * nat)).
Local Notation geo_text := (geo_text show dim).

Definition geo_lines points conn : seq text :=
  [:: key_line "Space_Dim" (t_ "     ") (t_ " ") (decimal dim),
      key_line "HyperEdge_Dim" (t_ " ") (t_ " ") (decimal 1), [::],
      key_line "N_Points" (t_ "      ") (t_ " ") (decimal (size points)),
      key_line "N_HyperNodes" (t_ "  ") (t_ " ") (decimal (size points)),
      key_line "N_HyperEdges" (t_ "  ") (t_ " ") (decimal (size conn)), [::],
      t_ "POINTS:" & map (float_row show) points] ++
  [:: [::], t_ "HYPERNODES_OF_HYPEREDGES:" & map pair_line conn] ++
  [:: [::], t_ "TYPES_OF_HYPERFACES:" & map pair_line conn] ++
  [:: [::], t_ "POINTS_OF_HYPEREDGES:" & map pair_line conn].

Lemma show_points points : all (fun p => size p == dim) points ->
  flatten [seq show_point show dim p | p <- points] = unlines (map (float_row show) points).
Proof.
move=> h; rewrite /unlines -map_comp; congr flatten; apply/eq_in_map => p hp /=.
congr (flatten _ ++ _).
have <- : size p = dim by apply/eqP; move/allP: h; apply.
by rewrite -[p in RHS](@mkseq_nth _ 0%R) /mkseq -map_comp.
Qed.
Lemma show_pairsE conn : show_pairs conn = unlines (map pair_line conn).
Proof.
by rewrite /show_pairs /unlines -map_comp; congr flatten; apply: eq_map => e; rewrite /= /pair_line -!catA.
Qed.
Lemma unlines_cons l ls : unlines (l :: ls) = l ++ endl ++ unlines ls.
Proof. by rewrite /unlines /= -catA. Qed.
Lemma geo_text_lines points conn : all (fun p => size p == dim) points ->
  geo_text points conn = unlines (geo_lines points conn).
Proof.
move=> h; rewrite /geo_text show_points // !show_pairsE /geo_lines.
by rewrite !unlines_cat !unlines_cons /key_line -!catA.
Qed.
Lemma pair_line_no_newline e : no_newline (pair_line e).
Proof. by rewrite /pair_line !no_newline_cat !decimal_no_newline. Qed.
Lemma key_line_no_newline K s s' v : no_newline (t_ K) -> no_newline s -> no_newline s' ->
  no_newline (key_line K s s' (decimal v)).
Proof. by move=> h1 h2 h3; rewrite /key_line !no_newline_cat h1 h2 h3 decimal_no_newline. Qed.
Lemma geo_lines_ok points conn : all no_newline (geo_lines points conn).
Proof.
have hp : all no_newline (map pair_line conn).
  by apply/allP => l /mapP[e _ ->]; exact: pair_line_no_newline.
have hf : all no_newline (map (float_row show) points).
  by apply/allP => l /mapP[p _ ->]; exact: (float_row_no_newline H).
have hc l ls : all no_newline (l :: ls) = no_newline l && all no_newline ls by [].
by rewrite /geo_lines !all_cat !hc !key_line_no_newline // hf hp.
Qed.
Lemma read_points_lines points (pt : seq F) ls : all (fun p => size p == dim) points -> size pt = dim ->
  read_points parse (size points) pt (map (float_row show) points ++ ls) = (map (map rnd) points, ls).
Proof.
elim: points pt => [//|p points IH] pt /andP[/eqP h1 h2] h3.
have [b e] := extract_floats H (isT : spaces [::]) (etrans h3 (esym h1)).
rewrite cat0s -/(istr _) in e.
rewrite [size _]/= [map (float_row _) _]/= [map (map _) _]/= cat_cons.
have hr : size [seq rnd x | x <- p] = dim by rewrite size_map.
by rewrite /= e (IH _ h2 hr).
Qed.
Definition read_back points conn : domain_info F :=
  DomainInfo (size conn) (size points) (size points) 0 (map (map rnd) points)
    (map pair_row conn) (map pair_row conn) (map pair_row conn) [::].
Lemma round_trip name points conn : all (fun p => size p == dim) points ->
  all (fun e => (e.1 <= umax) && (e.2 <= umax)) conn ->
  dim <= umax -> 1 <= umax -> size points <= umax -> size conn <= umax ->
  (asserts -> 4 <= size name /\ drop (size name - 4) name = t_ ".geo") ->
  read_domain_geo parse umax asserts 1 dim name (geo_text points conn) =
  if [&& 0 < size points & 0 < size conn] || ~~ asserts then Ok (read_back points conn) else Abort.
Proof.
move=> hp hc u1 u2 u3 u4 hn; rewrite /read_domain_geo geo_text_lines // lines_unlines ?geo_lines_ok //.
have -> : (if asserts then has_suffix ".geo" name (fun b => hassert asserts b (Ok tt)) else Ok tt) = Ok tt.
  case: asserts hn => // /(_ isT)[h1 h2]; rewrite /has_suffix ltnNge h1 /= h2.
  by rewrite /hassert eqxx.
rewrite /obind /geo_lines.
rewrite (@dim_line' _ _ "Space_Dim" (t_ "     ") (t_ " ") dim) //.
rewrite (@dim_line' _ _ "HyperEdge_Dim" (t_ " ") (t_ " ") 1) //.
rewrite (@count_blank' _ _ "N_Points") //.
rewrite (@count_line' _ _ "N_Points" (t_ "      ") (t_ " ") (size points)) //.
case: (boolP ((size points != 0) || ~~ asserts)) => hb1; last first.
  by rewrite ifF //; move: hb1; rewrite -lt0n; case: (0 < size points) => //=; case: asserts.
rewrite (@count_line' _ _ "N_HyperNodes" (t_ "  ") (t_ " ") (size points)) // hb1.
rewrite (@count_line' _ _ "N_HyperEdges" (t_ "  ") (t_ " ") (size conn)) //.
case: (boolP ((size conn != 0) || ~~ asserts)) => hb2; last first.
  by rewrite ifF //; move: hb2; rewrite -lt0n; case: (0 < size conn); rewrite ?andbF //=; case: asserts.
have -> : (0 < size points) && (0 < size conn) || ~~ asserts.
  by move: hb1 hb2; rewrite -!lt0n; case: (0 < size points); case: (0 < size conn); case: asserts.
pose rest3 := [:: [::], t_ "POINTS_OF_HYPEREDGES:" & map pair_line conn].
pose rest2 := [:: [::], t_ "TYPES_OF_HYPERFACES:" & map pair_line conn] ++ rest3.
pose rest := [:: [::], t_ "HYPERNODES_OF_HYPEREDGES:" & map pair_line conn] ++ rest2.
rewrite [goto_key "POINTS:" _](_ : _ = RState (t_ "POINTS:") (t_ "=") (IStream [::] true)
  (map (float_row show) points ++ rest)); last first.
  by rewrite goto_plain; [reflexivity | | | | ].
rewrite {1 2}/hassert [key_ok "POINTS:" _]/key_ok [r_key _]/= eqxx orTb.
rewrite [r_file _]/= read_points_lines ?size_nseq // size_map eqxx orTb.
pose st K r := RState (t_ K) (t_ "=") (IStream [::] true) r.
rewrite (@section_lines umax asserts "HYPERNODES_OF_HYPEREDGES:" _ (st "POINTS:"%string rest) conn rest2) //.
rewrite (@section_lines umax asserts "TYPES_OF_HYPERFACES:" _ (st "HYPERNODES_OF_HYPEREDGES:"%string rest2) conn rest3) //.
rewrite (@section_lines umax asserts "POINTS_OF_HYPEREDGES:" _ (st "TYPES_OF_HYPERFACES:"%string rest3) conn [::]) ?cats0 //.
by rewrite goto_end //= /fill size_map subnn cats0.
Qed.
End Round.
