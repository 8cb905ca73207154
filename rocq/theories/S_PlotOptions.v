(** Vocabulary for plot options: their values by name, what a text means for an option. *)
From Coq Require Import Ascii String.
From mathcomp Require Import all_ssreflect all_algebra.
From Verif Require Import M_Base M_Text M_Plot.
Set Implicit Arguments. Unset Strict Implicit. Unset Printing Implicit Defensive.

Section Options.
Variable F : realFieldType.
Inductive opt_value := VText of text | VNat of nat | VBool of bool | VReal of F | VNone.
(** The option called [name]; the last two cannot be set by name. *)
Definition field (o : plot_options F) (name : text) : opt_value :=
  if name == t_ "outputDir" then VText (outputDir o)
  else if name == t_ "fileName" then VText (fileName o)
  else if name == t_ "fileNumber" then VNat (fileNumber o)
  else if name == t_ "printFileNumber" then VBool (printFileNumber o)
  else if name == t_ "incrementFileNumber" then VBool (incrementFileNumber o)
  else if name == t_ "plotEdges" then VBool (plot_edges o)
  else if name == t_ "plotEdgeBoundaries" then VBool (plot_edge_boundaries o)
  else if name == t_ "scale" then VReal (scale o)
  else if name == t_ "boundaryScale" then VReal (boundary_scale o)
  else if name == t_ "numbers" then VBool (numbers o)
  else if name == t_ "n_subintervals" then VNat (n_subintervals o)
  else VNone.
Definition text_options : seq text := [:: t_ "outputDir"; t_ "fileName"].
Definition bool_options : seq text :=
  [:: t_ "printFileNumber"; t_ "incrementFileNumber"; t_ "plotEdges"; t_ "plotEdgeBoundaries"].
Definition real_options : seq text := [:: t_ "scale"; t_ "boundaryScale"].
Definition option_names : seq text := text_options ++ bool_options ++ real_options ++ [:: t_ "fileNumber"].

Variables (W : nat) (parse_float : text -> outcome F) (show_float : F -> text).
Definition shown (v : opt_value) : text :=
  match v with
  | VText t => t | VNat k => decimal k | VBool b => if b then t_ "1" else t_ "0" | VReal x => show_float x
  | VNone => [::]
  end.
(** The text [s] given for the option [name] means [v]. *)
Inductive means (name s : text) : opt_value -> Prop :=
| means_text : name \in text_options -> means name s (VText s)
| means_bool : name \in bool_options -> means name s (VBool ((s == t_ "true") || (s == t_ "1")))
| means_real x : name \in real_options -> parse_float s = Ok x -> means name s (VReal x)
| means_nat k : name = t_ "fileNumber" -> s = decimal k -> k < W %/ 2 -> means name s (VNat k).
(** Calls with the meaning of their texts; an empty text asks for the value. *)
Fixpoint all_mean (cs : seq (text * text * opt_value)) : Prop :=
  if cs is c :: cs' then
    c.1.1 \in option_names /\ (c.1.2 != [::] -> means c.1.1 c.1.2 c.2) /\ all_mean cs'
  else True.
(** The last value given to [x] in the calls, [v0] before them. *)
Fixpoint last_value (v0 : opt_value) (x : text) (cs : seq (text * text * opt_value)) : opt_value :=
  if cs is c :: cs' then last_value (if (c.1.1 == x) && (c.1.2 != [::]) then c.2 else v0) x cs' else v0.
(** A sequence of calls plot_option(name, text); the texts returned. *)
Variable asserts : bool.
Fixpoint calls (o : plot_options F) (cs : seq (text * text)) : outcome (plot_options F * seq text) :=
  if cs is c :: cs' then
    obind (set_plot_option W asserts parse_float show_float o c.1 c.2) (fun r =>
    omap (fun rs => (rs.1, r.2 :: rs.2)) (calls r.1 cs'))
  else Ok (o, [::]).
End Options.

(** A sequence of plots; the names and texts of the files. *)
Section Plots.
Variables (F : realFieldType) (A : Type).
Variable plot : plot_options F -> A -> outcome (plot_options F * (text * text)).
Fixpoint plots (o : plot_options F) (ls : seq A) : outcome (plot_options F * seq (text * text)) :=
  if ls is l :: ls' then
    obind (plot o l) (fun r => omap (fun rs => (rs.1, r.2 :: rs.2)) (plots r.1 ls'))
  else Ok (o, [::]).
End Plots.
