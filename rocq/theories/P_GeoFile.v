(** Property C68: domain files of the documented format are read as they say.
    [says_domain] (S_GeoFile) describes the format: comments, settings, sections of rows.  [parse] reads a
    floating point number.  Statements only; proofs are in L_GeoFile. *)
From Coq Require Import Ascii String.
From mathcomp Require Import all_ssreflect all_algebra.
From Verif Require Import M_Base M_Text M_ReadDomain S_ReadDomain M_EpsGraph S_GeoFile L_Text L_EpsEx L_GeoFile.
Set Implicit Arguments. Unset Strict Implicit. Unset Printing Implicit Defensive.

(** Any dimension, any numbers of points, hypernodes and hyperedges, with and without properties. *)
Theorem C68_read (F : realDomainType) (parse : text -> option (F * text)) (umax : nat) (asserts : bool)
    (edge_dim dim : nat) (name file : text) (D : domain_info F) :
  sized_domain edge_dim dim D -> small_domain umax D -> dim <= umax -> edge_dim <= umax ->
  says_domain parse edge_dim dim D (lines file) ->
  (asserts -> 4 <= size name /\ drop (size name - 4) name = t_ ".geo") ->
  (asserts -> [/\ 0 < di_n_points D, 0 < di_n_nodes D & 0 < di_n_edges D]) ->
  read_domain_geo parse umax asserts edge_dim dim name file = Ok D.
Proof. by move=> h1 h2 h3 h4 h5 h6 h7; exact: read_geoE. Qed.
(** The same through read_domain, whose consistency check accepts valid domains. *)
Theorem C68_read_domain (F : rcfType) (parse : text -> option (F * text)) (show : F -> text) (umax : nat)
    (asserts : bool) (edge_dim dim : nat) (name file : text) (D : domain_info F) :
  sized_domain edge_dim dim D -> small_domain umax D -> dim <= umax -> edge_dim <= umax ->
  says_domain parse edge_dim dim D (lines file) ->
  4 <= size name -> drop (size name - 4) name = t_ ".geo" ->
  (asserts -> [/\ 0 < di_n_points D, 0 < di_n_nodes D & 0 < di_n_edges D]) ->
  (asserts -> valid_domain dim D) ->
  read_domain parse show umax asserts dim edge_dim name (Some file) = Ok D.
Proof. by move=> h1 h2 h3 h4 h5 h6 h7 h8 h9; exact: read_geo_domain. Qed.
(** A file says at most one thing. *)
Theorem C68_unambiguous (F : realDomainType) (parse : text -> option (F * text)) (edge_dim dim : nat)
    (D D' : domain_info F) (ls : seq text) :
  all (fun l => newline \notin l) ls -> sized_domain edge_dim dim D -> sized_domain edge_dim dim D' ->
  says_domain parse edge_dim dim D ls -> says_domain parse edge_dim dim D' ls -> D = D'.
Proof. exact: says_unique'. Qed.
(** Every domain can be written, if its coordinates can. *)
Theorem C68_writable (F : realDomainType) (parse : text -> option (F * text)) (show : F -> text) (rnd : F -> F)
    (edge_dim dim : nat) (D : domain_info F) : float_text parse show rnd ->
  (forall r x, r \in di_points D -> x \in r -> rnd x = x) -> (forall r x, r \in di_props D -> x \in r -> rnd x = x) ->
  size (di_props D) = (if di_n_props D == 0 then 0 else di_n_edges D) ->
  all (fun r => size r == di_n_props D) (di_props D) ->
  exists file, says_domain parse edge_dim dim D (lines file).
Proof. by move=> h1 h2 h3 h4 h5; exact: (doc_file h1). Qed.

(** Two squares with a common side: seven hypernodes, six points, types different from hypernodes, one property. *)
Definition example_file : text := t_ "# Two squares.
 
Space_Dim     = 2;  # Dimension of space
HyperEdge_Dim = 2;  # Dimension of hyperedges

# POINTS: comes later
N_Points      = 6;  # Number of points
 N_HyperNodes  = 7; 
N_HyperEdges  = 2

POINTS:  # six
0 0
1  0  
2 0 0
 0 1
1 1
2 1

HYPERNODES_OF_HYPEREDGES:
0 1 2 3
1 4 5 6
TYPES_OF_HYPERFACES:
1 0 0 0
0 2 0 0

# the points
POINTS_OF_HYPEREDGES:
0 1 3 4
1 2 4 5 0
HYPEREDGE_PROPERTIES: 1
5
7
".
Example C68_example_reads :
  if read_domain_geo (nat_parse [realFieldType of rat]) 100 true 2 2 (t_ "squares.geo") example_file is Ok D
  then [&& (di_n_edges D, di_n_nodes D, di_n_points D, di_n_props D) == (2, 7, 6, 1),
        di_points D == [:: [:: 0; 0]; [:: 1; 0]; [:: 2%:R; 0]; [:: 0; 1]; [:: 1; 1]; [:: 2%:R; 1]]%R,
        di_nodes D == [:: [:: 0; 1; 2; 3]; [:: 1; 4; 5; 6]], di_types D == [:: [:: 1; 0; 0; 0]; [:: 0; 2; 0; 0]],
        di_points_of D == [:: [:: 0; 1; 3; 4]; [:: 1; 2; 4; 5]] & di_props D == [:: [:: 5%:R]; [:: 7%:R]]%R]
  else false.
Proof. by vm_compute. Qed.
(** The hypotheses are met by this domain. *)
Definition example_domain (F : realDomainType) : domain_info F := DomainInfo 2 7 6 1
    [:: [:: 0; 0]; [:: 1; 0]; [:: 2%:R; 0]; [:: 0; 1]; [:: 1; 1]; [:: 2%:R; 1]]%R
    [:: [:: 0; 1; 2; 3]; [:: 1; 4; 5; 6]] [:: [:: 1; 0; 0; 0]; [:: 0; 2; 0; 0]] [:: [:: 0; 1; 3; 4]; [:: 1; 2; 4; 5]]
    [:: [:: 5%:R]; [:: 7%:R]]%R.
Example C68_example_says (F : realDomainType) :
  [/\ sized_domain 2 2 (example_domain F), small_domain 100 (example_domain F)
    & exists file, says_domain (nat_parse F) 2 2 (example_domain F) (lines file)].
Proof. exact: example_says. Qed.

Print Assumptions C68_read.
Print Assumptions C68_read_domain.
Print Assumptions C68_unambiguous.
Print Assumptions C68_writable.
