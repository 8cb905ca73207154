(** Properties C25, C26, C27, C28: the epsilon-neighbourhood graph and the domain files.
    [parse] and [show] read and write floating point numbers; [float_text] is the contract between them.
    Statements only; proofs are in L_EpsGraph, L_EpsFile, L_GeoText, L_ReadDomain. *)
From Coq Require Import Ascii String.
From mathcomp Require Import all_ssreflect all_algebra.
From Verif Require Import M_Base M_DenseLA M_Text M_ReadDomain S_ReadDomain M_EpsGraph S_EpsGraph M_Global S_Global.
From Verif Require Import L_ReadDomain L_EpsGraph L_GeoText L_EpsFile L_EpsEx.
Set Implicit Arguments. Unset Strict Implicit. Unset Printing Implicit Defensive.
Import GRing.Theory Num.Theory.
Local Open Scope ring_scope.

Section Graph.
Variables (F : rcfType) (asserts : bool) (dim : nat) (eps : F) (points : seq (seq F)).
Hypotheses (dim0 : (0 < dim)%N) (hdim : all (fun p => size p == dim) points).

(** * C25 exactly the close pairs *)
Theorem C25_pairs : (0 < size points)%N -> (asserts -> uniq points) ->
  exists ps st, [/\ epsilon_graph asserts dim eps points = Ok (ps, st), perm_eq ps points,
    forall i j, (i < j)%N -> (j < size ps)%N -> uniq points -> before dim (nth [::] ps i) (nth [::] ps j)
  & close_pairs dim ps eps (b_conn st)].
Proof. exact: graph_pairs. Qed.
(** Listed pairs are links, no pair is listed twice. *)
Theorem C25_listed l : close_pairs dim points eps l ->
  uniq l /\ forall e, e \in l -> linked dim points eps e.1 e.2.
Proof. exact: pairs_listed. Qed.
(** In a connected set every close pair is listed. *)
Theorem C25_all l i j : close_pairs dim points eps l -> connected dim points eps ->
  count (joins i j) l = (linked dim points eps i j : nat).
Proof. exact: pairs_all. Qed.
(** Points given twice are reported by an assertion; an empty list is accessed out of range. *)
Theorem C25_duplicates : ~~ uniq points -> epsilon_graph true dim eps points = Abort.
Proof. exact: graph_dup. Qed.
Theorem C25_empty : epsilon_graph asserts dim eps [::] = UB.
Proof. exact: graph_empty. Qed.

(** * C26 termination, each point once, exactly the connected sets are accepted *)
Theorem C26_visits : (0 < size points)%N -> exists l st,
  [/\ forall fuel, (size points <= fuel)%N ->
        epsilon_search dim (sort_points dim points) eps fuel = Ok (Some st),
      search_run dim (sort_points dim points) eps (search_start (sort_points dim points)) l st, uniq l
    & forall i, i \in l <-> reachable (linked dim (sort_points dim points) eps) 0 i].
Proof. exact: graph_runs. Qed.
End Graph.

Section Files.
Variables (F : rcfType) (parse : text -> option (F * text)) (show : F -> text).
Variables (umax : nat) (asserts : bool) (dim : nat) (name file : text) (eps : F) (points : seq (seq F)).
Hypotheses (dim0 : (0 < dim)%N) (hdim : all (fun p => size p == dim) points) (some : (0 < size points)%N).
Hypothesis hname : (4 <= size name)%N /\ drop (size name - 4) name = t_ ".pts".

Theorem C26_accepts : read_pts parse umax asserts dim file = Ok (eps, points) -> (asserts -> uniq points) ->
  exists2 conn, close_pairs dim (sort_points dim points) eps conn &
    (asserts -> connected dim (sort_points dim points) eps) ->
    make_epsilon_neighborhood_graph parse show umax asserts dim name file =
      Ok (name ++ t_ ".geo", geo_text show dim (sort_points dim points) conn).
Proof. by move=> h1 h2; exact: make_ok. Qed.
Theorem C26_rejects : read_pts parse umax true dim file = Ok (eps, points) ->
  (exists r, make_epsilon_neighborhood_graph parse show umax true dim name file = Ok r) ->
  uniq points /\ connected dim (sort_points dim points) eps.
Proof. exact: make_only. Qed.
(** Connectedness does not depend on the order of the points. *)
Theorem C26_order ps : perm_eq ps points -> connected dim ps eps -> connected dim points eps.
Proof. exact: connected_perm. Qed.
End Files.

(** * C27 written files are read back *)
Section Back.
Variables (F : rcfType) (parse : text -> option (F * text)) (show : F -> text) (rnd : F -> F).
Variables (umax : nat) (asserts : bool) (dim : nat).
Hypotheses (hfloat : float_text parse show rnd) (hu : (dim <= umax)%N) (hu1 : (0 < umax)%N).
Implicit Types (points : seq (seq F)) (conn : seq (nat * nat)).

(** The same numbers, points (rounded) and pairs; the types of the faces are the pairs again. A file without
    points or pairs is reported by an assertion. *)
Theorem C27_read_back name points conn : all (fun p => size p == dim) points ->
  all (fun e => (e.1 <= umax)%N && (e.2 <= umax)%N) conn ->
  (size points <= umax)%N -> (size conn <= umax)%N ->
  (asserts -> (4 <= size name)%N /\ drop (size name - 4) name = t_ ".geo") ->
  read_domain_geo parse umax asserts 1 dim name (geo_text show dim points conn) =
  if ((0 < size points) && (0 < size conn))%N || ~~ asserts
  then Ok (DomainInfo (size conn) (size points) (size points) 0 [seq [seq rnd x | x <- p] | p <- points]
             [seq [:: e.1; e.2] | e <- conn] [seq [:: e.1; e.2] | e <- conn] [seq [:: e.1; e.2] | e <- conn] [::])
  else Abort.
Proof. by move=> h1 h2 h3 h4 h5; exact: round_trip. Qed.
(** A file of points is read. *)
Theorem C27_points eps points : all (fun p => size p == dim) points ->
  read_pts parse umax asserts dim (pts_text show dim eps points) =
  if (0 < rnd eps) || ~~ asserts then Ok (rnd eps, [seq [seq rnd x | x <- p] | p <- points]) else Abort.
Proof. by move=> h; exact: read_pts_text. Qed.
(** From a file of points to a domain: for a connected set the result is the graph of the close pairs, if
    there are at least two points and rounding keeps them apart; an assertion fails otherwise. *)
Theorem C27_domain name file eps points : (0 < dim)%N ->
  read_pts parse umax true dim file = Ok (eps, points) ->
  all (fun p => size p == dim) points -> (0 < size points)%N -> uniq points ->
  connected dim (sort_points dim points) eps ->
  (4 <= size name)%N -> drop (size name - 4) name = t_ ".pts" -> (size points <= umax)%N ->
  exists2 conn, close_pairs dim (sort_points dim points) eps conn & (size conn <= umax)%N ->
    read_domain parse show umax true dim 1 name (Some file) =
    if (1 < size points)%N && uniq [seq [seq rnd x | x <- p] | p <- points]
    then Ok (DomainInfo (size conn) (size points) (size points) 0
               [seq [seq rnd x | x <- p] | p <- sort_points dim points]
               [seq [:: e.1; e.2] | e <- conn] [seq [:: e.1; e.2] | e <- conn] [seq [:: e.1; e.2] | e <- conn] [::])
    else Abort.
Proof. by move=> h1 h2 h3 h4 h5 h6 h7 h8 h9; exact: domain_pts. Qed.
End Back.
(** The written file does not say which nodes are boundary nodes: the type of a face is the number of its
    hypernode, so that nodes with types 1, 2, ... of a solver are Dirichlet nodes by number. *)
Theorem C27_types (F : rcfType) (parse : text -> option (F * text)) (show : F -> text) (rnd : F -> F)
    (umax dim : nat) (name : text) (points : seq (seq F)) (conn : seq (nat * nat)) (D : domain_info F) :
  float_text parse show rnd -> (dim <= umax)%N -> (0 < umax)%N -> all (fun p => size p == dim) points ->
  all (fun e => (e.1 <= umax)%N && (e.2 <= umax)%N) conn -> (size points <= umax)%N -> (size conn <= umax)%N ->
  read_domain_geo parse umax false 1 dim name (geo_text show dim points conn) = Ok D -> di_types D = di_nodes D.
Proof. exact: written_types. Qed.

(** * C28 inconsistent domains are detected *)
Section Check.
Variables (F : realDomainType) (dim : nat).
Implicit Types D : domain_info F.
(** With assertions the check succeeds exactly for valid domains, and an assertion fails otherwise. *)
Theorem C28_debug D : valid_domain dim D -> check_consistency true dim D = Ok true.
Proof. exact: check_valid. Qed.
Theorem C28_debug_only D b : check_consistency true dim D = Ok b -> b = true /\ valid_domain dim D.
Proof. exact: check_only. Qed.
Theorem C28_debug_abort D : ~ valid_domain dim D -> check_consistency true dim D = Abort.
Proof. exact: check_abort. Qed.
(** Without assertions the indices are not checked: the result says only that points and lists differ. *)
Theorem C28_ndebug D : exists2 b, check_consistency false dim D = Ok b
  & b <-> [/\ forall i j, (i < j)%N -> (j < size (di_points D))%N -> exists2 k, (k < dim)%N
                & nth 0 (nth [::] (di_points D) i) k <> nth 0 (nth [::] (di_points D) j) k,
             uniq (di_nodes D) & uniq (di_points_of D)].
Proof. exact: check_release. Qed.
Theorem C28_refuted : exists D, check_consistency false dim D = Ok true /\ ~ valid_domain dim D.
Proof. exact: check_refuted. Qed.
End Check.
(** What read_domain returns. *)
Section Read.
Variables (F : rcfType) (parse : text -> option (F * text)) (show : F -> text) (umax dim edge_dim : nat).
Theorem C28_read name file D : read_domain parse show umax true dim edge_dim name file = Ok D ->
  [/\ valid_domain dim D, sized_domain edge_dim dim D
    & (0 < di_n_points D)%N /\ (0 < di_n_nodes D)%N /\ (0 < di_n_edges D)%N].
Proof. exact: read_domain_valid. Qed.
Theorem C28_sized asserts name file D : read_domain parse show umax asserts dim edge_dim name file = Ok D ->
  sized_domain edge_dim dim D.
Proof. exact: read_domain_sized. Qed.
(** The hypergraphs read satisfy the hypothesis of the theorems about global operators. *)
Theorem C28_graph (E : Type) (data : seq nat -> E) name file D :
  read_domain parse show umax true dim edge_dim name file = Ok D ->
  valid_graph edge_dim (di_n_nodes D) [seq (e, data e) | e <- di_nodes D].
Proof. exact: read_domain_graph. Qed.
End Read.

Print Assumptions C25_pairs. Print Assumptions C25_listed. Print Assumptions C25_all.
Print Assumptions C25_duplicates. Print Assumptions C25_empty.
Print Assumptions C26_visits. Print Assumptions C26_accepts. Print Assumptions C26_rejects. Print Assumptions C26_order.
Print Assumptions C27_read_back. Print Assumptions C27_points. Print Assumptions C27_domain. Print Assumptions C27_types.
Print Assumptions C28_debug. Print Assumptions C28_debug_only. Print Assumptions C28_debug_abort.
Print Assumptions C28_ndebug. Print Assumptions C28_refuted. Print Assumptions C28_read. Print Assumptions C28_sized.
Print Assumptions C28_graph.

(** * The hypotheses can be met *)
(** Two points on the line and a reader and writer for small natural numbers: the whole way from a file of
    points to a valid domain. *)
Example C27_example (F : rcfType) (umax : nat) : (3 < umax)%N ->
  let parse := nat_parse F in let show := nat_show (F := F) 10 in let rnd := nat_rnd (F := F) 10 in
  [/\ float_text parse show rnd, forall k, (k < 10)%N -> rnd k%:R = k%:R
   & exists conn, [/\ close_pairs 1 [:: [:: 0 : F]; [:: 1]] 2%:R conn, count (joins 0 1) conn = 1%N &
       (size conn <= umax)%N ->
       exists2 D, read_domain parse show umax true 1 1 (t_ "a.pts") (Some (pts_text show 1 2%:R [:: [:: 1]; [:: 0]])) = Ok D
         & valid_domain 1 D /\ di_points D = [:: [:: 0]; [:: 1]]]].
Proof. exact: whole_example. Qed.
Print Assumptions C27_example.
