(** Properties of the order of elimination and of the graph triangulation makes. *)
From Verif Require Import Py M_Graph M_Node M_Pptc Spec SpecNet SpecEv SpecChord L_Base L_Check Ex L_R1 L_Chord2 L_R18.
Open Scope nat_scope.

(** C68. The variables are eliminated one by one from the moral graph, the one that needs the fewest new edges first (then the one
    with the fewest combinations of values, then the one with the smallest id), and the cliques are the variable eliminated with its
    neighbours at the time, those inside an earlier one left out. *)
Theorem C68_elimination : forall ops o h, well_shaped ops -> ord_ok o -> valid_history (net_of ops) h ->
  let N := net_of ops in let size i := Z.of_nat (List.length (dom N i)) in
  exists j steps, session o ops h = Ok j /\ eliminates size (vars N) (moral_edge N) steps /\
    (forall c, In c (jt_cliques j) -> exists v nbrs, In (v, nbrs) steps /\ same_members (cl_nodes c) (v :: nbrs)) /\
    (forall v nbrs, In (v, nbrs) steps -> exists c, In c (jt_cliques j) /\ incl (v :: nbrs) (cl_nodes c)).
Proof. exact c68_elimination. Qed.
Print Assumptions C68_elimination.

(** The graph in which two variables of one clique are joined is chordal and its complete sets lie in the cliques. *)
Theorem C68_chordal : forall ops o h, well_shaped ops -> ord_ok o -> valid_history (net_of ops) h ->
  let N := net_of ops in
  exists j, session o ops h = Ok j /\
    let joined x y := x <> y /\ exists c, In c (jt_cliques j) /\ In x (cl_nodes c) /\ In y (cl_nodes c) in
    chordal (vars N) joined /\
    (forall C, C <> [] -> incl C (vars N) -> all_joined joined C -> exists c, In c (jt_cliques j) /\ incl C (cl_nodes c)).
Proof. exact c68_chordal. Qed.
Print Assumptions C68_chordal.

(** No edges are added exactly when the moral graph is chordal. *)
Theorem C68_no_fill : forall ops o h, well_shaped ops -> ord_ok o -> valid_history (net_of ops) h ->
  let N := net_of ops in
  exists j, session o ops h = Ok j /\
    (chordal (vars N) (moral_edge N) <-> forall c, In c (jt_cliques j) -> all_joined (moral_edge N) (cl_nodes c)).
Proof. exact c68_no_fill. Qed.
Print Assumptions C68_no_fill.

(** The graph [triangulate] returns: the moral graph with the edges added. *)
Theorem C68_graph : forall ops o, well_shaped ops -> ord_ok o -> let N := net_of ops in
  let size i := Z.of_nat (List.length (dom N i)) in
  exists u m cs steps, moralize (b_g (build ops)) = Ok u /\ triangulate o u = Ok (m, cs) /\
    eliminates size (vars N) (moral_edge N) steps /\
    (forall x y, In y (get_neighbors m x) <-> x <> y /\ (moral_edge N x y \/ exists v nbrs, In (v, nbrs) steps /\ In x (v :: nbrs) /\ In y (v :: nbrs))) /\
    chordal (vars N) (fun x y => In y (get_neighbors m x)) /\
    (chordal (vars N) (moral_edge N) -> forall x y, In y (get_neighbors m x) <-> moral_edge N x y).
Proof. exact c68_graph. Qed.
Print Assumptions C68_graph.

(** the moral graph of [ring] is the circle 1-2-4-5-3 with 6 joined to 4 and 5, two edges are added; that of [diamond] is chordal *)
Example C68_case : well_shaped ring /\ ~ chordal (vars (net_of ring)) (moral_edge (net_of ring)) /\
  (match session ord_rev ring [] with Ok j => map cl_nodes (jt_cliques j) | Err _ => [] end) = [[5; 4; 6]; [5; 2; 4]; [2; 3; 5]; [3; 2; 1]]%Z /\
  well_shaped diamond /\ valid_history (net_of diamond) hard_history /\ chordal (vars (net_of diamond)) (moral_edge (net_of diamond)).
Proof. exact c68_case. Qed.
