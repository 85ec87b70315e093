(** Separation in the graph and the answers of the join tree. Nothing but theorems and examples. *)
From Verif Require Import Py M_Graph M_Node M_Pptc M_Nx M_Do Spec SpecNet SpecPot SpecEv SpecNx SpecDo SpecSep L_Base L_Check Ex L_R1 L_R4 L_Sep3 L_Sep4 L_SepEx.
Open Scope nat_scope.

(** C61. Two sessions on one network differ only in what they say about the variables [xs]. If do.py finds, in the graph that
    to_nx_graph gives, every path between [y] and the variables [xs] inactive given the variables observed in both, then both
    sessions report the same posteriors of [y]. *)
Theorem C61_separated : forall ops o o' h h' ev xs y, let N := net_of ops in let L := shown N (calls h) in let L' := shown N (calls h') in
  well_shaped ops -> connected ops -> acyclic (is_parent N) -> stochastic N -> ord_ok o -> ord_ok o' -> valid_history N h -> valid_history N h' ->
  In y (vars N) -> incl xs (vars N) -> incl ev (vars N) -> ~ In y ev -> ~ In y xs -> (forall x, In x xs -> ~ In x ev) ->
  (forall x, In x xs -> all_inactive (net_graph ops) ev x y) ->
  (forall z, In z ev -> pinned N L z) -> (forall i, In i (vars N) -> ~ In i ev -> ~ In i xs -> i <> y -> free N L i) ->
  (forall i v, In i (vars N) -> ~ In i xs -> In v (dom N i) -> L i v = L' i v) -> possible N L -> possible N L' ->
  exists j t j' t' m, session o ops h = Ok j /\ get_posteriors j = Ok t /\ session o' ops h' = Ok j' /\ get_posteriors j' = Ok t' /\
    dget t (net_name ops y) = Some m /\ dget t' (net_name ops y) = Some m.
Proof. exact c61. Qed.
Print Assumptions C61_separated.

(** The same about exact posteriors, for any network, connected or not, and any graph with its arcs. *)
Theorem C61_posteriors : forall ops es xs y ev L L', let N := net_of ops in well_shaped ops -> acyclic (is_parent N) -> stochastic N -> same_arcs N es ->
  incl xs (vars N) -> In y (vars N) -> incl ev (vars N) -> (forall x, In x xs -> ~ In x ev) -> ~ In y ev ->
  (forall x, In x xs -> separated es ev x y) ->
  (forall z, In z ev -> pinned N L z) -> (forall i, In i (vars N) -> ~ In i ev -> ~ In i xs -> i <> y -> free N L i) ->
  (forall i v, In i (vars N) -> ~ In i xs -> In v (dom N i) -> L i v = L' i v) ->
  possible N L -> possible N L' -> forall v, exact_posterior N L y v = exact_posterior N L' y v.
Proof. exact c61_posteriors. Qed.
Print Assumptions C61_posteriors.

(** The graph of to_nx_graph is that of the network, and do.py finds all paths inactive exactly if they are. *)
Theorem C61_graph : forall ops, well_shaped ops -> acyclic (is_parent (net_of ops)) ->
  dg_nodes (net_graph ops) = net_vars ops /\ same_arcs (net_of ops) (dg_edges (net_graph ops)) /\
  forall ev x y, In x (net_vars ops) -> In y (net_vars ops) -> x <> y -> ~ In x ev -> ~ In y ev ->
    (all_inactive (net_graph ops) ev x y <-> separated (dg_edges (net_graph ops)) ev x y).
Proof. exact c61_graph. Qed.
Print Assumptions C61_graph.

Local Open Scope Z_scope.
(** [diamond]: given [a], what is said about [b] does not matter for [c] *)
Example C61_case : let N := net_of diamond in
  well_shaped diamond /\ connected diamond /\ acyclic (is_parent N) /\ stochastic N /\ valid_history N seen_a /\ valid_history N seen_ab /\
  all_inactive (net_graph diamond) [10] 2 1 /\ sep_likeb N (shown N (calls seen_a)) (shown N (calls seen_ab)) [10] [2] 1 = true /\
  same_answer seen_a seen_ab 1 = true /\ same_answer seen_a seen_ab 2 = false.
Proof.
  cbv zeta. split; [exact diamond_ok|]. split; [exact diamond_connected|]. split; [apply rankedb_ok with diamond_rank; vm_compute; reflexivity|]. split; [apply stochasticb_ok; vm_compute; reflexivity|].
  split; [split; [orders|apply valid_calls_ok; vm_compute; reflexivity]|]. split; [split; [orders|apply valid_calls_ok; vm_compute; reflexivity]|].
  split; [apply inactiveb_ok; vm_compute; reflexivity|]. vm_compute. auto.
Qed.
(** with their common effect [d] observed too, the path through it is active, and it does matter *)
Example C61_case_open : let N := net_of diamond in
  sep_likeb N (shown N (calls seen_ad)) (shown N (calls seen_abd)) [10; 30] [2] 1 = true /\
  inactiveb (net_graph diamond) [10; 30] 2 1 = false /\ is_active_path (net_graph diamond) [2; 30; 1] (EvSet [10; 30]) = Ok true /\ same_answer seen_ad seen_abd 1 = false.
Proof. vm_compute. auto. Qed.
