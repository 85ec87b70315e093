(** Property of lookups in a join tree. Nothing but theorems and examples. *)
From Verif Require Import Py M_Graph M_Node M_Pptc M_Flat Spec SpecNet SpecEv L_Base L_Check Ex L_R1 L_R8 L_MsgEx L_Flat.
Open Scope nat_scope.

(** C73. The flattened edges join every separation set to its two cliques, are the edges of the tree both ways, and make no cycle. *)
Theorem C73_edges : forall ops o h, well_shaped ops -> ord_ok o -> valid_history (net_of ops) h ->
  exists j, session o ops h = Ok j /\ let E := get_flattened_edges j in
    List.length E = 2 * List.length (jt_sepsets j) /\ NoDup E /\
    (forall x y, In (x, y) E <-> exists c s, In c (jt_cliques j) /\ In s (jt_sepsets j) /\ x = cl_id c /\ y = ss_id s /\ (c = ss_left s \/ c = ss_right s)) /\
    (forall x y, In x (map cl_id (jt_cliques j) ++ map ss_id (jt_sepsets j)) -> (In y (jt_neighbors j x) <-> In (x, y) E \/ In (y, x) E)) /\
    no_cycle E.
Proof. exact c73_edges. Qed.
Print Assumptions C73_edges.

(** Nodes are found by id and by name, and nothing else is; the cliques found for a variable are those with all its family. *)
Theorem C73_lookup : forall ops o h, well_shaped ops -> ord_ok o -> valid_history (net_of ops) h -> let N := net_of ops in
  exists j, session o ops h = Ok j /\
    (forall i, In i (vars N) -> exists n, get_bbn_node j i = Some n /\ get_bbn_node_by_name j (net_name ops i) = Some n /\
       n_id n = i /\ n_name n = net_name ops i /\ n_values n = dom N i) /\
    (forall i, ~ In i (vars N) -> get_bbn_node j i = None) /\
    (forall name, ~ In name (map (net_name ops) (vars N)) -> get_bbn_node_by_name j name = None) /\
    (forall i, In i (vars N) -> find_cliques j i <> [] /\ forall c, In c (find_cliques j i) <-> In c (jt_cliques j) /\ incl (par N i ++ [i]) (cl_nodes c)).
Proof. exact c73_lookup. Qed.
Print Assumptions C73_lookup.

(** a tree with three separation sets and a branch; a network in two parts; evidence *)
Example C73_case : well_shaped branching /\ valid_history (net_of branching) [] /\ well_shaped islands /\ well_shaped diamond /\ valid_history (net_of diamond) hard_history /\
  (match session ord_id branching [] with
   | Ok j => get_flattened_edges j = [("1-2", "1-2-2-2-3"); ("2-3", "1-2-2-2-3"); ("1-2", "1-2-2-2-4"); ("2-4", "1-2-2-2-4"); ("2-4", "2-4-4-4-5"); ("4-5", "2-4-4-4-5")]%string /\
       map cl_id (find_cliques j 2%Z) = ["1-2"]%string /\ option_map n_id (get_bbn_node_by_name j (net_name branching 3)) = Some 3%Z
   | Err _ => False end) /\
  (match session ord_id islands [] with Ok j => List.length (get_flattened_edges j) = 2 /\ List.length (jt_cliques j) = 3 | Err _ => False end).
Proof.
  split; [exact branching_ok|]. split; [split; constructor|]. split; [exact islands_ok|]. split; [exact diamond_ok|]. split; [exact hard_history_ok|].
  split; vm_compute; auto.
Qed.
