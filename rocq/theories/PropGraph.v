(** Properties of the graph classes: C22, C23, C24, C25 and C48. [N] is any type of nodes, [nid] their id. *)
From Verif Require Import Py M_Graph M_Node M_Pptc M_Nx M_GraphNx Spec SpecGraph SpecNet L_Base L_PD L_UG L_P3 L_R3 L_P6.

(** C22. No call fails, there is never a directed cycle, and an edge is refused exactly when it is undirected, a loop,
    already there in either direction, or closes a cycle. *)
Theorem C22_dag_acyclic : forall (N : Type) (nid : N -> Z) ops, orders_ok ops ->
  exists g, dag_run nid ops = Ok g /\ acyclic (arc g) /\
    forall o e, ord_ok o -> exists g', dag_run nid (ops ++ [(o, AddE e)]) = Ok g' /\
      ((admissible nid (arc g) e /\ forall x y, arc g' x y <-> arc g x y \/ (x = nid (e_i e) /\ y = nid (e_j e))) \/
       (~ admissible nid (arc g) e /\ forall x y, arc g' x y <-> arc g x y)).
Proof. exact @c22. Qed.
Print Assumptions C22_dag_acyclic.

(** after 1 -> 2 and 2 -> 3, 3 -> 1 is refused and 1 -> 4 accepted; once 2 is removed, 3 -> 1 is accepted *)
Example C22_case :
  let ops := [(ord_rev, AddE (zedge 1 2 DIRECTED)); (ord_id, AddE (zedge 2 3 DIRECTED))] in
  orders_ok ops /\
  (match dag_run zid (ops ++ [(ord_id, AddE (zedge 3 1 DIRECTED)); (ord_id, AddE (zedge 1 4 DIRECTED))]) with
   | Ok g => memb g 1 2 && memb g 2 3 && negb (memb g 3 1) && memb g 1 4 | Err _ => false end) = true /\
  (match dag_run zid (ops ++ [(ord_id, Remove 2%Z); (ord_id, AddE (zedge 3 1 DIRECTED))]) with
   | Ok g => memb g 3 1 && negb (memb g 1 2) | Err _ => false end) = true.
Proof.
  split; [|split; vm_compute; reflexivity]. unfold orders_ok. apply Forall_cons; [exact ord_rev_ok|]. apply Forall_cons; [exact ord_id_ok|]. apply Forall_nil.
Qed.

(** The other calls, and what becomes of the nodes. *)
Theorem C22_other_calls : forall (N : Type) (nid : N -> Z) ops, orders_ok ops -> exists g, dag_run nid ops = Ok g /\
  (forall o i, ord_ok o -> exists g', dag_run nid (ops ++ [(o, Remove i)]) = Ok g' /\
     (forall x y, arc g' x y <-> arc g x y /\ x <> i /\ y <> i) /\ (forall x, In x (dkeys (g_nodes g')) <-> In x (dkeys (g_nodes g)) /\ x <> i)) /\
  (forall o n, ord_ok o -> exists g', dag_run nid (ops ++ [(o, AddN n)]) = Ok g' /\
     (forall x y, arc g' x y <-> arc g x y) /\ (forall x, In x (dkeys (g_nodes g')) <-> In x (dkeys (g_nodes g)) \/ x = nid n)) /\
  (forall o e, ord_ok o -> exists g', dag_run nid (ops ++ [(o, AddE e)]) = Ok g' /\
     (forall x, In x (dkeys (g_nodes g')) <-> In x (dkeys (g_nodes g)) \/ x = nid (e_i e) \/ x = nid (e_j e))).
Proof. exact @c22_others. Qed.
Print Assumptions C22_other_calls.

(** C23 as stated is false: a Bbn accepts a cycle, and a node as its own parent. *)
Theorem C23_bbn_acyclic_refuted : exists ops x y, arc (b_g (build ops)) x y /\ path (arc (b_g (build ops))) y x.
Proof. exact c23_refuted. Qed.
Print Assumptions C23_bbn_acyclic_refuted.
Theorem C23_bbn_loop_refuted : exists ops x, arc (b_g (build ops)) x x.
Proof. exact c23_loop. Qed.
Print Assumptions C23_bbn_loop_refuted.

(** What remains true: the arcs are exactly those of the calls, so there is a cycle only if the calls ask for one. *)
Theorem C23_bbn_acyclic_partial : forall ops, (forall x y, arc (b_g (build ops)) x y <-> called ops x y) /\
  (acyclic (arc (b_g (build ops))) <-> acyclic (called ops)).
Proof. exact c23. Qed.
Print Assumptions C23_bbn_acyclic_partial.

Example C23_case : acyclic (called [AddEdge (bn 1) (bn 2); AddNode (bn 4); AddEdge (bn 1) (bn 3)]).
Proof.
  assert (H : forall x y, called [AddEdge (bn 1) (bn 2); AddNode (bn 4); AddEdge (bn 1) (bn 3)] x y -> x = 1%Z /\ y <> 1%Z).
  { intros x y [a [b [[E|[E|[E|[]]]] [<- <-]]]]; inversion E; subst; simpl; split; auto; discriminate. }
  intros x y H1 H2. apply H in H1. destruct H1 as [-> H1]. inversion H2 as [|? z ? H3 H4]; subst; [congruence|]. apply H in H3. tauto.
Qed.

(** C24 as stated is false: a directed edge followed by an undirected one and a directed one back. *)
Theorem C24_pdag_refuted : exists ops g x y, orders_ok ops /\ pdag_run zid ops = Ok g /\ directed g x y /\ path (arc g) y x.
Proof. exact c24_refuted. Qed.
Print Assumptions C24_pdag_refuted.

(** What remains true: no cycle of directed edges; and which edges are refused. *)
Theorem C24_pdag_partial : forall (N : Type) (nid : N -> Z) ops, orders_ok ops ->
  exists g, pdag_run nid ops = Ok g /\ acyclic (directed g) /\
    forall o e, ord_ok o -> exists g', pdag_run nid (ops ++ [(o, AddE e)]) = Ok g' /\
      let p := nid (e_i e) in let c := nid (e_j e) in
      ((p <> c /\ ~ arc g p c /\ ~ arc g c p /\ ~ path (directed g) c p) /\ forall x y, arc g' x y <-> arc g x y \/ leads nid e x y) \/
      (~ (p <> c /\ ~ arc g p c /\ ~ arc g c p /\ ~ path (directed g) c p) /\ forall x y, arc g' x y <-> arc g x y).
Proof. exact @c24. Qed.
Print Assumptions C24_pdag_partial.

Example C24_case : orders_ok semi /\
  (match pdag_run zid (semi ++ [(ord_id, AddE (zedge 2 4 DIRECTED)); (ord_id, AddE (zedge 4 1 DIRECTED))]) with
   | Ok g => memb g 2 4 && negb (memb g 4 1) | Err _ => false end) = true.
Proof. split; [exact semi_ok|vm_compute; reflexivity]. Qed.

(** C25 as stated is false in its last part: after remove_node the edge list still mentions the node. *)
Theorem C25_bookkeeping_refuted : exists ops i e,
  In e (get_edges (graph_run zid (ops ++ [Remove i]))) /\ (zid (e_i e) = i \/ zid (e_j e) = i).
Proof. exact c25_refuted. Qed.
Print Assumptions C25_bookkeeping_refuted.

(** The rest holds after any calls. *)
Theorem C25_bookkeeping_partial : forall (N : Type) (nid : N -> Z) ops, let g := graph_run nid ops in
  (forall x y, In y (get_neighbors g x) <-> joined nid ops x y) /\
  (forall x y, In y (emap g x) <-> pointed nid ops x y) /\
  (forall x y, In y (get_neighbors g x) -> In x (get_neighbors g y) /\ x <> y /\
     (exists n, get_node g x = Ok n /\ nid n = x) /\ exists n, get_node g y = Ok n /\ nid n = y) /\
  (forall x y, edge_exists g x y = true <-> joined nid ops x y) /\
  (forall k, get_node g k = match kept nid ops k with Some n => Ok n | None => Err KeyError end).
Proof. exact @c25. Qed.
Print Assumptions C25_bookkeeping_partial.

(** And the edge list is right as long as nothing was removed. *)
Theorem C25_edges_partial : forall (N : Type) (nid : N -> Z) ops x y, no_removal ops ->
  (In y (get_neighbors (graph_run nid ops) x) <-> exists e, In e (get_edges (graph_run nid ops)) /\ ends_at nid e x y).
Proof. exact @run_edges. Qed.
Print Assumptions C25_edges_partial.

Example C25_case :
  let ops := [AddE (zedge 1 2 UNDIRECTED); AddE (zedge 2 1 DIRECTED); AddE (zedge 3 3 DIRECTED); AddE (zedge 3 1 DIRECTED)] in
  let g := graph_run zid ops in
  no_removal ops /\ map (get_neighbors g) [1; 2; 3]%Z = [[2; 3]; [1]; [1]]%Z /\ List.length (get_edges g) = 2 /\
  get_neighbors (graph_run zid (ops ++ [Remove 1%Z])) 2 = [] /\ get_node (graph_run zid (ops ++ [Remove 1%Z])) 1 = Err KeyError.
Proof. split; [intros i H; simpl in H; intuition discriminate|]. vm_compute. auto. Qed.

(** C48. The search ends (some depth always suffices, and any larger one gives the same answer) and is reachability: in
    a Dag, in a Bbn, which may be cyclic, in a Pdag and in a join tree. *)
Theorem C48_path_dag : forall (N : Type) (nid : N -> Z) ops, orders_ok ops -> exists g, dag_run nid ops = Ok g /\
  forall o start stop f, ord_ok o -> g_fuel g <= f ->
    exists b, pd_exists (get_children o g) stop f start = Ok b /\ (b = true <-> path (arc g) start stop).
Proof. exact @c48_dag. Qed.
Print Assumptions C48_path_dag.

Theorem C48_path_bbn : forall ops, let g := b_g (build ops) in
  forall o start stop f, ord_ok o -> g_fuel g <= f ->
    exists b, pd_exists (get_children o g) stop f start = Ok b /\ (b = true <-> path (called ops) start stop).
Proof. exact c48_bbn. Qed.
Print Assumptions C48_path_bbn.

Theorem C48_path_pdag : forall (N : Type) (nid : N -> Z) ops, orders_ok ops -> exists g, pdag_run nid ops = Ok g /\
  forall o start stop f, ord_ok o -> g_fuel g <= f ->
    exists b, pd_exists (get_out_nodes o g) stop f start = Ok b /\ (b = true <-> path (directed g) start stop).
Proof. exact @c48_pdag. Qed.
Print Assumptions C48_path_pdag.

Theorem C48_path_jointree : forall h ops, Forall (fun op => ord_ok (fst op)) ops -> exists j, jt_run h ops = Ok j /\
  forall o start stop f, ord_ok o -> jt_fuel j <= f ->
    exists b, pd_exists (fun i => sord o i (jt_neighbors j i)) stop f start = Ok b /\ (b = true <-> path (beside j) start stop).
Proof. exact c48_jt. Qed.
Print Assumptions C48_path_jointree.

Example C48_case :
  let g := b_g (build (AddEdge (bn 2) (bn 4) :: bbn_cycle)) in
  map (fun p => pd_exists (get_children ord_rev g) (snd p) (g_fuel g) (fst p)) [(1, 4); (2, 2); (4, 1); (3, 1); (2, 1)]%Z =
  [Ok true; Ok true; Ok false; Ok false; Ok true].
Proof. vm_compute. reflexivity. Qed.

(** C52. The questions one can ask a Dag are answered from its arcs ... *)
Theorem C52_dag : forall (N : Type) (nid : N -> Z) ops, orders_ok ops -> exists g, dag_run nid ops = Ok g /\ forall x y,
  (dag_edge_exists g x y = true <-> arc g x y) /\ (In x (get_parents g y) <-> arc g x y) /\ NoDup (get_parents g y) /\
  forall o, ord_ok o -> (In y (get_children o g x) <-> arc g x y) /\ NoDup (get_children o g x).
Proof. exact @c52_dag. Qed.
Print Assumptions C52_dag.

(** ... those of a Pdag too, but get_parents counts undirected edges, so get_out_nodes follows none ... *)
Theorem C52_pdag : forall (N : Type) (nid : N -> Z) ops, orders_ok ops -> exists g, pdag_run nid ops = Ok g /\ forall x y,
  (pdag_edge_exists g x y = true <-> arc g x y \/ arc g y x) /\ (pdag_directed_edge_exists g x y = true <-> directed g x y) /\
  (In x (get_parents g y) <-> arc g x y) /\ NoDup (get_parents g y) /\
  forall o, ord_ok o -> (In y (get_out_nodes o g x) <-> directed g x y).
Proof. exact @c52_pdag. Qed.
Print Assumptions C52_pdag.

(** ... and those of a Bbn, except that where both directions were added edge_exists sees neither. *)
Theorem C52_bbn_refuted : exists ops x y, called ops x y /\ dag_edge_exists (b_g (build ops)) x y = false.
Proof. exact c52_bbn_refuted. Qed.
Print Assumptions C52_bbn_refuted.
Theorem C52_bbn_partial : forall ops x y, (dag_edge_exists (b_g (build ops)) x y = true <-> called ops x y /\ ~ called ops y x) /\
  (In x (get_parents (b_g (build ops)) y) <-> called ops x y) /\ forall o, ord_ok o -> (In y (get_children o (b_g (build ops)) x) <-> called ops x y).
Proof. exact c52_bbn. Qed.
Print Assumptions C52_bbn_partial.

Example C52_case : (match dag_run zid [(ord_rev, AddE (zedge 1 2 DIRECTED)); (ord_id, AddE (zedge 3 2 DIRECTED)); (ord_id, AddE (zedge 1 4 DIRECTED))] with
  | Ok g => (get_parents g 2, get_children ord_rev g 1, dag_edge_exists g 1 2, dag_edge_exists g 2 1) | Err _ => ([], [], false, true) end) = ([1; 3], [4; 2], true, false)%Z.
Proof. vm_compute. reflexivity. Qed.
Example C52_pdag_case : (match pdag_run zid semi with
  | Ok g => (get_out_nodes ord_id g 1, get_out_nodes ord_id g 2, get_parents g 2, pdag_edge_exists g 3 2, pdag_directed_edge_exists g 2 3) | Err _ => ([], [], [], false, true) end)
  = ([2], [], [1; 3], true, false)%Z.
Proof. vm_compute. reflexivity. Qed.

(** C53. As long as no node was removed, the networkx graph has the nodes, labels and edges of the Dag. *)
Theorem C53_to_nx_partial : forall (N : Type) (nid : N -> Z) (name : N -> string) ops, orders_ok ops -> no_removal (map snd ops) -> exists g, dag_run nid ops = Ok g /\
  let '(d, labels) := to_nx_graph nid name g in
  dg_nodes d = dkeys (g_nodes g) /\ NoDup (dg_edges d) /\ (forall x y, In (x, y) (dg_edges d) <-> arc g x y) /\
  forall k, dget labels k = match get_node g k with Ok n => Some (name n) | Err _ => None end.
Proof. exact @c53. Qed.
Print Assumptions C53_to_nx_partial.

(** A removed node comes back, because its edges are still listed. *)
Theorem C53_to_nx_refuted : exists ops g i, orders_ok ops /\ dag_run zid (ops ++ [(ord_id, Remove i)]) = Ok g /\
  ~ In i (dkeys (g_nodes g)) /\ In i (dg_nodes (fst (to_nx_graph zid str_of_Z g))).
Proof. exact c53_refuted. Qed.
Print Assumptions C53_to_nx_refuted.

Example C53_case : (match dag_run zid [(ord_id, AddE (zedge 2 1 DIRECTED)); (ord_id, AddN 5%Z); (ord_id, AddE (zedge 2 3 DIRECTED))] with
  | Ok g => to_nx_graph zid str_of_Z g | Err _ => (dg_empty, []) end) = (mkDg [2; 1; 5; 3]%Z [(2, 1); (2, 3)]%Z, [(2%Z, "2"%string); (1%Z, "1"%string); (5%Z, "5"%string); (3%Z, "3"%string)]).
Proof. vm_compute. reflexivity. Qed.

(** C54. get_i2n gives every node's name; get_n2i gives for every name a node with that name, and is the inverse when
    names are different. *)
Theorem C54_name_maps : forall (N : Type) (nid : N -> Z) (name : N -> string) ops, orders_ok ops -> exists g, dag_run nid ops = Ok g /\
  (forall k, dget (get_i2n name g) k = match get_node g k with Ok n => Some (name n) | Err _ => None end) /\
  (forall s k, dget (get_n2i name g) s = Some k -> exists n, get_node g k = Ok n /\ name n = s) /\
  (forall k n, get_node g k = Ok n -> exists k', dget (get_n2i name g) (name n) = Some k') /\
  ((forall k k' n n', get_node g k = Ok n -> get_node g k' = Ok n' -> name n = name n' -> k = k') ->
   forall s k, dget (get_n2i name g) s = Some k <-> exists n, get_node g k = Ok n /\ name n = s).
Proof. exact @c54. Qed.
Print Assumptions C54_name_maps.

(** two nodes with one name: the last one wins *)
Example C54_case : (match dag_run fst [(ord_id, AddN (7%Z, "a"%string)); (ord_id, AddN (8%Z, "b"%string)); (ord_id, AddN (9%Z, "a"%string))] with
  | Ok g => (get_n2i snd g, get_i2n snd g) | Err _ => ([], []) end)
  = ([("a"%string, 9%Z); ("b"%string, 8%Z)], [(7%Z, "a"%string); (8%Z, "b"%string); (9%Z, "a"%string)]).
Proof. vm_compute. reflexivity. Qed.
