(** The keys of edges and the list of edges of a graph. *)
From Verif Require Import Py M_Graph M_Node M_Nx M_GraphNx Spec SpecGraph SpecKeys L_Base L_R3 L_Keys L_Keys2 Ex.

(** C82. Two edges have the same key exactly when they are the same link. *)
Theorem C82_keys : forall (N : Type) (nid : N -> Z) e f, edge_key nid e = edge_key nid f <-> same_link nid e f.
Proof. exact @key_link. Qed.
Print Assumptions C82_keys.

(** So every link is listed once, and the list is exactly the last accepted edge of every link, removals or not: in a Graph or Ug, *)
Theorem C82_graph : forall (N : Type) (nid : N -> Z) ops, let g := graph_run nid ops in links_once nid (get_edges g) /\
  forall e, In e (get_edges g) <-> last_accepted nid added (graph_accepts nid) ops e.
Proof. exact @c82_graph. Qed.
Print Assumptions C82_graph.

(** in a Dag, *)
Theorem C82_dag : forall (N : Type) (nid : N -> Z) ops, orders_ok ops -> exists g, dag_run nid ops = Ok g /\ links_once nid (get_edges g) /\
  forall e, In e (get_edges g) <-> last_accepted nid (fun op => added (snd op)) (dag_accepts nid) ops e.
Proof. exact @c82_dag. Qed.
Print Assumptions C82_dag.

(** in a Pdag, *)
Theorem C82_pdag : forall (N : Type) (nid : N -> Z) ops, orders_ok ops -> exists g, pdag_run nid ops = Ok g /\ links_once nid (get_edges g) /\
  forall e, In e (get_edges g) <-> last_accepted nid (fun op => added (snd op)) (pdag_accepts nid) ops e.
Proof. exact @c82_pdag. Qed.
Print Assumptions C82_pdag.

(** and in a Bbn, which accepts everything. *)
Theorem C82_bbn : forall ops, let g := b_g (build ops) in links_once n_id (get_edges g) /\
  forall e, In e (get_edges g) <-> last_accepted n_id arrow bbn_accepts ops e.
Proof. exact c82_bbn. Qed.
Print Assumptions C82_bbn.

(** 1 and 2 are joined, 1 is removed, they are joined again the other way round and by an arrow that is refused: one edge, the second.
    3 -> 4 is still listed after 3 was removed; 4 -> 3 is another link. *)
Example C82_case :
  let ops := [AddE (zedge 1 2 UNDIRECTED); AddE (zedge 3 4 DIRECTED); Remove 1%Z; AddE (zedge 2 1 UNDIRECTED); AddE (zedge 2 1 DIRECTED); AddE (zedge 4 3 DIRECTED); Remove 3%Z] in
  get_edges (graph_run zid ops) = [zedge 2 1 UNDIRECTED; zedge 3 4 DIRECTED; zedge 4 3 DIRECTED] /\
  (match dag_run zid (map (fun op => (ord_rev, op)) ops) with Ok g => get_edges g = [zedge 3 4 DIRECTED; zedge 2 1 DIRECTED] | Err _ => False end) /\
  edge_key zid (zedge (-3) (-12) UNDIRECTED) = "-12---3"%string.
Proof. vm_compute. auto. Qed.

(** C53 after any calls: the exported graph has every arc that was ever accepted, the present nodes and the ends of those arcs. *)
Theorem C53_described : forall (N : Type) (nid : N -> Z) (name : N -> string) ops, orders_ok ops -> exists g, dag_run nid ops = Ok g /\
  let '(d, labels) := to_nx_graph nid name g in
  NoDup (dg_nodes d) /\ NoDup (dg_edges d) /\
  (forall x y, In (x, y) (dg_edges d) <-> ever_accepted nid (fun op => added (snd op)) (dag_accepts nid) ops x y) /\
  (forall x, In x (dg_nodes d) <-> In x (dkeys (g_nodes g)) \/ exists y, In (x, y) (dg_edges d) \/ In (y, x) (dg_edges d)) /\
  forall k, dget labels k = match get_node g k with Ok n => Some (name n) | Err _ => None end.
Proof. exact @c53_any. Qed.
Print Assumptions C53_described.

(** So the export of a Dag, though the Dag has no cycle, may have one. *)
Theorem C53_cycle_refuted : exists ops g x y, orders_ok ops /\ dag_run zid ops = Ok g /\ acyclic (arc g) /\
  let d := fst (to_nx_graph zid str_of_Z g) in In (x, y) (dg_edges d) /\ In (y, x) (dg_edges d).
Proof. exact c53_cycle. Qed.
Print Assumptions C53_cycle_refuted.

(** 1 -> 2, then 2 is removed, then 1 -> 3 and the refused 3 -> 1 *)
Example C53_described_case : (match dag_run zid [(ord_id, AddE (zedge 1 2 DIRECTED)); (ord_rev, Remove 2%Z); (ord_id, AddE (zedge 1 3 DIRECTED)); (ord_id, AddE (zedge 3 1 DIRECTED))] with
  | Ok g => to_nx_graph zid str_of_Z g | Err _ => (dg_empty, []) end) = (mkDg [1; 3; 2]%Z [(1, 2); (1, 3)]%Z, [(1%Z, "1"%string); (3%Z, "3"%string)]).
Proof. vm_compute. reflexivity. Qed.
