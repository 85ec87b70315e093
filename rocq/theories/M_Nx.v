(** The parts of networkx that do.py and bbngenerator.py use, on integer nodes. The library itself is not part of
    /repo: these functions follow its documentation, and are checked against their specification in L_Nx. *)
From Verif Require Import Py.

(** nx.DiGraph: nodes in insertion order, edges in insertion order (removing an edge and adding it again moves it to the end) *)
Record digraph := mkDg { dg_nodes : list Z; dg_edges : list (Z * Z) }.
Definition dg_empty : digraph := mkDg [] [].

Definition dg_has_edge (g : digraph) (i j : Z) : bool := existsb (fun e => eqb (fst e) i && eqb (snd e) j) (dg_edges g).
Definition dg_add_node (g : digraph) (i : Z) : digraph :=
  if mem i (dg_nodes g) then g else mkDg (dg_nodes g ++ [i]) (dg_edges g).
(** add_edge and add_edges_from of one edge: missing nodes are added *)
Definition dg_add_edge (g : digraph) (i j : Z) : digraph :=
  let g := dg_add_node (dg_add_node g i) j in
  if dg_has_edge g i j then g else mkDg (dg_nodes g) (dg_edges g ++ [(i, j)]).
Definition dg_remove_edge (g : digraph) (i j : Z) : res digraph :=
  if dg_has_edge g i j then Ok (mkDg (dg_nodes g) (filter (fun e => negb (eqb (fst e) i && eqb (snd e) j)) (dg_edges g)))
  else Err NetworkXError.

(** successors and predecessors raise NetworkXError for an unknown node *)
Definition succs (g : digraph) (i : Z) : list Z := map snd (filter (fun e => eqb (fst e) i) (dg_edges g)).
Definition preds (g : digraph) (i : Z) : list Z := map fst (filter (fun e => eqb (snd e) i) (dg_edges g)).
Definition successors (g : digraph) (i : Z) : res (list Z) := if mem i (dg_nodes g) then Ok (succs g i) else Err NetworkXError.
Definition predecessors (g : digraph) (i : Z) : res (list Z) := if mem i (dg_nodes g) then Ok (preds g i) else Err NetworkXError.
(** g.edges: node by node, the successors of each *)
Definition edge_list (g : digraph) : list (Z * Z) := flat_map (fun i => map (fun j => (i, j)) (succs g i)) (dg_nodes g).

(** nx.Graph as its adjacency lists; self loops and repeated edges are kept once *)
Record ugraph := mkU { ug_nodes : list Z; ug_adj : Z -> list Z }.
Definition u_of (nodes : list Z) (edges : list (Z * Z)) : ugraph :=
  mkU nodes (fun i => fold_left (fun l e => if eqb (fst e) i then sadd l (snd e) else if eqb (snd e) i then sadd l (fst e) else l) edges []).

(** everything reachable from [seen] in at most [fuel] steps *)
Fixpoint closure (fuel : nat) (adj : Z -> list Z) (seen : list Z) : list Z :=
  match fuel with
  | O => seen
  | S f => closure f adj (fold_left sadd (flat_map adj seen) seen)
  end.
(** nx.descendants *)
Definition descendants (g : digraph) (i : Z) : res (list Z) :=
  if mem i (dg_nodes g) then Ok (srem (closure (List.length (dg_nodes g)) (succs g) [i]) i) else Err NetworkXError.
(** nx.is_connected raises NetworkXPointlessConcept for the graph without nodes *)
Definition is_connected (u : ugraph) : res bool :=
  match ug_nodes u with
  | [] => Err NetworkXError
  | i :: _ => Ok (subset (ug_nodes u) (closure (List.length (ug_nodes u)) (ug_adj u) [i]))
  end.
(** shortest_path succeeds rather than raising NetworkXNoPath *)
Definition has_path (u : ugraph) (i j : Z) : bool := mem j (closure (List.length (ug_nodes u)) (ug_adj u) [i]).
(** is_directed_acyclic_graph *)
Definition is_dag (g : digraph) : bool :=
  forallb (fun i => negb (mem i (closure (List.length (dg_nodes g)) (succs g) (fold_left sadd (succs g i) [])))) (dg_nodes g).

(** nx.all_simple_paths for two different nodes: depth first, in the order of the adjacency lists; [seen] is the path so
    far, ending with [cur] *)
Fixpoint simple_paths (fuel : nat) (adj : Z -> list Z) (target : Z) (seen : list Z) (cur : Z) : list (list Z) :=
  match fuel with
  | O => []
  | S f =>
      flat_map (fun j => if mem j seen then []
                         else if eqb j target then [seen ++ [j]]
                         else simple_paths f adj target (seen ++ [j]) j) (adj cur)
  end.
Definition all_simple_paths (u : ugraph) (start stop : Z) : res (list (list Z)) :=
  if mem start (ug_nodes u) && mem stop (ug_nodes u) then Ok (simple_paths (List.length (ug_nodes u)) (ug_adj u) stop [start] start)
  else Err NetworkXError.
