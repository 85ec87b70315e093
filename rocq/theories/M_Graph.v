(** Model of pybbn/graph/{edge,graph,dag,pdag}.py: graphs over integer node ids. *)
From Verif Require Import Py.

(** edge.py:5-11 EdgeType *)
Inductive etype := UNDIRECTED | DIRECTED.

(** dag.py:354-399, jointree.py:548-599, pdag.py:86-131 PathDetector: depth-first search with a [seen] set shared by
    the whole search. [adj i] is the list the three variants iterate (children, neighbours, out nodes).
    The result carries the [seen] set back; [None] = fuel exhausted (Python: recursion; proved unreachable). *)
Section PathDetector.
  Context {K : Type} `{EqB K} (adj : K -> list K) (stop : K).

  (** dag.py:383-399 [__find__] *)
  Fixpoint pd_find (fuel : nat) (seen : list K) (i : K) {struct fuel} : option (bool * list K) :=
    match fuel with
    | O => None
    | S f =>
        if mem stop (adj i) then Some (true, seen)
        else
          (fix loop (seen : list K) (cs : list K) {struct cs} : option (bool * list K) :=
             match cs with
             | [] => Some (false, seen)
             | c :: cs' =>
                 if mem c seen then loop seen cs'
                 else match pd_find f seen c with
                      | None => None
                      | Some (true, s) => Some (true, s)
                      | Some (false, s) => loop s cs'
                      end
             end) (sadd seen i) (adj i)
    end.

  (** dag.py:372-381 [exists] *)
  Definition pd_exists (fuel : nat) (start : K) : res bool :=
    if eqb start stop then Ok true
    else match pd_find fuel [] start with
         | None => Err OutOfFuel
         | Some (b, _) => Ok b
         end.
End PathDetector.

Section Graph.
  (** [N]: node objects; [nid]: Node.id (node.py:10-17) *)
  Context {N : Type} (nid : N -> Z).

  (** edge.py:14-29 Edge *)
  Record edge := mkEdge { e_i : N; e_j : N; e_t : etype }.

  (** edge.py:32-46 Edge.key *)
  Definition edge_key (e : edge) : string :=
    let a := Z.min (nid (e_i e)) (nid (e_j e)) in
    let b := Z.max (nid (e_i e)) (nid (e_j e)) in
    match e_t e with
    | DIRECTED => (str_of_Z (nid (e_i e)) ++ "->" ++ str_of_Z (nid (e_j e)))%string
    | UNDIRECTED => (str_of_Z a ++ "--" ++ str_of_Z b)%string
    end.

  (** graph.py:12-19 Graph *)
  Record graph := mkGraph {
    g_nodes : list (Z * N);
    g_edges : list (string * edge);
    g_emap : list (Z * list Z);
    g_nbrs : list (Z * list Z) }.

  Definition g_empty : graph := mkGraph [] [] [] [].

  (** graph.py:21-28 get_neighbors (the set itself) *)
  Definition get_neighbors (g : graph) (i : Z) : list Z := dgets (g_nbrs g) i.
  (** edge_map[i] *)
  Definition emap (g : graph) (i : Z) : list Z := dgets (g_emap g) i.
  (** graph.py:30-37 get_node *)
  Definition get_node (g : graph) (i : Z) : res N := dgetE (g_nodes g) i.
  (** graph.py:39-45 get_nodes *)
  Definition get_nodes (g : graph) : list N := dvals (g_nodes g).
  (** graph.py:47-53 get_edges *)
  Definition get_edges (g : graph) : list edge := dvals (g_edges g).

  (** graph.py:55-64 add_node *)
  Definition add_node (g : graph) (n : N) : graph :=
    if dmem (g_nodes g) (nid n) then g
    else mkGraph (dset (g_nodes g) (nid n) n) (g_edges g) (g_emap g) (g_nbrs g).

  (** [self.d[k].add(x)] on a defaultdict(set) *)
  Definition dsadd (d : list (Z * list Z)) (k x : Z) : list (Z * list Z) := dset d k (sadd (dgets d k) x).

  (** graph.py:76-85: the body run when [__shouldadd__] said yes *)
  Definition put_edge (g : graph) (e : edge) : graph :=
    let i := nid (e_i e) in let j := nid (e_j e) in
    let em := dsadd (g_emap g) i j in
    let em := match e_t e with UNDIRECTED => dsadd em j i | DIRECTED => em end in
    mkGraph (g_nodes g) (dset (g_edges g) (edge_key e) e) em (dsadd (dsadd (g_nbrs g) i j) j i).

  (** graph.py:73-74: add_edge first adds both end points *)
  Definition add_ends (g : graph) (e : edge) : graph := add_node (add_node g (e_i e)) (e_j e).

  (** graph.py:98-121 Graph.__shouldadd__ *)
  Definition shouldadd (g : graph) (e : edge) : bool :=
    let i := nid (e_i e) in let j := nid (e_j e) in
    if Z.eqb i j then false
    else match e_t e with
         | UNDIRECTED => negb (mem i (emap g j)) || negb (mem j (emap g i))
         | DIRECTED => negb (mem j (emap g i))
         end.

  (** graph.py:66-87 Graph.add_edge (Graph and Ug) *)
  Definition add_edge (g : graph) (e : edge) : graph :=
    let g1 := add_ends g e in if shouldadd g1 e then put_edge g1 e else g1.

  (** graph.py:123-135 Graph.edge_exists *)
  Definition edge_exists (g : graph) (i j : Z) : bool :=
    (dmem (g_emap g) i && mem j (emap g i)) || (dmem (g_emap g) j && mem i (emap g j)).

  (** graph.py:137-153 remove_node. [edges] is left alone, as in the code. *)
  Definition remove_node (g : graph) (i : Z) : graph :=
    mkGraph (dpop (g_nodes g) i) (g_edges g)
            (map (fun p => (fst p, srem (snd p) i)) (dpop (g_emap g) i))
            (map (fun p => (fst p, srem (snd p) i)) (dpop (g_nbrs g) i)).

  (** ** Dag *)

  (** dag.py:41-48 Dag.get_parents, pdag.py:15-22 Pdag.get_parents *)
  Definition get_parents (g : graph) (i : Z) : list Z :=
    filter (fun x => mem i (emap g x)) (dkeys (g_emap g)).

  (** dag.py:50-57 get_children: iterates the set edge_map[i] *)
  Definition get_children (o : Ord) (g : graph) (i : Z) : list Z := zord o i (emap g i).

  (** Search depth available to PathDetector: one level per key of edge_map plus two. Python has no explicit bound
      (its recursion limit is not modelled); [OutOfFuel] is proved unreachable. *)
  Definition g_fuel (g : graph) : nat := 2 + List.length (g_emap g) + List.length (g_nbrs g).

  (** dag.py:59-82 Dag.__shouldadd__ *)
  Definition dag_shouldadd (o : Ord) (g : graph) (e : edge) : res bool :=
    match e_t e with
    | UNDIRECTED => Ok false
    | DIRECTED =>
        let pa := nid (e_i e) in let ch := nid (e_j e) in
        if Z.eqb pa ch then Ok false
        else if negb (mem ch (emap g pa)) && negb (mem pa (emap g ch))
             then b <- pd_exists (get_children o g) pa (g_fuel g) ch ;; Ok (negb b)
             else Ok false
    end.

  (** graph.py:66-87 with Dag.__shouldadd__ *)
  Definition dag_add_edge (o : Ord) (g : graph) (e : edge) : res graph :=
    let g1 := add_ends g e in
    b <- dag_shouldadd o g1 e ;; Ok (if b : bool then put_edge g1 e else g1).

  (** dag.py:84-94 Dag.edge_exists *)
  Definition dag_edge_exists (g : graph) (i j : Z) : bool := mem j (emap g i) && negb (mem i (emap g j)).

  (** ** Pdag *)

  (** pdag.py:24-37 get_out_nodes *)
  Definition get_out_nodes (o : Ord) (g : graph) (i : Z) : list Z :=
    filter (fun n => negb (mem n (get_parents g i))) (zord o i (get_neighbors g i)).

  (** pdag.py:39-59 Pdag.__shouldadd__ *)
  Definition pdag_shouldadd (o : Ord) (g : graph) (e : edge) : res bool :=
    let pa := nid (e_i e) in let ch := nid (e_j e) in
    if Z.eqb pa ch then Ok false
    else if negb (mem ch (emap g pa)) && negb (mem pa (emap g ch))
         then b <- pd_exists (get_out_nodes o g) pa (g_fuel g) ch ;; Ok (negb b)
         else Ok false.

  (** graph.py:66-87 with Pdag.__shouldadd__ *)
  Definition pdag_add_edge (o : Ord) (g : graph) (e : edge) : res graph :=
    let g1 := add_ends g e in
    b <- pdag_shouldadd o g1 e ;; Ok (if b : bool then put_edge g1 e else g1).

  (** pdag.py:61-71 Pdag.edge_exists *)
  Definition pdag_edge_exists (g : graph) (i j : Z) : bool := mem j (emap g i) || mem i (emap g j).
  (** pdag.py:73-83 Pdag.directed_edge_exists *)
  Definition pdag_directed_edge_exists (g : graph) (i j : Z) : bool := mem j (emap g i) && negb (mem i (emap g j)).
End Graph.
Arguments mkEdge {N} e_i e_j e_t.
Arguments edge N : clear implicits.
Arguments graph N : clear implicits.
