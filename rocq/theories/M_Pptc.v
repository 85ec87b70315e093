(** Model of pybbn/graph/jointree.py and pybbn/pptc/*.py: from network to join tree to posteriors. *)
From Verif Require Import Py M_Graph M_Node.

(** ** Moralizer (moralizer.py:11-35) *)

(** all pairs (l[i], l[j]) with i < j, in order: the double loops of moralizer.py:26-30, transformer.py:43-46 and
    itertools.combinations(range(n), 2) of triangulator.py:125 *)
Fixpoint pairs {A} (l : list A) : list (A * A) :=
  match l with
  | [] => []
  | x :: t => map (fun y => (x, y)) t ++ pairs t
  end.

(** moralizer.py:24, 32: [dag.get_node(pa) for pa in dag.get_parents(node.id)] *)
Definition parent_nodes (g : graph bnode) (i : Z) : res (list bnode) := mapM (get_node g) (get_parents g i).

(** moralizer.py:18-30: the undirected graph *)
Definition moralize (g : graph bnode) : res (graph bnode) :=
  let ug := fold_left (add_node n_id) (get_nodes g) g_empty in
  let ug := fold_left (fun u e => add_edge n_id u (mkEdge (e_i e) (e_j e) UNDIRECTED)) (get_edges g) ug in
  foldM (fun u n =>
           ps <- parent_nodes g (n_id n) ;;
           Ok (fold_left (fun u p => add_edge n_id u (mkEdge (fst p) (snd p) UNDIRECTED)) (pairs ps) u))
        (get_nodes g) ug.

(** moralizer.py:31-33: node.add_metadata("parents", parents) *)
Definition moralize_meta (g : graph bnode) (h : heap) : heap :=
  map (fun p => (fst p, set_mpar (snd p) (get_parents g (n_id (snd p))))) h.

(** ** Triangulator (triangulator.py) *)

(** triangulator.py:144-170 NodeClique *)
Record nclique := mkNC { nc_node : bnode; nc_nbrs : list bnode; nc_weight : Z; nc_edges : list (edge bnode) }.

(** triangulator.py:40-52 duplicate *)
Definition duplicate (g : graph bnode) : graph bnode :=
  fold_left (add_edge n_id) (get_edges g) (fold_left (add_node n_id) (get_nodes g) g_empty).

(** triangulator.py:63-64 (and 122): neighbours as nodes, iterating the neighbour set *)
Definition nbr_nodes (o : Ord) (m : graph bnode) (n : bnode) : res (list bnode) :=
  mapM (get_node m) (zord o (n_id n) (get_neighbors m (n_id n))).

(** triangulator.py:96-111 get_weight *)
Definition tri_weight (o : Ord) (n : bnode) (m : graph bnode) : res Z :=
  ns <- nbr_nodes o m n ;; Ok (n_weight n * fold_right Z.mul 1%Z (map n_weight ns))%Z.

(** triangulator.py:114-128 get_edges_to_add *)
Definition edges_to_add (o : Ord) (n : bnode) (m : graph bnode) : res (list (edge bnode)) :=
  ns <- nbr_nodes o m n ;;
  Ok (map (fun p => mkEdge (fst p) (snd p) UNDIRECTED)
          (filter (fun p => negb (edge_exists m (n_id (fst p)) (n_id (snd p)))) (pairs ns))).

(** triangulator.py:55-80 generate_cliques *)
Definition generate_cliques (o : Ord) (m : graph bnode) : res (list nclique) :=
  mapM (fun n => ns <- nbr_nodes o m n ;; w <- tri_weight o n m ;; es <- edges_to_add o n m ;;
                 Ok (mkNC n ns w es)) (get_nodes m).

(** triangulator.py:90-93: key (len(edges), weight, node.id), compared as a tuple *)
Definition nc_leb (a b : nclique) : bool :=
  let la := List.length (nc_edges a) in let lb := List.length (nc_edges b) in
  if Nat.eqb la lb then
    if Z.eqb (nc_weight a) (nc_weight b) then Z.leb (n_id (nc_node a)) (n_id (nc_node b))
    else Z.leb (nc_weight a) (nc_weight b)
  else Nat.leb la lb.

(** triangulator.py:83-93 select_node *)
Definition select_node (o : Ord) (m : graph bnode) : res nclique :=
  l <- generate_cliques o m ;;
  match isort nc_leb l with [] => Err IndexError | x :: _ => Ok x end.

(** triangulator.py:130-141 is_subset *)
Definition is_subset (cs : list clique) (c : clique) : bool := existsb (fun d => is_superset d c) cs.

(** triangulator.py:23-37: the while loop; one unit of fuel per iteration *)
Fixpoint tri_loop (o : Ord) (fuel : nat) (m mm : graph bnode) (cliques : list clique)
  : res (graph bnode * list clique) :=
  match get_nodes mm with
  | [] => Ok (m, cliques)
  | _ =>
      match fuel with
      | O => Err OutOfFuel
      | S f =>
          nc <- select_node o mm ;;
          let c := mk_clique (map n_id (nc_nbrs nc ++ [nc_node nc])) in
          let cliques' := if is_subset cliques c then cliques else cliques ++ [c] in
          let mm1 := remove_node mm (n_id (nc_node nc)) in
          tri_loop o f (fold_left (add_edge n_id) (nc_edges nc) m)
                   (fold_left (add_edge n_id) (nc_edges nc) mm1) cliques'
      end
  end.

(** triangulator.py:15-37 triangulate: also returns the graph [m] with the fill-in edges added to it *)
Definition triangulate (o : Ord) (m : graph bnode) : res (graph bnode * list clique) :=
  tri_loop o (List.length (g_nodes m)) m (duplicate m) [].

(** ** JoinTree (jointree.py:12-545) *)

Inductive jnode := JC (c : clique) | JS (s : sepset).
Definition j_id (n : jnode) : string := match n with JC c => cl_id c | JS s => ss_id s end.

(** jointree.py:17-26. [jt_nbrs] is both [neighbors] and [edge_map] (JoinTree.add_edge updates them alike).
    [jt_edges] maps edge keys to the JtEdge, represented by its separation set. [jt_heap] holds the BbnNode objects
    reachable from the cliques. The marks on cliques (Clique.marked, node.py:135-153) are threaded through message passing as a list of ids.
    [jt_listener]: whether a listener is set (the only listener is InferenceController). *)
Record jtree := mkJt {
  jt_nodes : list (string * jnode);
  jt_edges : list (string * sepset);
  jt_nbrs : list (string * list string);
  jt_pots : list (string * potential);
  jt_evid : list (Z * list (string * potential));
  jt_listener : bool;
  jt_pinfo : list (Z * list Z);
  jt_heap : heap }.

Definition jt_empty (h : heap) : jtree := mkJt [] [] [] [] [] false [] h.
Definition set_jnodes j x := mkJt x (jt_edges j) (jt_nbrs j) (jt_pots j) (jt_evid j) (jt_listener j) (jt_pinfo j) (jt_heap j).
Definition set_jpots j x := mkJt (jt_nodes j) (jt_edges j) (jt_nbrs j) x (jt_evid j) (jt_listener j) (jt_pinfo j) (jt_heap j).
Definition set_jevid j x := mkJt (jt_nodes j) (jt_edges j) (jt_nbrs j) (jt_pots j) x (jt_listener j) (jt_pinfo j) (jt_heap j).
Definition set_jlistener j x := mkJt (jt_nodes j) (jt_edges j) (jt_nbrs j) (jt_pots j) (jt_evid j) x (jt_pinfo j) (jt_heap j).
Definition set_jpinfo j x := mkJt (jt_nodes j) (jt_edges j) (jt_nbrs j) (jt_pots j) (jt_evid j) (jt_listener j) x (jt_heap j).
Definition set_jheap j x := mkJt (jt_nodes j) (jt_edges j) (jt_nbrs j) (jt_pots j) (jt_evid j) (jt_listener j) (jt_pinfo j) x.

(** Attributes of a node object found in the heap. In Python a clique holds the node objects themselves, so these
    lookups cannot fail; the defaults are never used on a tree made by the code. *)
Definition h_values (h : heap) (i : Z) : list string := match dget h i with Some n => n_values n | None => [] end.
Definition h_name (h : heap) (i : Z) : string := match dget h i with Some n => n_name n | None => EmptyString end.
Definition h_weight (h : heap) (i : Z) : Z := match dget h i with Some n => n_weight n | None => 0%Z end.
Definition h_nv (h : heap) (ids : list Z) : list (Z * list string) := map (fun i => (i, h_values h i)) ids.

(** graph.py:55-64 on a join tree *)
Definition jt_add_node (j : jtree) (n : jnode) : jtree :=
  if dmem (jt_nodes j) (j_id n) then j else set_jnodes j (dset (jt_nodes j) (j_id n) n).

(** jointree.py:203-209 get_cliques; 211-217 get_sep_sets *)
Definition jt_cliques (j : jtree) : list clique :=
  flat_map (fun n => match n with JC c => [c] | JS _ => [] end) (dvals (jt_nodes j)).
Definition jt_sepsets (j : jtree) : list sepset :=
  flat_map (fun n => match n with JS s => [s] | JC _ => [] end) (dvals (jt_nodes j)).

(** jointree.py:124-144: ids of the dict {node.id: node for clique in cliques for node in clique.nodes} *)
Definition jt_bbn_ids (j : jtree) : list Z := sof (flat_map cl_nodes (jt_cliques j)).

Definition jt_neighbors (j : jtree) (i : string) : list string := dgets (jt_nbrs j) i.

Definition jt_fuel (j : jtree) : nat := 2 + List.length (jt_nbrs j).

(** jointree.py:504-520 __shouldadd__ *)
Definition jt_shouldadd (o : Ord) (j : jtree) (s : sepset) : res bool :=
  let l := cl_id (ss_left s) in let r := cl_id (ss_right s) in
  if eqb l r then Ok false
  else b <- pd_exists (fun i => sord o i (jt_neighbors j i)) r (jt_fuel j) l ;; Ok (negb b).

Definition dsadds (d : list (string * list string)) (k x : string) := dset d k (sadd (dgets d k) x).

(** edge.py:32-46 for an undirected edge between string ids *)
Definition jt_edge_key (s : sepset) : string :=
  let l := cl_id (ss_left s) in let r := cl_id (ss_right s) in
  if str_leb l r then (l ++ "--" ++ r)%string else (r ++ "--" ++ l)%string.

(** jointree.py:219-250 add_edge (of a JtEdge; other edges are ignored by the code) *)
Definition jt_add_edge (o : Ord) (j : jtree) (s : sepset) : res jtree :=
  b <- jt_shouldadd o j s ;;
  if b : bool then
    let l := cl_id (ss_left s) in let r := cl_id (ss_right s) in let k := ss_id s in
    let j := jt_add_node (jt_add_node (jt_add_node j (JS s)) (JC (ss_left s))) (JC (ss_right s)) in
    let nb := dsadds (dsadds (dsadds (dsadds (jt_nbrs j) l k) r k) k l) k r in
    Ok (mkJt (jt_nodes j) (dset (jt_edges j) (jt_edge_key s) s) nb (jt_pots j) (jt_evid j) (jt_listener j)
             (jt_pinfo j) (jt_heap j))
  else Ok j.

(** ** Transformer (transformer.py) *)

(** transformer.py:50: sort key (-mass, cost, id) *)
Definition ss_leb (wt : Z -> Z) (a b : sepset) : bool :=
  if Nat.eqb (ss_mass a) (ss_mass b) then
    if Z.eqb (ss_cost wt a) (ss_cost wt b) then str_leb (ss_id a) (ss_id b)
    else Z.leb (ss_cost wt a) (ss_cost wt b)
  else Nat.leb (ss_mass b) (ss_mass a).

(** transformer.py:32-50 get_sep_sets *)
Definition get_sep_sets (wt : Z -> Z) (cs : list clique) : list sepset :=
  isort (ss_leb wt)
    (flat_map (fun p => match intersects (fst p) (snd p) with
                        | (true, _, _, _) => [mk_sepset (fst p) (snd p)]
                        | _ => []
                        end) (pairs cs)).

(** transformer.py:12-29 transform *)
Definition transform (o : Ord) (h : heap) (cs : list clique) : res jtree :=
  let j := fold_left (fun j c => jt_add_node j (JC c)) cs (jt_empty h) in
  foldM (jt_add_edge o) (get_sep_sets (h_weight h) cs) j.

(** ** Initializer (initializer.py) *)

(** jointree.py:522-532 __get_parent_ids__ *)
Definition jt_parent_ids (j : jtree) (i : Z) : list Z :=
  match dget (jt_heap j) i with
  | Some n => match n_mpar n with Some l => l | None => [] end
  | None => []
  end.

(** jointree.py:174-190 find_cliques_with_node_and_parents *)
Definition find_cliques (j : jtree) (i : Z) : list clique :=
  let ids := jt_parent_ids j i ++ [i] in
  filter (fun c => subset ids (cl_nodes c)) (jt_cliques j).

Definition cl_leb (a b : clique) : bool := str_leb (cl_id a) (cl_id b).

(** initializer.py:50-67 get_clique: returns the clique id and the tree with the metadata set *)
Definition get_clique (j : jtree) (i : Z) : res (string * jtree) :=
  n <- dgetE (jt_heap j) i ;;
  match n_mclq n with
  | Some c => Ok (c, j)
  | None =>
      match isort cl_leb (find_cliques j i) with
      | [] => Err IndexError
      | c :: _ => Ok (cl_id c, set_jheap j (hupd (jt_heap j) i (fun n => set_mclq n (cl_id c))))
      end
  end.

(** jointree.py:192-201 add_potential *)
Definition add_potential (j : jtree) (i : string) (p : potential) : jtree := set_jpots j (dset (jt_pots j) i p).

(** jointree.py:273-295 get_evidence *)
Definition get_evidence (j : jtree) (i : Z) (v : string) : jtree * potential :=
  let m := dgets (jt_evid j) i in
  match dget m v with
  | Some p => (set_jevid j (dset (jt_evid j) i m), p)
  | None => let p := [mkPE [(i, v)] 1%Qc] in (set_jevid j (dset (jt_evid j) i (dset m v p)), p)
  end.

(** initializer.py:17-23 *)
Definition init_pots (j : jtree) : jtree :=
  let j := fold_left (fun j c => add_potential j (cl_id c) (potential_from_nodes (h_nv (jt_heap j) (cl_nodes c))))
                     (jt_cliques j) j in
  fold_left (fun j s => add_potential j (ss_id s) (potential_from_nodes (h_nv (jt_heap j) (ss_nodes s))))
            (jt_sepsets j) j.

(** initializer.py:25-35: multiply each node's CPT into its clique *)
Definition init_node (j : jtree) (i : Z) : res jtree :=
  cj <- get_clique j i ;;
  let (c, j) := (cj : string * jtree) in
  p1 <- dgetE (jt_pots j) c ;;
  n <- dgetE (jt_heap j) i ;;
  match n_pot n with
  | None => Err AttributeError
  | Some p2 => Ok (add_potential j c (multiply p1 p2))
  end.

(** initializer.py:39-44: multiply each evidence likelihood into the node's clique *)
Definition init_evid (j : jtree) (i : Z) : res jtree :=
  n <- dgetE (jt_heap j) i ;;
  foldM (fun j v =>
           match n_mclq n with
           | None => Err KeyError
           | Some c =>
               cp <- dgetE (jt_pots j) c ;;
               let (j, p) := get_evidence j i v in
               Ok (add_potential j c (multiply cp p))
           end) (n_values n) j.

(** initializer.py:10-47 initialize *)
Definition initialize (j : jtree) : res jtree :=
  let j := init_pots j in
  let ids := jt_bbn_ids j in
  j <- foldM init_node ids j ;; foldM init_evid ids j.

(** ** Message passing *)

Definition pots := list (string * potential).

(** potential.py:145-160 pass_single_message *)
Definition pass_message (h : heap) (ps : pots) (x : clique) (s : sepset) (y : clique) : res pots :=
  old <- dgetE ps (ss_id s) ;;
  match dget ps (cl_id x) with
  | None => Err AttributeError
  | Some cp =>
      let new := marginalize cp (h_nv h (ss_nodes s)) in
      let ps1 := dset ps (ss_id s) new in
      yp <- dgetE ps1 (cl_id y) ;;
      ratio <- divide new old ;;
      Ok (dset ps1 (cl_id y) (multiply yp ratio))
  end.

(** [get_node] for a separation set / a clique. In Python the objects are duck-typed; a wrong kind of node would fail
    on an attribute access. *)
Definition jt_get_sep (j : jtree) (i : string) : res sepset :=
  match dget (jt_nodes j) i with Some (JS s) => Ok s | Some (JC _) => Err AttributeError | None => Err KeyError end.
Definition jt_get_clq (j : jtree) (i : string) : res clique :=
  match dget (jt_nodes j) i with Some (JC c) => Ok c | Some (JS _) => Err AttributeError | None => Err KeyError end.

(** evidencecollector.py:20-35, evidencedistributor.py:20-41 __get_neighboring_cliques__ *)
Definition neighboring (o : Ord) (j : jtree) (c : clique) : res (list (sepset * clique)) :=
  ls <- mapM (fun s =>
                mapM (fun d => sp <- jt_get_sep j s ;; cq <- jt_get_clq j d ;; Ok (sp, cq))
                     (sord o s (jt_neighbors j s)))
             (sord o (cl_id c) (jt_neighbors j (cl_id c))) ;;
  Ok (filter (fun p => negb (eqb (cl_id (snd p)) (cl_id c))) (List.concat ls)).

(** potentials and marked clique ids *)
Definition pstate := (pots * list string)%type.

(** evidencecollector.py:64-70, evidencedistributor.py:71-77: keep and mark the unmarked ones *)
Fixpoint mark_new (marked : list string) (l : list (sepset * clique)) : list string * list (sepset * clique) :=
  match l with
  | [] => (marked, [])
  | p :: t =>
      if mem (cl_id (snd p)) marked then mark_new marked t
      else let (m, r) := mark_new (sadd marked (cl_id (snd p))) t in (m, p :: r)
  end.

(** evidencecollector.py:53-75 __walk__ *)
Fixpoint collect_walk (o : Ord) (j : jtree) (fuel : nat) (st : pstate) (x : clique) (s : sepset) (y : clique)
  : res pstate :=
  match fuel with
  | O => Err OutOfFuel
  | S f =>
      nb <- neighboring o j y ;;
      let (m, todo) := mark_new (snd st) nb in
      st' <- foldM (fun st p => collect_walk o j f st y (fst p) (snd p)) todo (fst st, m) ;;
      ps <- pass_message (jt_heap j) (fst st') y s x ;;
      Ok (ps, snd st')
  end.

Definition mark_all (marked : list string) (l : list (sepset * clique)) : list string :=
  fold_left (fun m p => sadd m (cl_id (snd p))) l marked.

(** recursion depth allowed to the walks (see [g_fuel]) *)
Definition walk_fuel (j : jtree) : nat := 1 + List.length (jt_nodes j).

(** evidencecollector.py:37-51 start *)
Definition collect (o : Ord) (j : jtree) (st : pstate) (x : clique) : res pstate :=
  let m := sadd (snd st) (cl_id x) in
  nb <- neighboring o j x ;;
  foldM (fun st p => collect_walk o j (walk_fuel j) st x (fst p) (snd p)) nb (fst st, mark_all m nb).

(** evidencedistributor.py:61-81 __walk__ (its arguments x and s are not used by the code) *)
Fixpoint distribute_walk (o : Ord) (j : jtree) (fuel : nat) (st : pstate) (y : clique) : res pstate :=
  match fuel with
  | O => Err OutOfFuel
  | S f =>
      nb <- neighboring o j y ;;
      let (m, todo) := mark_new (snd st) nb in
      foldM (fun st p =>
               ps <- pass_message (jt_heap j) (fst st) y (fst p) (snd p) ;;
               distribute_walk o j f (ps, snd st) (snd p)) todo (fst st, m)
  end.

(** evidencedistributor.py:43-59 start *)
Definition distribute (o : Ord) (j : jtree) (st : pstate) (x : clique) : res pstate :=
  let m := sadd (snd st) (cl_id x) in
  nb <- neighboring o j x ;;
  foldM (fun st p =>
           ps <- pass_message (jt_heap j) (fst st) x (fst p) (snd p) ;;
           distribute_walk o j (walk_fuel j) (ps, snd st) (snd p)) nb (fst st, mark_all m nb).

(** propagator.py:11-51 propagate, with collect_evidence and distribute_evidence, which start the two passes; unmark_cliques (jointree.py:83-88) empties the set of marks *)
Definition propagate (o : Ord) (j : jtree) : res jtree :=
  match isort cl_leb (jt_cliques j) with
  | [] => Err IndexError
  | x :: _ =>
      st <- collect o j (jt_pots j, []) x ;;
      st <- distribute o j (fst st, []) x ;;
      Ok (set_jpots j (fst st))
  end.

(** ** Posteriors *)

(** jointree.py:70-81 get_bbn_potential *)
Definition get_bbn_potential (j : jtree) (i : Z) : res potential :=
  n <- dgetE (jt_heap j) i ;;
  match n_mclq n with
  | None => Err KeyError
  | Some c => match dget (jt_pots j) c with
              | None => Err AttributeError
              | Some cp => Ok (normalize (marginalize cp [nv n]))
              end
  end.

(** jointree.py:60-63: {value: probability} of one node *)
Definition pot_to_map (p : potential) : list (string * Qc) :=
  fold_left (fun m e => dset m (join EmptyString (map snd (pe_map e))) (pe_val e)) p [].

(** jointree.py:47-68 get_posteriors *)
Definition get_posteriors (j : jtree) : res (list (string * list (string * Qc))) :=
  foldM (fun d i =>
           p <- get_bbn_potential j i ;;
           Ok (dset d (h_name (jt_heap j) i) (pot_to_map p))) (jt_bbn_ids j) [].

(** [get_posteriors()[name][value]] *)
Definition posterior (j : jtree) (name value : string) : res Qc :=
  d <- get_posteriors j ;; m <- dgetE d name ;; dgetE m value.

(** jointree.py:146-172 get_bbn_node, get_bbn_node_by_name *)
Definition get_bbn_node (j : jtree) (i : Z) : option bnode :=
  if mem i (jt_bbn_ids j) then dget (jt_heap j) i else None.
Definition get_bbn_node_by_name (j : jtree) (name : string) : option bnode :=
  fold_left (fun acc i => if eqb (h_name (jt_heap j) i) name then dget (jt_heap j) i else acc)
            (flat_map cl_nodes (jt_cliques j)) None.

(** ** PotentialInitializer (potentialinitializer.py) *)

(** potentialinitializer.py:10-23 init *)
Definition init_node_pot (b : bbn) (n : bnode) : res potential :=
  parents <- mapM (get_node (b_g b)) (dgets (b_parents b) (n_id n)) ;; get_potential n parents.
Definition pot_init (b : bbn) : res heap :=
  mapM (fun p => q <- init_node_pot b (snd p) ;; Ok (fst p, set_pot (snd p) (Some q))) (g_nodes (b_g b)).

(** potentialinitializer.py:26-36 reinit: first the parents of every node (jointree.py:105-122 get_bbn_node_and_parents),
    then the potentials *)
Definition bbn_node_and_parents (j : jtree) : res (list (Z * (bnode * list bnode))) :=
  let ids := jt_bbn_ids j in
  let get_parents i := mapM (fun p => if mem p ids then dgetE (jt_heap j) p else Err KeyError) (dgets (jt_pinfo j) i) in
  mapM (fun i => n <- dgetE (jt_heap j) i ;; pa <- get_parents i ;; Ok (i, (n, pa))) ids.
Definition pot_reinit (j : jtree) : res jtree :=
  nps <- bbn_node_and_parents j ;;
  ps <- mapM (fun x => let (n, pa) := (snd x : bnode * list bnode) in q <- get_potential n pa ;; Ok (fst x, (q, map n_id pa))) nps ;;
  Ok (set_jheap j (fold_left (fun h p => hupd h (fst p) (fun n => set_mpar (set_pot n (Some (fst (snd p)))) (snd (snd p))))
                             ps (jt_heap j))).

(** ** InferenceController (inferencecontroller.py) *)

Definition set_graph_nodes (g : graph bnode) (h : heap) : graph bnode := mkGraph h (g_edges g) (g_emap g) (g_nbrs g).

(** inferencecontroller.py:18-41 apply. Returns the network as well, because the node objects it shares with the join
    tree have been given potentials and metadata. *)
Definition apply (o : Ord) (b : bbn) : res (bbn * jtree) :=
  h <- pot_init b ;;
  let g := set_graph_nodes (b_g b) h in
  ug <- moralize g ;;
  let h := moralize_meta g h in
  mc <- triangulate o ug ;;
  j <- transform o h (snd mc) ;;
  let j := set_jpinfo j (flat_map (fun n => match dget (b_parents b) (n_id n) with
                                            | Some l => [(n_id n, l)]
                                            | None => []
                                            end) (get_nodes g)) in
  j <- initialize j ;;
  j <- propagate o j ;;
  Ok (mkBbn (set_graph_nodes g (jt_heap j)) (b_parents b), set_jlistener j true).

(** jointree.py:90-103 update_bbn_cpts *)
Definition update_bbn_cpts (j : jtree) (cpts : list (Z * list Qc)) : jtree :=
  let ids := jt_bbn_ids j in
  set_jheap j (fold_left (fun h p => if mem (fst p) ids
                                     then hupd h (fst p) (fun n => set_pot (set_probs n (snd p)) None) else h)
                         cpts (jt_heap j)).

(** inferencecontroller.py:67-83 apply_from_serde, and the common tail of reapply (57-64) *)
Definition apply_from_serde (o : Ord) (j : jtree) : res jtree :=
  let j := set_jevid (set_jlistener j false) [] in
  j <- pot_reinit j ;; j <- initialize j ;; j <- propagate o j ;; Ok (set_jlistener j true).

(** inferencecontroller.py:44-64 reapply. copy.deepcopy (jointree.py:28-45) copies the whole object graph (M_Copy,
    C76); values in the model are immutable, so the copy is the value itself. Its listener is set to None anyway. *)
Definition reapply (o : Ord) (j : jtree) (cpts : list (Z * list Qc)) : res jtree :=
  apply_from_serde o (update_bbn_cpts j cpts).

(** ** Evidence (jointree.py:624-886) *)

(** jointree.py:624-632 *)
Inductive evtype := VIRTUAL | FINDING | OBSERVATION | UNOBSERVE.
(** jointree.py:635-642 *)
Inductive change := CNone | CUpdate | CRetraction.

(** jointree.py:701-726 Evidence; the node object is given by its id and its variable's values *)
Record evidence := mkEv { ev_node : Z; ev_dom : list string; ev_type : evtype; ev_values : list (string * Qc) }.

(** jointree.py:645-698 EvidenceBuilder: with_node(n).with_type(t).with_evidence(v,l)...build() *)
Definition build_evidence (n : bnode) (t : evtype) (l : list (string * Qc)) : evidence :=
  mkEv (n_id n) (n_values n) t (fold_left (fun d p => dset d (fst p) (snd p)) l []).

(** jointree.py:816-829 *)
Definition clamp01 (v : Qc) : Qc := if qleb 0%Qc v && qleb v 1%Qc then v else if qltb v 0%Qc then 0%Qc else 1%Qc.
(** jointree.py:832-843 *)
Definition zero_or_one (v : Qc) : Qc := if qltb 0%Qc v then 1%Qc else 0%Qc.

(** the values[value] reads of validate (always present after the first loop) *)
Definition evget (m : list (string * Qc)) (v : string) : Qc := match dget m v with Some q => q | None => 0%Qc end.

(** jointree.py:853-855 *)
Definition fill_missing (dom : list string) (m : list (string * Qc)) : list (string * Qc) :=
  fold_left (fun m v => if dmem m v then m else dset m v 0%Qc) dom m.

(** jointree.py:845-886 validate *)
Definition validate (e : evidence) : res evidence :=
  let dom := ev_dom e in
  let m := fill_missing dom (ev_values e) in
  let upd f := fold_left (fun m v => dset m v (f m v)) dom in
  match ev_type e with
  | VIRTUAL => Ok (mkEv (ev_node e) dom VIRTUAL (upd (fun m v => clamp01 (evget m v)) m))
  | FINDING =>
      let m := upd (fun m v => zero_or_one (evget m v)) m in
      let m := if qeqb 0%Qc (qsum (dvals m)) then upd (fun _ _ => 1%Qc) m else m in
      Ok (mkEv (ev_node e) dom FINDING m)
  | OBSERVATION =>
      match isort (fun a b => qleb (snd b) (snd a)) m with
      | [] => Err IndexError
      | (key, _) :: _ =>
          Ok (mkEv (ev_node e) dom OBSERVATION (upd (fun _ v => if eqb key v then 1%Qc else 0%Qc) m))
      end
  | UNOBSERVE => Ok (mkEv (ev_node e) dom UNOBSERVE (upd (fun _ _ => 1%Qc) m))
  end.

(** jointree.py:758-769 __convert__: entries[0].value of each potential *)
Definition convert (m : list (string * potential)) : res (list (string * Qc)) :=
  mapM (fun p => match snd p with [] => Err IndexError | e :: _ => Ok (fst p, pe_val e) end) m.

Definition q_of_nat (n : nat) : Qc := Q2Qc (inject_Z (Z.of_nat n)).

(** jointree.py:771-782 *)
Definition is_unobserved (m : list (string * Qc)) : bool := qeqb (qsum (dvals m)) (q_of_nat (List.length m)).

(** jointree.py:785-802 *)
Definition is_observed (m : list (string * Qc)) : bool :=
  let one := List.length (filter (fun p => qeqb 1%Qc (snd p)) m) in
  let zero := List.length (filter (fun p => negb (qeqb 1%Qc (snd p))) m) in
  Nat.eqb 1 one && Nat.eqb (List.length m) (S zero).

(** jointree.py:805-813 *)
Definition observed_value (m : list (string * Qc)) : res string :=
  match filter (fun p => qeqb 1%Qc (snd p)) m with [] => Err IndexError | (k, _) :: _ => Ok k end.

(** jointree.py:728-755 compare *)
Definition compare_ev (e : evidence) (pot : list (string * potential)) : res change :=
  that <- convert pot ;;
  let this := ev_values e in
  if is_unobserved that && is_unobserved this then Ok CNone
  else if is_observed that && is_observed this then
    s1 <- observed_value that ;; s2 <- observed_value this ;;
    if eqb s1 s2 then Ok CNone else Ok CRetraction
  else Ok CRetraction.

(** jointree.py:297-327 get_change_type *)
Definition get_change_type (j : jtree) (es : list evidence) : res change :=
  cs <- mapM (fun e => pot <- dgetE (jt_evid j) (ev_node e) ;; compare_ev e pot) es ;;
  if existsb (fun c => match c with CRetraction => true | _ => false end) cs then Ok CRetraction
  else if existsb (fun c => match c with CUpdate => true | _ => false end) cs then Ok CUpdate
  else Ok CNone.

(** jointree.py:374-377: potential = potentials[k]; potential.entries[0].value = v. The state is returned also when
    an exception is raised half way. *)
Fixpoint store_values (m : list (string * potential)) (vs : list (string * Qc)) : list (string * potential) * option exn :=
  match vs with
  | [] => (m, None)
  | (k, v) :: t =>
      match dget m k with
      | None => (m, Some KeyError)
      | Some [] => (m, Some IndexError)
      | Some (e :: es) => store_values (dset m k (mkPE (pe_map e) v :: es)) t
      end
  end.

(** jointree.py:370-377 *)
Fixpoint store_evidences (j : jtree) (es : list evidence) : jtree * option exn :=
  match es with
  | [] => (j, None)
  | e :: t =>
      match dget (jt_evid j) (ev_node e) with
      | None => (j, Some KeyError)
      | Some m =>
          let (m', x) := store_values m (ev_values e) in
          let j := set_jevid j (dset (jt_evid j) (ev_node e) m') in
          match x with Some x => (j, Some x) | None => store_evidences j t end
      end
  end.

(** jointree.py:534-545 __notify_listener__, inferencecontroller.py:85-100. An exception inside the listener (proved
    impossible) is reported with the tree as it was before the listener ran. *)
Definition notify (o : Ord) (j : jtree) (c : change) : jtree * option exn :=
  if jt_listener j then
    match (match c with
           | CRetraction => j <- initialize j ;; propagate o j
           | CUpdate => propagate o j
           | CNone => Ok j
           end) with
    | Ok j' => (j', None)
    | Err x => (j, Some x)
    end
  else (j, None).

(** jointree.py:361-379 update_evidences *)
Definition update_evidences (o : Ord) (j : jtree) (es : list evidence) : jtree * option exn :=
  match mapM validate es with
  | Err x => (j, Some x)
  | Ok es =>
      match get_change_type j es with
      | Err x => (j, Some x)
      | Ok c =>
          match store_evidences j es with
          | (j, Some x) => (j, Some x)
          | (j, None) => notify o j c
          end
      end
  end.

(** jointree.py:329-339 get_unobserved_evidence *)
Definition unobserved_evidence (n : bnode) : evidence :=
  mkEv (n_id n) (n_values n) UNOBSERVE (fold_left (fun m v => dset m v 1%Qc) (n_values n) []).

(** jointree.py:341-350 unobserve *)
Definition unobserve (o : Ord) (j : jtree) (ns : list bnode) : jtree * option exn :=
  update_evidences o j (map unobserved_evidence ns).

(** jointree.py:352-359 unobserve_all *)
Definition unobserve_all (o : Ord) (j : jtree) : jtree * option exn :=
  match mapM (dgetE (jt_heap j)) (jt_bbn_ids j) with
  | Err x => (j, Some x)
  | Ok ns => unobserve o j ns
  end.

(** jointree.py:381-412 set_observation. [ev_dom] of the evidence is its node's variable values. *)
Definition set_observation (o : Ord) (j : jtree) (e : evidence) : jtree * option exn :=
  match dget (jt_evid j) (ev_node e) with
  | None => (j, Some KeyError)
  | Some m =>
      match convert m with
      | Err x => (j, Some x)
      | Ok pv =>
          let pvalues := map fst (filter (fun p => qeqb 1%Qc (snd p)) pv) in
          let cvalues := map fst (filter (fun p => qeqb 1%Qc (snd p)) (ev_values e)) in
          match pvalues with
          | [last] =>
              match cvalues with
              | [] => (j, Some IndexError)
              | curr :: _ =>
                  if eqb last curr
                  then update_evidences o j
                         [mkEv (ev_node e) (ev_dom e) UNOBSERVE (fold_left (fun m v => dset m v 1%Qc) (ev_dom e) [])]
                  else update_evidences o j [e]
              end
          | _ => update_evidences o j [e]
          end
      end
  end.
