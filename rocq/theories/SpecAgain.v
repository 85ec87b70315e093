(** What happens to a network object between two calls of apply. *)
From Verif Require Import Py M_Graph M_Node M_Pptc Spec SpecNet SpecEv SpecRe.

(** the caller assigns new CPTs to the node objects of the network: [node.probs = ...] *)
Definition assign (b : bbn) (cpts : list (Z * list Qc)) : bbn :=
  mkBbn (set_graph_nodes (b_g b) (map (fun p => match dget cpts (fst p) with Some c => (fst p, set_probs (snd p) c) | None => p end) (g_nodes (b_g b)))) (b_parents b).
(** the network whose node objects are those of the join tree; apply puts the very objects of the network into the tree,
    so whatever a call on the tree does to them is seen in the network *)
Definition shared (b : bbn) (j : jtree) : bbn := mkBbn (set_graph_nodes (b_g b) (jt_heap j)) (b_parents b).

(** evidence calls on the last tree, and apply calls on the network object after assigning CPTs to its nodes *)
Definition do_turn (bj : bbn * jtree) (d : deed) : res (bbn * jtree) :=
  match d with
  | Evidence o c => match do_call o (snd bj) c with (j, None) => Ok (shared (fst bj) j, j) | (_, Some x) => Err x end
  | Reapply o cpts => apply o (assign (fst bj) cpts)
  end.
Definition turns (o : Ord) (ops : list bop) (ds : list deed) : res (bbn * jtree) :=
  bj <- apply o (build ops) ;; foldM do_turn ds bj.

(** a network object without what apply stores in the nodes; edges are given by the ids of their ends *)
Definition clear (n : bnode) : bnode := new_node (n_id n) (n_name n) (n_values n) (n_probs n).
Definition clear_edge (e : edge bnode) : Z * Z * etype := (n_id (e_i e), n_id (e_j e), e_t e).
Definition cleared (b : bbn) :=
  (map (fun p => (fst p, clear (snd p))) (g_nodes (b_g b)), map (fun p => (fst p, clear_edge (snd p))) (g_edges (b_g b)), g_emap (b_g b), g_nbrs (b_g b), b_parents b).
(** every clique stored in a node is a clique of the tree and holds the node's family *)
Definition fits (ops : list bop) (b : bbn) (j : jtree) : Prop :=
  forall i n k, In (i, n) (g_nodes (b_g b)) -> n_mclq n = Some k ->
  exists c, In c (jt_cliques j) /\ cl_id c = k /\ incl (net_par ops i ++ [i]) (cl_nodes c).

(** what a caller may do to a network object between two calls of apply *)
Inductive change := Add (op : bop) | Assign (cpts : list (Z * list Qc)).
Definition do_change (b : bbn) (c : change) : bbn := match c with Add op => bstep b op | Assign cpts => assign b cpts end.
Definition changed (b : bbn) (cs : list change) : bbn := fold_left do_change cs b.
