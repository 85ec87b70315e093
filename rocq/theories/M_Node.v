(** Model of pybbn/graph/{variable,node,potential}.py and of the Bbn class of dag.py. *)
From Verif Require Import Py M_Graph.

(** ** Potentials (potential.py) *)

(** potential.py:54-75 PotentialEntry: assignment and value *)
Record pentry := mkPE { pe_map : list (Z * string); pe_val : Qc }.
(** potential.py:4-23 Potential: list of entries *)
Definition potential := list pentry.

(** potential.py:77-88 PotentialEntry.matches: [self.matches(that)] *)
Definition pe_matches (self that : pentry) : bool :=
  forallb (fun kv => match dget (pe_map self) (fst kv) with
                     | Some v => eqb (snd kv) v
                     | None => false
                     end) (pe_map that).

(** potential.py:25-32 get_matching_entries *)
Definition get_matching_entries (p : potential) (e : pentry) : list pentry :=
  filter (fun x => pe_matches x e) p.

(** potential.py:90-100 duplicate *)
Definition pe_duplicate (e : pentry) : pentry :=
  mkPE (fold_left (fun d kv => dset d (fst kv) (snd kv)) (pe_map e) []) (pe_val e).

(** ** Variables and BBN nodes *)

(** variable.py:4-20 Variable, node.py:5-62 Node and BbnNode. [n_pot] is BbnNode.potential; [n_mpar] and [n_mclq] are
    metadata["parents"] (as ids) and metadata["parent.clique"] (as the clique's id, the only thing ever read from it). *)
Record bnode := mkBnode {
  n_id : Z; n_name : string; n_values : list string; n_probs : list Qc;
  n_pot : option potential; n_mpar : option (list Z); n_mclq : option string }.

(** node.py:51-62 BbnNode.__init__ *)
Definition new_node (id : Z) (name : string) (values : list string) (probs : list Qc) : bnode :=
  mkBnode id name values probs None None None.

(** node.py:64-70 get_weight: the number of values *)
Definition n_weight (n : bnode) : Z := Z.of_nat (List.length (n_values n)).

Definition set_pot (n : bnode) (p : option potential) : bnode :=
  mkBnode (n_id n) (n_name n) (n_values n) (n_probs n) p (n_mpar n) (n_mclq n).
Definition set_mpar (n : bnode) (p : list Z) : bnode :=
  mkBnode (n_id n) (n_name n) (n_values n) (n_probs n) (n_pot n) (Some p) (n_mclq n).
Definition set_mclq (n : bnode) (c : string) : bnode :=
  mkBnode (n_id n) (n_name n) (n_values n) (n_probs n) (n_pot n) (n_mpar n) (Some c).
Definition set_probs (n : bnode) (ps : list Qc) : bnode :=
  mkBnode (n_id n) (n_name n) (n_values n) ps (n_pot n) (n_mpar n) (n_mclq n).

(** The heap of node objects, one per id. *)
Definition heap := list (Z * bnode).
(** [heap[i].field = ...] *)
Definition hupd (h : heap) (i : Z) (f : bnode -> bnode) : heap :=
  map (fun p => if Z.eqb i (fst p) then (fst p, f (snd p)) else p) h.

(** ** PotentialUtil (potential.py:139-310) *)

(** potential.py:281-298 get_cartesian_product = itertools.product: last list varies fastest *)
Fixpoint cartesian (ls : list (list string)) : list (list string) :=
  match ls with
  | [] => [[]]
  | l :: t => flat_map (fun x => map (cons x) (cartesian t)) l
  end.

(** potential.py:263-279 get_potential_from_nodes; a node is given by (id, values) *)
Definition potential_from_nodes (ns : list (Z * list string)) : potential :=
  map (fun vs => mkPE (fold_left (fun d kv => dset d (fst kv) (snd kv)) (combine (map fst ns) vs) []) 1%Qc)
      (cartesian (map snd ns)).

(** (id, values) of a node object *)
Definition nv (n : bnode) : Z * list string := (n_id n, n_values n).

(** potential.py:256-260: overwrite the i-th value by node.probs[i], IndexError when too short *)
Fixpoint fill_probs (p : potential) (probs : list Qc) : res potential :=
  match p with
  | [] => Ok []
  | e :: t => match probs with
              | [] => Err IndexError
              | q :: qs => t' <- fill_probs t qs ;; Ok (mkPE (pe_map e) q :: t')
              end
  end.

(** potential.py:246-261 get_potential, with merge (300-310): parents first, node last *)
Definition get_potential (n : bnode) (parents : list bnode) : res potential :=
  fill_probs (potential_from_nodes (map nv (parents ++ [n]))) (n_probs n).

(** potential.py:233-243 multiply(bigger, smaller), mutating [bigger] *)
Definition multiply (bigger smaller : potential) : potential :=
  fold_left (fun b e => map (fun x => if pe_matches x e then mkPE (pe_map x) (pe_val x * pe_val e)%Qc else x) b)
            smaller bigger.

(** potential.py:223-230 is_zero *)
Definition is_zero (d : Qc) : bool := qeqb 0%Qc d.

(** potential.py:201-220 divide *)
Fixpoint divide (num den : potential) : res potential :=
  match num with
  | [] => Ok []
  | e :: t =>
      match den with
      | [] => Err IndexError
      | d :: ds =>
          t' <- divide t ds ;;
          Ok (mkPE (pe_map (pe_duplicate e))
                   (if is_zero (pe_val e) || is_zero (pe_val d) then 0%Qc else (pe_val e / pe_val d)%Qc) :: t')
      end
  end.

(** potential.py:184-198 normalize *)
Definition normalize (p : potential) : potential :=
  let total := qsum (map pe_val p) in
  if qeqb total 0%Qc then p else map (fun e => mkPE (pe_map e) (pe_val e / total)%Qc) p.

(** potential.py:163-181 marginalize_for, with the clique's potential passed in *)
Definition marginalize (clique_potential : potential) (ns : list (Z * list string)) : potential :=
  map (fun e => mkPE (pe_map e) (qsum (map pe_val (get_matching_entries clique_potential e))))
      (potential_from_nodes ns).

(** ** Bbn (dag.py:118-155) *)

(** dag.py:123-128 *)
Record bbn := mkBbn { b_g : graph bnode; b_parents : list (Z * list Z) }.
Definition bbn_empty : bbn := mkBbn g_empty [].

(** graph.py:55-64 *)
Definition bbn_add_node (b : bbn) (n : bnode) : bbn := mkBbn (add_node n_id (b_g b) n) (b_parents b).

(** dag.py:139-144 __edge_added__ *)
Definition edge_added (ps : list (Z * list Z)) (i j : Z) : list (Z * list Z) :=
  let ps := if dmem ps j then ps else dset ps j [] in
  if mem i (dgets ps j) then ps else dset ps j (dgets ps j ++ [i]).

(** graph.py:66-87 with Bbn.__shouldadd__ (dag.py:146-155): both ends are BbnNodes, so the answer is always True.
    (For other node types the code calls Dag.__shouldadd__ with a missing argument and raises TypeError.) *)
Definition bbn_add_edge (b : bbn) (e : edge bnode) : bbn :=
  mkBbn (put_edge n_id (add_ends n_id (b_g b) e) e) (edge_added (b_parents b) (n_id (e_i e)) (n_id (e_j e))).

(** dag.py:130-137 get_parents_ordered *)
Definition get_parents_ordered (b : bbn) (i : Z) : list Z :=
  match dget (b_parents b) i with Some l => isort Z.leb l | None => [] end.

(** dag.py:23-39 get_n2i, get_i2n *)
Definition get_n2i (b : bbn) : list (string * Z) :=
  fold_left (fun d p => dset d (n_name (snd p)) (fst p)) (g_nodes (b_g b)) [].
Definition get_i2n (b : bbn) : list (Z * string) :=
  fold_left (fun d p => dset d (fst p) (n_name (snd p))) (g_nodes (b_g b)) [].

(** One call a user makes to build a network. *)
Inductive bop := AddNode (n : bnode) | AddEdge (i j : bnode).
Definition bstep (b : bbn) (op : bop) : bbn :=
  match op with
  | AddNode n => bbn_add_node b n
  | AddEdge i j => bbn_add_edge b (mkEdge i j DIRECTED)
  end.
Definition build (ops : list bop) : bbn := fold_left bstep ops bbn_empty.

(** ** Cliques and separation sets (node.py:89-282) *)

(** node.py:94-106 Clique: nodes by id, in order *)
Record clique := mkClique { cl_id : string; cl_nodes : list Z }.
(** node.py:101-103: sorted ids joined with "-" *)
Definition ids_str (l : list Z) : string := join "-" (map str_of_Z l).
Definition mk_clique (ids : list Z) : clique := mkClique (ids_str (isort Z.leb ids)) ids.

(** node.py:108-124 intersects *)
Definition intersects (a b : clique) : bool * list Z * list Z * list Z :=
  let inter := filter (fun x => mem x (cl_nodes b)) (cl_nodes a) in
  match inter with
  | [] => (false, cl_nodes a, cl_nodes b, inter)
  | _ => (true, isort Z.leb (cl_nodes a), isort Z.leb (cl_nodes b), isort Z.leb inter)
  end.

(** node.py:163-172 is_superset *)
Definition is_superset (a b : clique) : bool := subset (cl_nodes b) (cl_nodes a).

(** node.py:174-180 get_weight: product of node weights ([wt] looks the weight up in the heap) *)
Definition cl_weight (wt : Z -> Z) (c : clique) : Z := fold_right Z.mul 1%Z (map wt (cl_nodes c)).

(** node.py:212-234 SepSet *)
Record sepset := mkSepset { ss_id : string; ss_nodes : list Z; ss_left : clique; ss_right : clique }.
Definition mk_sepset (l r : clique) : sepset :=
  match intersects l r with
  | (_, lhs, rhs, inter) =>
      mkSepset (ids_str (lhs ++ inter ++ rhs)) (filter (fun x => mem x inter) (cl_nodes l)) l r
  end.

(** node.py:245-277 cost, mass, get_cost, get_mass *)
Definition ss_cost (wt : Z -> Z) (s : sepset) : Z := (cl_weight wt (ss_left s) + cl_weight wt (ss_right s))%Z.
Definition ss_mass (s : sepset) : nat := List.length (ss_nodes s).
