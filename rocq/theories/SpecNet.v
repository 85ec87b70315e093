(** The network a sequence of add_node / add_edge calls denotes, said directly from the calls. *)
From Verif Require Import Py M_Node Spec.

(** node objects mentioned, in order *)
Definition op_nodes (op : bop) : list bnode := match op with AddNode n => [n] | AddEdge i j => [i; j] end.
Definition mentioned (ops : list bop) : list bnode := flat_map op_nodes ops.
(** keep first occurrences *)
Fixpoint firsts (l : list Z) : list Z :=
  match l with [] => [] | x :: t => x :: filter (fun y => negb (Z.eqb x y)) (firsts t) end.
(** the first object mentioned under an id is the one that counts *)
Definition node_of (ops : list bop) (i : Z) : option bnode := find (fun n => Z.eqb (n_id n) i) (mentioned ops).

Definition net_vars (ops : list bop) : list Z := firsts (map n_id (mentioned ops)).
Definition net_dom (ops : list bop) (i : Z) : list string := match node_of ops i with Some n => n_values n | None => [] end.
Definition net_cpt (ops : list bop) (i : Z) : list Qc := match node_of ops i with Some n => n_probs n | None => [] end.
Definition net_name (ops : list bop) (i : Z) : string := match node_of ops i with Some n => n_name n | None => EmptyString end.
(** sources of the edges into [j], in the order of the calls *)
Definition into (j : Z) (op : bop) : list Z :=
  match op with AddEdge a b => if Z.eqb (n_id b) j then [n_id a] else [] | AddNode _ => [] end.
Definition net_par (ops : list bop) (j : Z) : list Z := firsts (flat_map (into j) ops).

Definition net_of (ops : list bop) : net := mkNet (net_vars ops) (net_dom ops) (net_par ops) (net_cpt ops).

(** Well-shaped networks over freshly made node objects. CPTs may be longer than needed, entries may be any
    non-negative numbers, and directed cycles are not excluded (only self-loops are). *)
Record well_shaped (ops : list bop) : Prop := {
  ws_fresh : forall n, In n (mentioned ops) -> n_mclq n = None;
  ws_some : net_vars ops <> [];
  ws_dom : forall i, In i (net_vars ops) -> NoDup (net_dom ops i) /\ net_dom ops i <> [];
  ws_cpt : forall i, In i (net_vars ops) -> size (net_dom ops) (net_par ops i ++ [i]) <= List.length (net_cpt ops i);
  ws_pos : forall i q, In i (net_vars ops) -> In q (net_cpt ops i) -> (0 <= q)%Qc;
  ws_loop : forall i, ~ In i (net_par ops i);
  ws_names : NoDup (map (net_name ops) (net_vars ops)) }.

(** Any two variables are joined by edges, directions ignored. *)
Definition connected (ops : list bop) : Prop :=
  forall u v, In u (net_vars ops) -> In v (net_vars ops) -> path (sym (is_parent (net_of ops))) u v.

(** [t] lists every variable once by name, each with its values and their exact posterior probabilities *)
Definition exact_table (N : net) (nm : Z -> string) (L : likelihood) (t : list (string * list (string * Qc))) : Prop :=
  Permutation (map fst t) (map nm (vars N)) /\
  forall i, In i (vars N) -> dget t (nm i) = Some (map (fun y => (y, exact_posterior N L i y)) (dom N i)).

(** the value a potential gives to the assignment [a] *)
Definition entry_at (p : potential) (a : asg) : option Qc :=
  option_map pe_val (find (fun e => forallb (fun kv => String.eqb (snd kv) (a (fst kv))) (pe_map e)) p).
(** [p] is a table with one entry per combination of values of [vs], which holds the value of [f] *)
Definition tabulates (dm : Z -> list string) (vs : list Z) (f : asg -> Qc) (p : potential) : Prop :=
  List.length p = size dm vs /\ forall a, okon dm vs a -> entry_at p a = Some (f a).

(** moral graph: two different members of a family (a variable with its parents) *)
Definition moral_edge (N : net) (x y : Z) : Prop :=
  x <> y /\ exists i, In i (vars N) /\ In x (par N i ++ [i]) /\ In y (par N i ++ [i]).

(** the two cliques a separation set joins, by id *)
Definition joins (s : sepset) : string * string := (cl_id (ss_left s), cl_id (ss_right s)).
(** same members, in some order *)
Definition same_members (a b : list Z) : Prop := forall x, In x a <-> In x b.
