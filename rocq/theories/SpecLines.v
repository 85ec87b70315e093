(** CSV files with their lines in any order. *)
From Coq Require Import Ascii.
From Verif Require Import Py M_Graph M_Node M_Csv Spec SpecNet.

(** what a line is about *)
Inductive csv_item := ANode (n : bnode) | AnEdge (e : edge bnode).
Definition item_line (show : Qc -> string) (x : csv_item) : string := match x with ANode n => node_line show n | AnEdge e => edge_line e end.
(** the text of a file with these lines *)
Definition items_text (show : Qc -> string) (l : list csv_item) : string :=
  String.concat EmptyString (map (fun x => (item_line show x ++ String nl EmptyString)%string) l).
(** the lines to_csv writes *)
Definition file_items (b : bbn) : list csv_item := map ANode (get_nodes (b_g b)) ++ map AnEdge (get_edges (b_g b)).
(** where the edges into [j] come from, in the order of the lines *)
Definition arrows (j : Z) (l : list csv_item) : list Z :=
  flat_map (fun x => match x with AnEdge e => if Z.eqb (n_id (e_j e)) j then [n_id (e_i e)] else [] | ANode _ => [] end) l.
(** the network but for the order of its variables, with these parents *)
Record same_with_parents (ops : list bop) (par' : Z -> list Z) (ops' : list bop) : Prop := {
  swp_vars : Permutation (net_vars ops') (net_vars ops);
  swp_par : forall i, net_par ops' i = par' i;
  swp_dom : forall i, net_dom ops' i = net_dom ops i;
  swp_cpt : forall i, net_cpt ops' i = net_cpt ops i;
  swp_name : forall i, net_name ops' i = net_name ops i;
  swp_new : forall n, In n (mentioned ops') -> exists i name values probs, n = new_node i name values probs }.
