(** The edges of a join tree between its cliques and separation sets. *)
From Verif Require Import Py M_Graph M_Node M_Pptc.

(** edge.py:66-79 SepSetEdge: an undirected edge from a clique to a separation set, given by the ids of its ends *)
Definition sepset_edge := (string * string)%type.
(** edge.py:106-112 get_lhs_edge; 114-120 get_rhs_edge. A JtEdge is represented by its separation set. *)
Definition get_lhs_edge (s : sepset) : sepset_edge := (cl_id (ss_left s), ss_id s).
Definition get_rhs_edge (s : sepset) : sepset_edge := (cl_id (ss_right s), ss_id s).
(** jointree.py:252-263 get_flattened_edges *)
Definition get_flattened_edges (j : jtree) : list sepset_edge :=
  fold_left (fun edges s => (edges ++ [get_lhs_edge s]) ++ [get_rhs_edge s]) (dvals (jt_edges j)) [].
