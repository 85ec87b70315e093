(** Model of copying a join tree, on the trees of M_Pptc. *)
From Verif Require Import Py M_Graph M_Node M_Pptc.

(** jointree.py:28-45 JoinTree.__deepcopy__: every attribute but the listener. Values of the model are immutable, so a copied
    value is that value (M_Copy has the objects). *)
Definition copy_tree (j : jtree) : jtree :=
  mkJt (jt_nodes j) (jt_edges j) (jt_nbrs j) (jt_pots j) (jt_evid j) false (jt_pinfo j) (jt_heap j).
