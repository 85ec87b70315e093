(** Model of the maps and the networkx export of pybbn/graph/dag.py (class Dag). [nid] is node.id, [name] is
    node.variable.name. *)
From Verif Require Import Py M_Graph M_Nx.

Section GraphNx.
  Context {N : Type} (nid : N -> Z) (name : N -> string).

  (** dag.py:24-31 get_n2i: of several nodes with one name the last wins *)
  Definition get_n2i (g : graph N) : list (string * Z) := fold_left (fun d kn => dset d (name (snd kn)) (fst kn)) (g_nodes g) [].
  (** dag.py:33-40 get_i2n *)
  Definition get_i2n (g : graph N) : list (Z * string) := fold_left (fun d kn => dset d (fst kn) (name (snd kn))) (g_nodes g) [].

  (** dag.py:96-116 to_nx_graph: the digraph and the labels *)
  Definition to_nx_graph (g : graph N) : digraph * list (Z * string) :=
    let d := fold_left (fun d kn => dg_add_node d (nid (snd kn))) (g_nodes g) dg_empty in
    let labels := map (fun kn => (nid (snd kn), name (snd kn))) (g_nodes g) in
    let d := fold_left (fun d ke => dg_add_edge d (nid (e_i (snd ke))) (nid (e_j (snd ke)))) (g_edges g) d in
    (d, fold_left (fun m kv => dset m (fst kv) (snd kv)) labels []).
End GraphNx.
