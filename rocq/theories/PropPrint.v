(** Properties of printed networks and of what cliques say about themselves. Nothing but theorems and examples. *)
From Coq Require Import Ascii.
From Verif Require Import Py M_Graph M_Node M_Pptc M_Str Spec SpecNet SpecStr SpecPrint L_Check Ex L_StrEx L_Print L_PrintEx.
Local Open Scope string_scope.
Local Open Scope list_scope.

(** C94. The text of a network has a line for every variable, in the order they were added, with its id, name and values, and
    a line for every arc. *)
Theorem C94_text : forall ops, net_vars ops <> [] -> showable ops -> exists es,
  read_network (graph_str n_id node_str (b_g (build ops))) = Some (map (fun i => (i, net_name ops i, net_dom ops i)) (net_vars ops), es) /\
  arcs_in_order ops es.
Proof. exact c94_text. Qed.
Print Assumptions C94_text.

(** A clique contains its members, *)
Theorem C94_contains : forall c i, contains c i = true <-> In i (cl_nodes c).
Proof. exact c94_contains. Qed.
Print Assumptions C94_contains.

(** is a superset of the cliques whose members it has, *)
Theorem C94_superset : forall c d, is_superset c d = true <-> incl (cl_nodes d) (cl_nodes c).
Proof. exact c94_superset. Qed.
Print Assumptions C94_superset.

(** and the separation set of two cliques has the members of both, each once, and is empty when there are none. *)
Theorem C94_sepset : forall c d, let s := get_sep_set c d in
  (forall i, In i (ss_nodes s) <-> in_both c d i) /\ (NoDup (cl_nodes c) -> NoDup (ss_nodes s)) /\
  (is_empty s = true <-> forall i, ~ in_both c d i) /\ ss_left s = c /\ ss_right s = d.
Proof. exact c94_sepset. Qed.
Print Assumptions C94_sepset.

Example C94_case : net_vars diamond <> [] /\ showable diamond /\
  same_network_text (read_network (graph_str n_id node_str (b_g (build diamond)))) (map (fun i => (i, net_name diamond i, net_dom diamond i)) (net_vars diamond)) = true /\
  contains (mk_clique [3; 1; 2]%Z) 2 = true /\ contains (mk_clique [3; 1; 2]%Z) 4 = false /\
  is_superset (mk_clique [3; 1; 2]%Z) (mk_clique [2; 3]%Z) = true /\ is_superset (mk_clique [2; 3]%Z) (mk_clique [3; 1; 2]%Z) = false /\
  ss_nodes (get_sep_set (mk_clique [3; 1; 2]%Z) (mk_clique [4; 2; 3]%Z)) = [3; 2]%Z /\
  is_empty (get_sep_set (mk_clique [3; 1; 2]%Z) (mk_clique [4; 2; 3]%Z)) = false /\ is_empty (get_sep_set (mk_clique [3; 1]%Z) (mk_clique [4; 2]%Z)) = true.
Proof. split; [vm_compute; discriminate|]. split; [apply showableb_ok; vm_compute; reflexivity|]. vm_compute. repeat split; reflexivity. Qed.
