(** When two join trees are the same up to the order in which cliques and separation sets list their members. *)
From Verif Require Import Py M_Node M_Pptc.

Definition same_clique (c d : clique) : Prop := cl_id c = cl_id d /\ Permutation (cl_nodes c) (cl_nodes d).
Definition same_sepset (s t : sepset) : Prop :=
  ss_id s = ss_id t /\ Permutation (ss_nodes s) (ss_nodes t) /\ same_clique (ss_left s) (ss_left t) /\ same_clique (ss_right s) (ss_right t).
Definition same_jnode (a b : jnode) : Prop :=
  match a, b with JC c, JC d => same_clique c d | JS s, JS t => same_sepset s t | _, _ => False end.
(** the same nodes and edges under the same keys, in the same order, with the same neighbours *)
Definition same_tree (j k : jtree) : Prop :=
  Forall2 (fun p q => fst p = fst q /\ same_jnode (snd p) (snd q)) (jt_nodes j) (jt_nodes k) /\
  Forall2 (fun p q => fst p = fst q /\ same_sepset (snd p) (snd q)) (jt_edges j) (jt_edges k) /\
  jt_nbrs j = jt_nbrs k.
