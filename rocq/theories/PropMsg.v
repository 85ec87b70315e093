(** Properties of the order of the messages. Nothing but theorems and examples. *)
From Verif Require Import Py M_Graph M_Node M_Pptc Spec SpecNet SpecEv SpecMsg L_Base L_Check Ex L_R1 L_Msg L_MsgEx.
Open Scope nat_scope.

(** C66. Whatever the network, the evidence so far, the order in which sets are iterated and the potentials [ps] at the
    start, a propagation is the messages [up], then the messages [down], and nothing else; [r] is the clique with the least id. *)
Theorem C66_messages : forall ops o h o', well_shaped ops -> ord_ok o -> valid_history (net_of ops) h -> ord_ok o' ->
  exists j r up down, session o ops h = Ok j /\ In r (jt_cliques j) /\ (forall c, In c (jt_cliques j) -> str_leb (cl_id r) (cl_id c) = true) /\
    inward j r up /\ outward r up down /\
    (connected ops -> forall s, In s (jt_sepsets j) -> In s (map across up)) /\
    forall ps, propagate o' (set_jpots j ps) = (ps' <- foldM (send (jt_heap j)) (up ++ down) ps ;; Ok (set_jpots j ps')).
Proof. exact c66. Qed.
Print Assumptions C66_messages.

(** the hypotheses hold of a network whose tree has four cliques, three separation sets and a branch; the six messages do
    what propagate does, and what they do is not nothing *)
Example C66_case : well_shaped branching /\ connected branching /\ valid_history (net_of branching) [] /\
  (match session ord_id branching [] with Ok j => map ss_id (jt_sepsets j) | Err _ => [] end = ["1-2-2-2-3"; "1-2-2-2-4"; "2-4-4-4-5"]%string) /\
  (match three ord_id branching branching_msgs with Some (a, b, c) => same_vals b c && negb (same_vals a b) | None => false end = true).
Proof.
  split; [exact branching_ok|]. split; [exact branching_connected|]. split; [split; constructor|].
  split; vm_compute; reflexivity.
Qed.
(** in another order they do not *)
Example C66_case_early : match three ord_id branching branching_early with Some (a, b, c) => negb (same_vals b c) | None => false end = true.
Proof. vm_compute. reflexivity. Qed.
