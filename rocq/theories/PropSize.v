(** Properties of the size of a join tree. Nothing but theorems and examples. *)
From Verif Require Import Py M_Graph M_Node M_Pptc Spec SpecNet SpecEv SpecSize L_Base L_Check Ex L_Net L_R1 L_LostEx L_Size2.
Local Open Scope string_scope.

(** C91: after any evidence calls on any network the join tree has at least one clique and no more cliques than the network has variables; the
    cliques, less the separation sets, are as many as the parts of the network; every clique has a table with one entry for each combination
    of values of its variables, no more than the joint table would have; and so has every separation set, no more than its two cliques. *)
Theorem C91_size : forall ops o h, well_shaped ops -> ord_ok o -> valid_history (net_of ops) h -> let N := net_of ops in
  exists j, session o ops h = Ok j /\ (1 <= List.length (jt_cliques j) <= List.length (vars N))%nat /\
    (forall R, one_each N R -> (List.length (jt_sepsets j) + List.length R = List.length (jt_cliques j))%nat) /\
    (forall c, In c (jt_cliques j) -> exists p, dget (jt_pots j) (cl_id c) = Some p /\ List.length p = size (dom N) (cl_nodes c) /\ (size (dom N) (cl_nodes c) <= size (dom N) (vars N))%nat) /\
    (forall s, In s (jt_sepsets j) -> exists p, dget (jt_pots j) (ss_id s) = Some p /\ List.length p = size (dom N) (ss_nodes s) /\
       (size (dom N) (ss_nodes s) <= size (dom N) (cl_nodes (ss_left s)))%nat /\ (size (dom N) (ss_nodes s) <= size (dom N) (cl_nodes (ss_right s)))%nat).
Proof. exact c91. Qed.
Print Assumptions C91_size.

(** Every network has a list with one variable of each part. *)
Theorem C91_parts : forall ops, well_shaped ops -> exists R, one_each (net_of ops) R.
Proof. intros ops HW. exact (one_each_some _ (net_shape ops HW)). Qed.
Print Assumptions C91_parts.

(** a connected network with four variables: two cliques and one separation set *)
Example C91_case : well_shaped diamond /\ valid_history (net_of diamond) hard_history /\
  (match session ord_rev diamond hard_history with
   | Ok j => List.length (jt_cliques j) = 2%nat /\ List.length (jt_sepsets j) = 1%nat /\ map (fun p => List.length (snd p)) (jt_pots j) = [12; 12; 6]%nat
   | Err _ => False end) /\ size (dom (net_of diamond)) (vars (net_of diamond)) = 24%nat.
Proof. split; [exact diamond_ok|]. split; [exact hard_history_ok|]. vm_compute. auto. Qed.
(** a network in three parts with seven variables: four cliques and one separation set *)
Example C91_pieces : well_shaped pieces /\
  (match session ord_id pieces [] with Ok j => (List.length (jt_cliques j), List.length (jt_sepsets j), List.length (vars (net_of pieces))) | Err _ => (0, 0, 0)%nat end) = (4, 1, 7)%nat.
Proof. split; [exact pieces_ok|]. vm_compute. reflexivity. Qed.
