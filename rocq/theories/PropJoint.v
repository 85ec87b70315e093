(** Property of the tables of the join tree taken together. *)
From Verif Require Import Py M_Graph M_Node M_Pptc Spec SpecNet SpecEv SpecJoint Ex L_R1 L_R8 L_Joint2.
Open Scope nat_scope.

(** C70. Any network, also one in several parts; any evidence. *)
Theorem C70_joint : forall ops o h, well_shaped ops -> ord_ok o -> valid_history (net_of ops) h ->
  exists j, session o ops h = Ok j /\ represents (net_of ops) (shown (net_of ops) (calls h)) j.
Proof. exact c70_joint. Qed.
Print Assumptions C70_joint.

(** Before propagation. *)
Theorem C70_initialise : forall ops o h, well_shaped ops -> ord_ok o -> valid_history (net_of ops) h ->
  let N := net_of ops in let L := in_force N (calls h) in
  exists j j1 place, session o ops h = Ok j /\ initialize j = Ok j1 /\ jt_nodes j1 = jt_nodes j /\ places N L j1 place /\ represents N L j1.
Proof. exact c70_init. Qed.
Print Assumptions C70_initialise.

(** The distribution of a variable is the same whichever clique it is read from. *)
Theorem C70_any_clique : forall ops o h, well_shaped ops -> connected ops -> ord_ok o -> valid_history (net_of ops) h ->
  exists j, session o ops h = Ok j /\ forall c i, In c (jt_cliques j) -> In i (cl_nodes c) -> exists n p,
    dget (jt_heap j) i = Some n /\ dget (jt_pots j) (cl_id c) = Some p /\ get_bbn_potential j i = Ok (normalize (marginalize p [nv n])).
Proof. exact c70_any_clique. Qed.
Print Assumptions C70_any_clique.

(** two cliques with one separation set, entries other than 0 and 1; and a network in two parts *)
Example C70_case : well_shaped diamond /\ connected diamond /\ valid_history (net_of diamond) hard_history /\
  (match session ord_rev diamond hard_history with
   | Ok j => map cl_nodes (jt_cliques j) = [[1; 2; 10]; [2; 30; 1]]%Z /\ map ss_nodes (jt_sepsets j) = [[1; 2]]%Z /\
       forallb (fun k => match dget (jt_pots j) k with
                         | Some p => existsb (fun e => negb (qeqb (pe_val e) 0%Qc) && negb (qeqb (pe_val e) 1%Qc)) p
                         | None => false end) (map cl_id (jt_cliques j) ++ map ss_id (jt_sepsets j)) = true
   | Err _ => False end) /\
  well_shaped islands /\
  (match session ord_id islands [] with Ok j => map cl_nodes (jt_cliques j) = [[4]; [2; 1]; [3; 2]]%Z /\ List.length (jt_sepsets j) = 1 | Err _ => False end).
Proof.
  split; [exact diamond_ok|]. split; [exact diamond_connected|]. split; [exact hard_history_ok|]. split; [vm_compute; auto|]. split; [exact islands_ok|].
  vm_compute. auto.
Qed.
