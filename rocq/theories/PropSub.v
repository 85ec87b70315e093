(** Property of leaving out effects that are neither observed nor asked for. Nothing but theorems and examples. *)
From Verif Require Import Py M_Graph M_Node M_Pptc Spec SpecNet SpecEv SpecPot SpecSub L_Base L_Check Ex L_R1 L_R4 L_Sub L_SubEx.
Open Scope nat_scope.

(** C71. Pruning: a network that keeps some variables together with all their causes gives them the posteriors they have in the
    whole network, for all evidence on the variables kept. *)
Theorem C71_prune : forall ops ops' o o' h h', well_shaped ops -> well_shaped ops' -> connected ops -> connected ops' -> ord_ok o -> ord_ok o' ->
  subnetwork (net_of ops) (net_of ops') -> (forall i, In i (net_vars ops) -> net_name ops' i = net_name ops i) ->
  acyclic (is_parent (net_of ops')) -> stochastic (net_of ops') ->
  valid_history (net_of ops) h -> Forall (fun p => ord_ok (fst p)) h' -> calls h' = calls h ->
  exists j t j' t', session o ops h = Ok j /\ get_posteriors j = Ok t /\ session o' ops' h' = Ok j' /\ get_posteriors j' = Ok t' /\
    forall i, In i (net_vars ops) -> exists m, dget t (net_name ops i) = Some m /\ dget t' (net_name ops i) = Some m.
Proof. exact c71. Qed.
Print Assumptions C71_prune.

(** the diamond without [d]: the larger network is triangulated and has other cliques *)
Example C71_case : well_shaped vee /\ well_shaped diamond /\ connected vee /\ connected diamond /\ subnetwork (net_of vee) (net_of diamond) /\
  (forall i, In i (net_vars vee) -> net_name diamond i = net_name vee i) /\ acyclic (is_parent (net_of diamond)) /\ stochastic (net_of diamond) /\
  valid_history (net_of vee) vee_calls /\
  (match session ord_id vee vee_calls, session ord_rev diamond vee_calls with
   | Ok j, Ok j' => map cl_nodes (jt_cliques j) = [[10; 1]; [10; 2]]%Z /\ map cl_nodes (jt_cliques j') = [[1; 2; 10]; [2; 30; 1]]%Z
   | _, _ => False end).
Proof.
  split; [exact vee_ok|]. split; [exact diamond_ok|]. split; [exact vee_connected|]. split; [exact diamond_connected|]. split; [exact vee_sub|].
  split. { intros i Hi. vm_compute in Hi. destruct Hi as [<-|[<-|[<-|[]]]]; vm_compute; reflexivity. }
  split; [apply rankedb_ok with diamond_rank; vm_compute; reflexivity|]. split; [apply stochasticb_ok; vm_compute; reflexivity|].
  split; [exact vee_valid|]. vm_compute. auto.
Qed.
(** without [stochastic] the claim is false: a table of [d] whose rows do not add up to 1 changes the posterior of its causes *)
Example C71_stochastic_needed :
  let d := new_node 2 "d"%string ["t"; "f"]%string [qfrac 1 2; qfrac 1 2; qfrac 1 2; qfrac 1 4] in
  dget (shows [AddNode n_1]) "v1"%string = Some [("on", 1 # 5); ("off", 4 # 5)]%string%Q /\
  dget (shows [AddEdge n_1 d]) "v1"%string = Some [("on", 1 # 4); ("off", 3 # 4)]%string%Q.
Proof. vm_compute. auto. Qed.
