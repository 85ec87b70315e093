(** Properties of the depth of recursion. Nothing but theorems and examples. *)
From Verif Require Import Py M_Graph M_Node M_Pptc M_Depth Spec SpecNet SpecEv SpecRe L_Base L_Check Ex L_R1 SpecGraph SpecDepth L_Depth L_Depth2 L_Chain L_Chain2 L_Depth3 L_Depth4 L_R14.
Open Scope nat_scope.

(** C93 as stated is false: for any limit on the depth of recursion there are chains on which building the join tree or propagating exceeds
    it, though nothing else is wrong with them; Dag.add_edge and Pdag.add_edge exceed it on chains half as long if the last edge
    is added first. *)
Theorem C93_inference_refuted : forall d n, 2 * d + 3 <= n -> well_shaped (chain n) /\
  forall o, ord_ok o -> (exists j, session o (chain n) [] = Ok j) /\ forall h, session_d d o (chain n) h = Err OutOfFuel.
Proof. exact c93_inference. Qed.
Print Assumptions C93_inference_refuted.
Theorem C93_dag_refuted : forall d n o, d < n -> ord_ok o ->
  dag_run_d d (fun x => x) (backwards o n) = Err OutOfFuel /\ exists g, dag_run (fun x => x) (backwards o n) = Ok g.
Proof. exact back_deep. Qed.
Print Assumptions C93_dag_refuted.
Theorem C93_pdag_refuted : forall d n o, d < n -> ord_ok o ->
  pdag_run_d d (fun x => x) (backwards o n) = Err OutOfFuel /\ exists g, pdag_run (fun x => x) (backwards o n) = Ok g.
Proof. exact back_pdag. Qed.
Print Assumptions C93_pdag_refuted.

(** What remains true: a depth of twice the number of variables and two is enough for any network and any evidence calls. *)
Theorem C93_inference_partial : forall ops o h d, well_shaped ops -> ord_ok o -> valid_history (net_of ops) h ->
  2 * List.length (vars (net_of ops)) + 2 <= d -> session_d d o ops h = session o ops h.
Proof. exact c93_enough. Qed.
Print Assumptions C93_inference_partial.
(** The same with new tables put in between. *)
Theorem C93_reapply_partial : forall ops o ds d, well_shaped ops -> ord_ok o -> deeds_ok (start ops) ds ->
  2 * List.length (vars (net_of ops)) + 2 <= d -> adventure_d d o ops ds = adventure o ops ds.
Proof. exact adventure_more. Qed.
Print Assumptions C93_reapply_partial.
(** And twice the number of ids of nodes joined and two for any calls on a Dag or a Pdag. *)
Theorem C93_dag_partial : forall (N : Type) (nid : N -> Z) (ops : list (Ord * gop N)) V d, orders_ok ops ->
  (forall o e, In (o, AddE e) ops -> In (nid (e_i e)) V /\ In (nid (e_j e)) V) -> 2 * List.length V + 2 <= d ->
  dag_run_d d nid ops = dag_run nid ops /\ pdag_run_d d nid ops = pdag_run nid ops.
Proof. exact @c93_graphs. Qed.
Print Assumptions C93_dag_partial.

(** a network of four variables with two cliques needs a depth of one *)
Example C93_case : well_shaped diamond /\ valid_history (net_of diamond) hard_history /\
  map (fun d => match session_d d ord_rev diamond hard_history with Ok _ => true | Err _ => false end) [0; 1; 10] = [false; true; true].
Proof. split; [exact diamond_ok|]. split; [exact hard_history_ok|]. vm_compute. reflexivity. Qed.
(** a chain of ten variables needs a depth of 15 *)
Example C93_chain : map (fun d => match session_d d ord_id (chain 9) [] with Ok _ => true | Err _ => false end) [3; 14; 15; 22] = [false; false; true; true].
Proof. vm_compute. reflexivity. Qed.
Example C93_turns : map (fun d => match adventure_d d ord_rev diamond diamond_turns with Ok _ => true | Err _ => false end) [0; 1; 10] = [false; true; true].
Proof. vm_compute. reflexivity. Qed.
