(** Network files with the members of objects in another order. Nothing but theorems and examples. *)
From Verif Require Import Py M_Graph M_Node M_Pptc M_Serde M_Json M_Json2 Spec SpecNet SpecEv SpecRe SpecSer SpecJson SpecShuf L_Base L_Check Ex L_R1 L_R7 L_JsonEx L_Json2 L_Shuf2 L_Shuf4.
Open Scope nat_scope.
Open Scope string_scope.

(** C113, of networks. A file whose JSON value is that of the saved network, with the members of every object in any order, gives
    a network with the same variables, perhaps in another order, the same values, CPTs and names, and the same parents in the
    same order, made of new node objects. *)
Theorem C113_network : forall read ops s v, loads read s = Ok v -> reordered (bbn_json (bbn_to_dict (build ops))) v ->
  exists ops', from_json read s = Ok (build ops') /\ same_but_order ops ops'.
Proof. exact c113_network. Qed.
Print Assumptions C113_network.

(** Inference on it is exact for the network that was saved. *)
Theorem C113_network_posteriors : forall read ops s v, well_shaped ops -> connected ops -> loads read s = Ok v -> reordered (bbn_json (bbn_to_dict (build ops))) v ->
  exists b', from_json read s = Ok b' /\ forall o h, ord_ok o -> valid_history (net_of ops) h ->
    exists b2 j j' t, apply o b' = Ok (b2, j) /\ do_calls j h = (j', None) /\ get_posteriors j' = Ok t /\
      exact_table (net_of ops) (net_name ops) (shown (net_of ops) (calls h)) t.
Proof. exact c113_network_posteriors. Qed.
Print Assumptions C113_network_posteriors.

(** The diamond network written with sorted keys. *)
Example C113_network_case : well_shaped diamond /\ connected diamond /\
  (let v := sort_keys str_leb (bbn_json (bbn_to_dict (build diamond))) in
   loads read_dot (dumps show_dot (Some 2) v) = Ok v /\ reordered (bbn_json (bbn_to_dict (build diamond))) v).
Proof.
  split; [exact diamond_ok|]. split; [exact diamond_connected|]. split; [|apply sort_ro].
  apply (c112_text show_dot read_dot dot_format). apply sort_uniq, bbn_uniq.
Qed.
(** Its variables are then in another order, and the answers are the same. *)
Example C113_network_case_order :
  match from_json read_dot (dumps show_dot (Some 2) (sort_keys str_leb (bbn_json (bbn_to_dict (build diamond))))) with
  | Ok b => (dkeys (g_nodes (b_g (build diamond))), dkeys (g_nodes (b_g b)),
             match apply ord_rev b with Ok (_, j) => table_isb (net_of diamond) (net_name diamond) no_evidence j | Err _ => false end)
  | Err _ => ([], [], false)
  end = ([10; 2; 1; 30]%Z, [1; 10; 2; 30]%Z, true).
Proof. vm_compute. reflexivity. Qed.
