(** Properties of serialisation to dictionaries and JSON. Nothing but theorems and examples. *)
From Verif Require Import Py M_Graph M_Node M_Pptc M_Serde Spec SpecNet SpecEv SpecRe SpecSer SpecPart SpecLost L_Base L_Check Ex L_R1 L_R7 L_R8 L_P8 L_Part6 L_Lost4 L_LostEx.
Open Scope nat_scope.

(** C19. The full claim (any network; restoring a saved tree and calling apply_from_serde gives posteriors of the network
    without evidence) fails: a variable in a clique without neighbours is lost if the tree has any edge. *)
Theorem C19_roundtrip_refuted : exists ops, well_shaped ops /\
  exists b j t j' t' name, apply ord_id (build ops) = Ok (b, j) /\ get_posteriors j = Ok t /\
    reload ord_id ord_id true b j = Ok j' /\ get_posteriors j' = Ok t' /\ In name (map fst t) /\ ~ In name (map fst t').
Proof. exact c19_refuted. Qed.
Print Assumptions C19_roundtrip_refuted.

(** Missing from the full claim: networks that are not connected (for them see [C19_described] below). For connected networks: any sequence of evidence calls,
    reapply calls, and saving and restoring (through JSON or not, on machines with different set orders). Restoring keeps
    the CPTs in force and forgets evidence, and later calls work as on the first tree. *)
Theorem C19_roundtrip_partial : forall ops o l,
  well_shaped ops -> connected ops -> ord_ok o -> acts_ok (start ops) l ->
  let s := fold_left after_act l (start ops) in
  exists j t, journey o ops l = Ok j /\ get_posteriors j = Ok t /\
    exact_table (fst s) (net_name ops) (snd (snd s)) t.
Proof. exact c19. Qed.
Print Assumptions C19_roundtrip_partial.

(** saved with evidence, restored, evidence, new CPTs, saved, restored, evidence *)
Example C19_case : well_shaped diamond /\ connected diamond /\ acts_ok (start diamond) mixed_acts /\
  (match journey ord_rev diamond mixed_acts with
   | Ok j => let s := acts_state diamond mixed_acts in table_isb (fst s) (net_name diamond) (snd (snd s)) j &&
             negb (table_isb (fst s) (net_name diamond) no_evidence j)
   | Err _ => false end) = true.
Proof. split; [exact diamond_ok|]. split; [exact diamond_connected|]. split; [exact mixed_ok|]. vm_compute. reflexivity. Qed.

(** What is reported for any network: a reload drops the parts of the network in which every two variables are parent and
    child or have a child together, unless all parts are like that. What is left is treated like a network of its own: its
    CPTs are kept, the evidence is forgotten, and the posteriors of its variables are the ones of [described] (C04). *)
Theorem C19_described : forall ops o l s, well_shaped ops -> ord_ok o -> went (start ops) l s ->
  exists j t, journey o ops l = Ok j /\ get_posteriors j = Ok t /\
    described (fst s) (net_name ops) (snd (snd s)) (jt_cliques j) t.
Proof. exact c19_any. Qed.
Print Assumptions C19_described.

(** The steps of [went] can be taken at any point: what is left of a network after a reload always exists. *)
Theorem C19_goes_on : forall ops l s, well_shaped ops -> went (start ops) l s -> exists N', left_of (fst s) N'.
Proof. exact c19_goes_on. Qed.
Print Assumptions C19_goes_on.

(** two parents with their child, a chain of three, and a variable alone: the chain is left; without its last variable
    nothing is lost *)
Example C19_described_case : well_shaped pieces /\ went (start pieces) pieces_acts pieces_end /\
  vars (net_of pieces) = [1; 3; 2; 4; 5; 7; 6]%Z /\ vars (fst pieces_end) = [4; 5; 6]%Z /\
  (match journey ord_rev pieces pieces_acts with
   | Ok j => table_isb pieces_left (net_name pieces) (snd (snd pieces_end)) j &&
             negb (table_isb pieces_left (net_name pieces) no_evidence j)
   | Err _ => false end) = true.
Proof.
  split; [exact pieces_ok|]. split; [exact pieces_went|]. repeat split; vm_compute; reflexivity.
Qed.
Example C19_all_left_case : well_shaped sands /\ left_of (net_of sands) (all_of (net_of sands)) /\
  (match journey ord_rev sands [Reload ord_rev ord_id true] with
   | Ok j => match get_posteriors j with Ok t => eqlb (map fst t) ["v7"; "v4"; "v5"; "v1"; "v3"; "v2"]%string | Err _ => false end
   | Err _ => false end) = true.
Proof. split; [exact sands_ok|]. split; [exact sands_left_of|]. vm_compute. reflexivity. Qed.

(** C20. A network saved and restored, through JSON or not, has the same variables in the same order, the same values, CPTs
    and names, and the same parents in the same order, and consists of new node objects. *)
Theorem C20_roundtrip : forall ops json, exists ops',
  reload_bbn json (build ops) = Ok (build ops') /\ same_network ops ops'.
Proof. exact c20. Qed.
Print Assumptions C20_roundtrip.

(** The same after inference has attached potentials and metadata to the network's nodes. *)
Theorem C20_applied : forall ops o b j json, well_shaped ops -> ord_ok o -> apply o (build ops) = Ok (b, j) -> exists ops',
  reload_bbn json b = Ok (build ops') /\ same_network ops ops'.
Proof. exact c20_applied. Qed.
Print Assumptions C20_applied.

(** Inference on the restored network is exact for the original one. *)
Theorem C20_posteriors : forall ops json, well_shaped ops -> connected ops ->
  exists b', reload_bbn json (build ops) = Ok b' /\
    forall o h, ord_ok o -> valid_history (net_of ops) h ->
      exists b2 j j' t, apply o b' = Ok (b2, j) /\ do_calls j h = (j', None) /\ get_posteriors j' = Ok t /\
        exact_table (net_of ops) (net_name ops) (shown (net_of ops) (calls h)) t.
Proof. exact c20_posteriors. Qed.
Print Assumptions C20_posteriors.

(** On any network, also one in several parts, the restored one gives the numbers the original gives. *)
Theorem C20_same_numbers : forall ops json, well_shaped ops -> exists b', reload_bbn json (build ops) = Ok b' /\
  forall o o' h, ord_ok o -> ord_ok o' -> valid_history (net_of ops) h ->
    exists j b2 j2 j2' t t', session o ops h = Ok j /\ get_posteriors j = Ok t /\
      apply o' b' = Ok (b2, j2) /\ do_calls j2 h = (j2', None) /\ get_posteriors j2' = Ok t' /\
      Permutation (map fst t) (map fst t') /\ forall k, dget t k = dget t' k.
Proof. exact c20_any. Qed.
Print Assumptions C20_same_numbers.

(** keys of the saved dictionaries, before and after JSON *)
Example C20_case :
  map fst (bd_nodes (bbn_to_dict (build diamond))) = [KInt 10; KInt 2; KInt 1; KInt 30] /\
  map fst (bd_nodes (json_bbn (bbn_to_dict (build diamond)))) = [KStr "10"; KStr "2"; KStr "1"; KStr "30"] /\
  bd_edges (bbn_to_dict (build diamond)) = [(10, 2); (10, 1); (2, 30); (1, 30)]%Z /\
  match reload_bbn true (build diamond) with Ok b => b_parents b | Err _ => [] end = b_parents (build diamond).
Proof. repeat split; vm_compute; reflexivity. Qed.
