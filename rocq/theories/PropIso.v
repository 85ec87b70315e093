(** Properties of networks that describe the same distribution. Nothing but theorems and examples. *)
From Verif Require Import Py M_Graph M_Node M_Pptc Spec SpecNet SpecEv SpecIso L_Base L_Check Ex L_R1 L_Iso L_IsoEx.
Open Scope nat_scope.

(** C67. Ids, the order of the calls, the order of values and parents, and even the directions of the edges do not matter:
    two networks with the same names and the same joint distribution, told the same, answer the same. *)
Theorem C67_same_joint : forall ops ops' f o o' h h', well_shaped ops -> well_shaped ops' -> connected ops -> connected ops' -> ord_ok o -> ord_ok o' ->
  valid_history (net_of ops) h -> valid_history (net_of ops') h' ->
  same_joint f (net_of ops) (net_of ops') -> (forall i, In i (net_vars ops) -> net_name ops' (f i) = net_name ops i) ->
  Forall2 (same_call f) (calls h) (calls h') ->
  exists j t j' t', session o ops h = Ok j /\ get_posteriors j = Ok t /\ session o' ops' h' = Ok j' /\ get_posteriors j' = Ok t' /\ same_table t t'.
Proof. exact c67. Qed.
Print Assumptions C67_same_joint.

(** v1 -> v2 -> v3 and v1 <- v2 -> v3, ids and values in another order; v3 observed, v1 observed and withdrawn, virtual evidence on v2 *)
Example C67_case : well_shaped chain3 /\ well_shaped fork3 /\ connected chain3 /\ connected fork3 /\
  valid_history (net_of chain3) chain3_calls /\ valid_history (net_of fork3) fork3_calls /\ same_joint to_fork (net_of chain3) (net_of fork3) /\
  (forall i, In i (net_vars chain3) -> net_name fork3 (to_fork i) = net_name chain3 i) /\ Forall2 (same_call to_fork) (calls chain3_calls) (calls fork3_calls).
Proof.
  split; [exact chain3_ok|]. split; [exact fork3_ok|]. split; [exact chain3_connected|]. split; [exact fork3_connected|]. split; [exact chain3_valid|].
  split; [exact fork3_valid|]. split; [exact chain3_fork3|]. split; [|exact fork3_same].
  intros i Hi. vm_compute in Hi. destruct Hi as [<-|[<-|[<-|[]]]]; vm_compute; reflexivity.
Qed.
Example C67_case_values :
  let shows ops h := match session ord_id ops h with
                     | Ok j => match get_posteriors j with Ok t => map (fun kl => (fst kl, map (fun p => (fst p, this (snd p))) (snd kl))) t | Err _ => [] end
                     | Err _ => [] end in
  shows chain3 chain3_calls = [("v2", [("on", 8 # 49); ("off", 41 # 49)]); ("v1", [("on", 85 # 441); ("off", 356 # 441)]); ("v3", [("on", 0 # 1); ("off", 1 # 1)])]%string%Q /\
  shows fork3 fork3_calls = [("v2", [("on", 8 # 49); ("off", 41 # 49)]); ("v3", [("on", 0 # 1); ("off", 1 # 1)]); ("v1", [("off", 356 # 441); ("on", 85 # 441)])]%string%Q.
Proof. vm_compute. auto. Qed.
