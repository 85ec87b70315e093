(** Answers for a variable whose Markov blanket is known. Nothing but theorems and examples. *)
From Verif Require Import Py M_Graph M_Node M_Pptc Spec SpecNet SpecEv SpecBlanket L_Base L_Check Ex L_R1 L_Blanket L_BlanketEx.
Local Open Scope string_scope.
Local Open Scope list_scope.
Local Open Scope Qc_scope.

(** C111. If the values of its parents, of its children and of the other parents of its children are known, then what is reported of a variable
    comes from its own table, the tables of its children and what is known about itself: the product of the entries, divided by their sum.
    No condition on the tables; whatever else is known, so long as it is possible. *)
Theorem C111_blanket : forall ops o h y a, well_shaped ops -> connected ops -> ord_ok o -> valid_history (net_of ops) h ->
  let N := net_of ops in let L := shown N (calls h) in possible N L -> In y (vars N) -> blanket_known N L y a ->
  let s := fun v => local_score N a y v * L y v in
  exists j t, session o ops h = Ok j /\ get_posteriors j = Ok t /\ qsum (map s (dom N y)) <> 0 /\
    dget t (net_name ops y) = Some (map (fun v => (v, s v / qsum (map s (dom N y)))) (dom N y)).
Proof. exact c111_blanket. Qed.
Print Assumptions C111_blanket.

(** So two histories that say the same of the variable and its blanket give the same answer, whatever they say of other variables. *)
Theorem C111_screen : forall ops o o' h h' y a, well_shaped ops -> connected ops -> ord_ok o -> ord_ok o' -> valid_history (net_of ops) h -> valid_history (net_of ops) h' ->
  let N := net_of ops in let L := shown N (calls h) in let L' := shown N (calls h') in possible N L -> possible N L' -> In y (vars N) -> blanket_known N L y a -> blanket_known N L' y a ->
  (forall v, In v (dom N y) -> L' y v = L y v) ->
  exists j t j' t', session o ops h = Ok j /\ get_posteriors j = Ok t /\ session o' ops h' = Ok j' /\ get_posteriors j' = Ok t' /\ dget t' (net_name ops y) = dget t (net_name ops y).
Proof. exact c111_screen. Qed.
Print Assumptions C111_screen.

(** [b] of [diamond] with its parent [a], its child [d] and the other parent [c] of [d] observed *)
Example C111_case : well_shaped diamond /\ connected diamond /\ valid_history (net_of diamond) all_round /\
  (let N := net_of diamond in let L := shown N (calls all_round) in possible N L /\ In 2%Z (vars N) /\ blanket_known N L 2 round_world) /\
  map (fun v => this (local_score (net_of diamond) round_world 2 v)) ["x"; "y"; "z"] = [1 # 15; 1 # 50; 21 # 50]%Q /\
  row diamond all_round "b" = [("x", 5 # 38); ("y", 3 # 76); ("z", 63 # 76)]%Q.
Proof.
  split; [exact diamond_ok|]. split; [exact diamond_connected|]. split; [split; [orders|apply valid_calls_ok; vm_compute; reflexivity]|]. split; [apply blanketb_ok; vm_compute; reflexivity|]. split; vm_compute; reflexivity.
Qed.
(** a chain v1 -> v2 -> v3: when v2 is known, v3 says nothing of v1; when it is not, it does *)
Example C111_case_screen : well_shaped chain3 /\ connected chain3 /\ valid_history (net_of chain3) (middle "on") /\ valid_history (net_of chain3) (middle "off") /\
  (let N := net_of chain3 in let L := shown N (calls (middle "on")) in possible N L /\ In 1%Z (vars N) /\ blanket_known N L 1 (fun _ => "on")) /\
  (let N := net_of chain3 in let L := shown N (calls (middle "off")) in possible N L /\ In 1%Z (vars N) /\ blanket_known N L 1 (fun _ => "on")) /\
  row chain3 (middle "on") "v1" = [("on", 5 # 9); ("off", 4 # 9)]%Q /\ row chain3 (middle "off") "v1" = [("on", 5 # 9); ("off", 4 # 9)]%Q /\
  row chain3 (no_middle "on") "v1" <> row chain3 (no_middle "off") "v1".
Proof.
  split; [apply well_shapedb_ok; vm_compute; reflexivity|]. split; [apply connectedb_ok; vm_compute; reflexivity|]. split; [split; [orders|apply valid_calls_ok; vm_compute; reflexivity]|]. split; [split; [orders|apply valid_calls_ok; vm_compute; reflexivity]|].
  split; [apply blanketb_ok; vm_compute; reflexivity|]. split; [apply blanketb_ok; vm_compute; reflexivity|]. split; [vm_compute; reflexivity|]. split; [vm_compute; reflexivity|]. vm_compute. discriminate.
Qed.
