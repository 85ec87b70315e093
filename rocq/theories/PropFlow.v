(** Properties of messages sent in other orders than that of propagate. Nothing but theorems and examples. *)
From Verif Require Import Py M_Graph M_Node M_Pptc Spec SpecNet SpecEv SpecMsg SpecJoint SpecFlow L_Base L_Check Ex L_R1 L_R8 L_MsgEx L_Flow3.
Open Scope nat_scope.

(** C74. Any messages, in any order and any number of times: none raises, and the tables represent the joint after each. *)
Theorem C74_represents : forall ops o h, well_shaped ops -> ord_ok o -> valid_history (net_of ops) h ->
  let N := net_of ops in let L := in_force N (calls h) in
  exists j j1, session o ops h = Ok j /\ initialize j = Ok j1 /\ forall ms, along j1 ms ->
    exists ps, foldM (send (jt_heap j1)) ms (jt_pots j1) = Ok ps /\ represents N L (set_jpots j1 ps).
Proof. exact c74_represents. Qed.
Print Assumptions C74_represents.

(** Once no message changes anything, the tables hold the marginals. *)
Theorem C74_settled : forall ops o h, well_shaped ops -> connected ops -> ord_ok o -> valid_history (net_of ops) h ->
  let N := net_of ops in let L := in_force N (calls h) in
  exists j j1, session o ops h = Ok j /\ initialize j = Ok j1 /\ forall ms ps, along j1 ms ->
    foldM (send (jt_heap j1)) ms (jt_pots j1) = Ok ps -> settled j1 ps -> holds_marginals N L (set_jpots j1 ps).
Proof. exact c74_settled. Qed.
Print Assumptions C74_settled.

(** That is so after the messages towards any clique [r] and back, in any order in which a clique sends when it has heard from
    the others, whatever messages [ms] were sent before. *)
Theorem C74_sweep : forall ops o h, well_shaped ops -> connected ops -> ord_ok o -> valid_history (net_of ops) h ->
  let N := net_of ops in let L := in_force N (calls h) in
  exists j j1, session o ops h = Ok j /\ initialize j = Ok j1 /\ forall ms r, along j1 ms -> In r (jt_cliques j1) ->
    (exists up down, inward j1 r up /\ outward r up down) /\
    forall up down, inward j1 r up -> outward r up down ->
      exists ps, foldM (send (jt_heap j1)) (ms ++ up ++ down) (jt_pots j1) = Ok ps /\ settled j1 ps /\ holds_marginals N L (set_jpots j1 ps).
Proof. exact c74_sweep. Qed.
Print Assumptions C74_sweep.

(** four cliques: a sweep over the clique 4-5, which is not the one propagate takes, after three other messages, gives the
    tables of propagate; so do the messages in a wrong order when sent twice, but not when sent once *)
Example C74_case : well_shaped branching /\ connected branching /\ valid_history (net_of branching) [] /\
  (match three ord_id branching ([("4-5", "2-4"); ("2-4", "1-2"); ("4-5", "2-4");
        ("2-3", "1-2"); ("1-2", "2-4"); ("2-4", "4-5"); ("4-5", "2-4"); ("2-4", "1-2"); ("1-2", "2-3")])%string with
   | Some (a, b, c) => same_vals b c && negb (same_vals a b) | None => false end = true) /\
  (match three ord_id branching (branching_early ++ branching_early) with Some (a, b, c) => same_vals b c | None => false end = true) /\
  (match three ord_id branching branching_early with Some (a, b, c) => negb (same_vals b c) && negb (same_vals a c) | None => false end = true).
Proof.
  split; [exact branching_ok|]. split; [exact branching_connected|]. split; [split; constructor|].
  repeat split; vm_compute; reflexivity.
Qed.
