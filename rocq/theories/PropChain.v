(** The chain rule. Nothing but theorems and examples. *)
From Verif Require Import Py M_Graph M_Node M_Pptc Spec SpecNet SpecEv SpecSep SpecPot SpecCohere SpecChain L_Base L_Check Ex L_R1 L_SepEx L_P4 L_R4 L_CohereEx L_Rule L_RuleEx.
Open Scope nat_scope.

(** C99. Ask for the variables one after the other and observe each answer's value before asking for the next: the product of the
    numbers reported is the probability of all these values together, given what was known before. If nothing is asked the product is 1,
    which is that probability unless what is known is impossible. *)
Theorem C99_chain : forall ops o (os : Z -> Ord) a, well_shaped ops -> connected ops -> ord_ok o -> (forall i, ord_ok (os i)) ->
  forall l h, valid_history (net_of ops) h -> Forall hard_call (calls h) -> NoDup l -> incl l (vars (net_of ops)) ->
  (forall i, In i l -> In (a i) (dom (net_of ops) i)) -> (forall i, In i l -> free (net_of ops) (in_force (net_of ops) (calls h)) i) ->
  exists ps, chained o ops os a h l ps /\
    (l <> [] \/ total (net_of ops) (in_force (net_of ops) (calls h)) <> 0%Qc -> qprod ps = joint_posterior (net_of ops) (in_force (net_of ops) (calls h)) l a).
Proof. exact c99_chain. Qed.
Print Assumptions C99_chain.

(** Asked for all variables, in any order, the product is the product of the entries of the tables: the network is read off the answers. *)
Theorem C99_joint : forall ops o (os : Z -> Ord) a l, well_shaped ops -> connected ops -> acyclic (is_parent (net_of ops)) -> stochastic (net_of ops) ->
  ord_ok o -> (forall i, ord_ok (os i)) -> Permutation l (vars (net_of ops)) -> (forall i, In i (vars (net_of ops)) -> In (a i) (dom (net_of ops) i)) ->
  exists ps, chained o ops os a [] l ps /\ qprod ps = qprod (map (fun i => cpt_entry (net_of ops) i a) (vars (net_of ops))).
Proof. exact c99_joint. Qed.
Print Assumptions C99_joint.

(** The order of the questions does not matter for the product. *)
Theorem C99_order : forall ops o o' (os os' : Z -> Ord) a h l l' ps qs, well_shaped ops -> connected ops -> ord_ok o -> ord_ok o' ->
  (forall i, ord_ok (os i)) -> (forall i, ord_ok (os' i)) -> valid_history (net_of ops) h -> Forall hard_call (calls h) -> NoDup l -> incl l (vars (net_of ops)) ->
  (forall i, In i l -> In (a i) (dom (net_of ops) i)) -> (forall i, In i l -> free (net_of ops) (in_force (net_of ops) (calls h)) i) ->
  Permutation l l' -> chained o ops os a h l ps -> chained o' ops os' a h l' qs -> qprod ps = qprod qs.
Proof. exact c99_order. Qed.
Print Assumptions C99_order.

Local Open Scope Z_scope.
(** [diamond], in every world, along two orders; and the numbers of one chain, in the world that is first *)
Example C99_case : well_shaped diamond /\ connected diamond /\ acyclic (is_parent (net_of diamond)) /\ stochastic (net_of diamond) /\
  chain_holds diamond [30; 2; 10; 1] [1; 10; 2; 30] = true /\ List.length (worlds diamond (vars (net_of diamond))) = 24%nat /\
  map (fun q => this q) (along diamond (hd no_asg (worlds diamond (vars (net_of diamond)))) [] [30; 2; 10; 1]) = [11587 # 20000; 1580 # 11587; 145 # 237; 27 # 29]%Q.
Proof.
  split; [exact diamond_ok|]. split; [exact diamond_connected|]. split; [apply rankedb_ok with diamond_rank; vm_compute; reflexivity|].
  split; [apply stochasticb_ok; vm_compute; reflexivity|]. vm_compute. auto.
Qed.
(** with [a] known the theorem applies to the other three *)
Example C99_known : let N := net_of diamond in valid_history N seen_a /\ Forall hard_call (calls seen_a) /\
  forallb (fun i => freeb N (in_force N (calls seen_a)) i) [2; 30; 1] = true /\ freeb N (in_force N (calls seen_a)) 10 = false.
Proof.
  cbv zeta. split; [split; [orders|apply valid_calls_ok; vm_compute; reflexivity]|]. split; [apply hard_calls_ok; vm_compute; reflexivity|]. vm_compute. auto.
Qed.
