(** Virtual evidence. Nothing but theorems and examples. *)
From Verif Require Import Py M_Graph M_Node M_Pptc Spec SpecNet SpecEv SpecSep SpecCohere SpecVirt L_Base L_Check Ex L_R1 L_SepEx L_Virt L_CohereEx L_VirtEx.
Open Scope nat_scope.

(** C96. Evidence with likelihoods on a variable is the same as observing the first value of a new effect of that variable, an
    effect whose probabilities are the likelihoods: both sessions report the same posteriors for all variables of the network. *)
Theorem C96_effect : forall ops a b o o' h h' oe ob e yes no, let N := net_of ops in let ops' := ops ++ [AddEdge a b] in
  well_shaped ops -> connected ops -> ord_ok o -> ord_ok o' -> ord_ok oe -> ord_ok ob ->
  valid_history N h -> all_noticed N no_evidence (calls h) -> Forall (fun p => ord_ok (fst p)) h' -> calls h' = calls h ->
  known N e -> free N (in_force N (calls h)) (ev_node e) -> n_id a = ev_node e -> n_mclq a = None -> witness ops e b yes no ->
  exists j t j' t', session o ops (h ++ [(oe, Update [e])]) = Ok j /\ get_posteriors j = Ok t /\
    session o' ops' (h' ++ [(ob, observe (net_of ops') (n_id b) yes)]) = Ok j' /\ get_posteriors j' = Ok t' /\
    forall i, In i (net_vars ops) -> exists m, dget t (net_name ops i) = Some m /\ dget t' (net_name ops i) = Some m.
Proof. exact c96. Qed.
Print Assumptions C96_effect.

Local Open Scope string_scope.
Local Open Scope list_scope.
(** [diamond] with [a] observed: likelihoods 3/10, 9/10, 1/2 for the values of [b], or a new effect of [b] observed *)
Example C96_case : let N := net_of diamond in valid_history N seen_a /\ all_noticed N no_evidence (calls seen_a) /\
  known N hint /\ freeb N (in_force N (calls seen_a)) (ev_node hint) = true /\ witness diamond hint sign "seen" "not seen" /\
  same_answers diamond (seen_a ++ [(ord_id, Update [hint])]) (diamond ++ [AddEdge n_b sign])
    (seen_a ++ [(ord_rev, observe (net_of (diamond ++ [AddEdge n_b sign])) 7 "seen")]) = true /\
  same_answers diamond seen_a diamond (seen_a ++ [(ord_id, Update [hint])]) = false.
Proof.
  cbv zeta. assert (V : valid_history (net_of diamond) seen_a) by (split; [orders|apply valid_calls_ok; vm_compute; reflexivity]). split; [exact V|].
  split. { apply all_noticedb_ok. intros i Hi. apply (ws_dom _ diamond_ok i Hi). apply V. vm_compute. reflexivity. }
  split; [apply knownb_ok; vm_compute; reflexivity|]. split; [vm_compute; reflexivity|]. split; [exact sign_ok|]. split; vm_compute; reflexivity.
Qed.
