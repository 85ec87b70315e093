(** Answers to different questions fit together. Nothing but theorems and examples. *)
From Verif Require Import Py M_Graph M_Node M_Pptc Spec SpecNet SpecEv SpecSep SpecCohere L_Base L_Check Ex L_R1 L_SepEx L_Cohere L_CohereEx.
Open Scope nat_scope.

(** C95. Bayes' rule for reported numbers: P(i = v) P(k = y | i = v) = P(k = y) P(i = v | k = y), where the conditional
    probabilities are those reported after observing one more value, and the others those reported before. *)
Theorem C95_bayes : forall ops o h o1 o2 i v k y, well_shaped ops -> connected ops -> ord_ok o -> ord_ok o1 -> ord_ok o2 ->
  valid_history (net_of ops) h -> Forall hard_call (calls h) -> let N := net_of ops in let L := in_force N (calls h) in
  In i (vars N) -> In v (dom N i) -> free N L i -> In k (vars N) -> In y (dom N k) -> free N L k ->
  exists p q r s, answers o ops h (net_name ops i) v p /\ answers o ops (h ++ [(o1, observe N i v)]) (net_name ops k) y q /\
    answers o ops h (net_name ops k) y r /\ answers o ops (h ++ [(o2, observe N k y)]) (net_name ops i) v s /\ (p * q = r * s)%Qc.
Proof. exact c95_bayes. Qed.
Print Assumptions C95_bayes.

(** The law of total probability: P(k = y) is the sum over the values v of P(i = v) P(k = y | i = v). *)
Theorem C95_total : forall ops o h (os : string -> Ord) i k y, well_shaped ops -> connected ops -> ord_ok o -> (forall v, ord_ok (os v)) ->
  valid_history (net_of ops) h -> Forall hard_call (calls h) -> let N := net_of ops in let L := in_force N (calls h) in
  In i (vars N) -> free N L i -> In k (vars N) -> In y (dom N k) ->
  exists rows, Forall2 (fun v r => answers o ops h (net_name ops i) v (fst r) /\ answers o ops (h ++ [(os v, observe N i v)]) (net_name ops k) y (snd r)) (dom N i) rows /\
    answers o ops h (net_name ops k) y (qsum (map (fun r => (fst r * snd r)%Qc) rows)).
Proof. exact c95_total. Qed.
Print Assumptions C95_total.

Local Open Scope Z_scope.
(** [diamond] with [a] known: what is reported of [b] and [d], before and after observing the other *)
Example C95_case : let N := net_of diamond in valid_history N seen_a /\ Forall hard_call (calls seen_a) /\
  In 2 (vars N) /\ In 30 (vars N) /\ freeb N (in_force N (calls seen_a)) 2 = true /\ freeb N (in_force N (calls seen_a)) 30 = true /\
  bayes_holds diamond seen_a 2 30 = true /\ total_holds diamond seen_a 2 30 = true.
Proof.
  cbv zeta. split; [split; [orders|apply valid_calls_ok; vm_compute; reflexivity]|]. split; [apply hard_calls_ok; vm_compute; reflexivity|]. vm_compute. tauto.
Qed.
