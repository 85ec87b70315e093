(** Evidence weighs the answers to observations. Nothing but theorems and examples. *)
From Verif Require Import Py M_Graph M_Node M_Pptc Spec SpecNet SpecEv SpecSep SpecCohere L_Base L_Check Ex L_R1 L_SepEx L_CohereEx L_VirtEx L_WeighEx L_Weigh2.
Open Scope nat_scope.

(** C106. Evidence of any kind on a variable i without evidence, with likelihoods l: afterwards P(k = y) is the average of what
    is reported of k = y when the values v of i are observed, each weighed by l(v) P(i = v). When all weights are 0, so is the
    number reported. *)
Theorem C106_weighs : forall ops o h oe (os : string -> Ord) e k y, well_shaped ops -> connected ops -> ord_ok o -> ord_ok oe -> (forall v, ord_ok (os v)) ->
  let N := net_of ops in let i := ev_node e in valid_history N h -> all_noticed N no_evidence (calls h) -> known N e -> free N (in_force N (calls h)) i -> In k (vars N) -> In y (dom N k) ->
  exists p r q, (forall v, In v (dom N i) -> answers o ops h (net_name ops i) v (p v) /\ answers o ops (h ++ [(os v, observe N i v)]) (net_name ops k) y (r v)) /\
    answers o ops (h ++ [(oe, Update [e])]) (net_name ops k) y q /\
    (q * qsum (map (fun v => like_of e v * p v) (dom N i)) = qsum (map (fun v => like_of e v * p v * r v) (dom N i)))%Qc /\
    (qsum (map (fun v => like_of e v * p v) (dom N i)) = 0 -> q = 0)%Qc.
Proof. exact c106_weighs. Qed.
Print Assumptions C106_weighs.

(** The odds of two values of i are multiplied by the ratio of their likelihoods. *)
Theorem C106_odds : forall ops o h oe e v w, well_shaped ops -> connected ops -> ord_ok o -> ord_ok oe ->
  let N := net_of ops in let i := ev_node e in valid_history N h -> all_noticed N no_evidence (calls h) -> known N e -> free N (in_force N (calls h)) i -> In v (dom N i) -> In w (dom N i) ->
  exists pv pw qv qw, answers o ops h (net_name ops i) v pv /\ answers o ops h (net_name ops i) w pw /\
    answers o ops (h ++ [(oe, Update [e])]) (net_name ops i) v qv /\ answers o ops (h ++ [(oe, Update [e])]) (net_name ops i) w qw /\
    (qv * (like_of e w * pw) = qw * (like_of e v * pv))%Qc.
Proof. exact c106_odds. Qed.
Print Assumptions C106_odds.

(** [diamond] with [a] observed: likelihoods 3/10, 9/10, 1/2 for the values of [b], and [b] found to be x or z *)
Example C106_case : let N := net_of diamond in valid_history N seen_a /\ all_noticed N no_evidence (calls seen_a) /\
  known N hint /\ known N e_b_xz /\ freeb N (in_force N (calls seen_a)) (ev_node hint) = true /\ ev_node e_b_xz = ev_node hint /\
  weighs_holds diamond seen_a hint 30 = true /\ weighs_holds diamond seen_a e_b_xz 30 = true /\ odds_holds diamond seen_a hint = true /\
  same_answers diamond seen_a diamond (seen_a ++ [(ord_id, Update [hint])]) = false.
Proof.
  cbv zeta. assert (V : valid_history (net_of diamond) seen_a) by (split; [orders|apply valid_calls_ok; vm_compute; reflexivity]). split; [exact V|].
  split. { apply all_noticedb_ok. intros i Hi. apply (ws_dom _ diamond_ok i Hi). apply V. vm_compute. reflexivity. }
  split; [apply knownb_ok; vm_compute; reflexivity|]. split; [apply knownb_ok; vm_compute; reflexivity|]. repeat split; vm_compute; reflexivity.
Qed.
