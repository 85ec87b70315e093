(** Order of evidence. Nothing but theorems and examples. *)
From Verif Require Import Py M_Graph M_Node M_Pptc Spec SpecNet SpecEv SpecSep SpecCohere L_Base L_Check Ex L_R1 L_SepEx L_CohereEx L_VirtEx L_WeighEx L_Weigh2.
Local Open Scope list_scope.

(** C107. The full claim would be: evidence on different variables may be given in any order. It is false: evidence that is
    overlooked takes effect with the next evidence that is not, so it matters which comes last. *)
Theorem C107_order_refuted : exists ops o h1 o1 o2 es es' k y p, well_shaped ops /\ connected ops /\ ord_ok o /\ let N := net_of ops in
  valid_history N (h1 ++ [(o1, Update es); (o2, Update es')]) /\ (forall e e', In e es -> In e' es' -> ev_node e <> ev_node e') /\ In k (vars N) /\ In y (dom N k) /\
  answers o ops (h1 ++ [(o1, Update es); (o2, Update es')]) (net_name ops k) y p /\ ~ answers o ops (h1 ++ [(o2, Update es'); (o1, Update es)]) (net_name ops k) y p.
Proof. exact c107_refuted. Qed.
Print Assumptions C107_order_refuted.

(** It holds as long as nothing is overlooked, in the middle of any calls. *)
Theorem C107_order_partial : forall ops o h1 h2 o1 o2 o3 o4 es es' k y p, well_shaped ops -> connected ops -> ord_ok o -> ord_ok o3 -> ord_ok o4 -> let N := net_of ops in
  valid_history N (h1 ++ [(o1, Update es); (o2, Update es')] ++ h2) -> all_noticed N no_evidence (calls (h1 ++ [(o1, Update es); (o2, Update es')] ++ h2)) ->
  (forall e e', In e es -> In e' es' -> ev_node e <> ev_node e') -> In k (vars N) -> In y (dom N k) ->
  (answers o ops (h1 ++ [(o1, Update es); (o2, Update es')] ++ h2) (net_name ops k) y p <-> answers o ops (h1 ++ [(o3, Update es'); (o4, Update es)] ++ h2) (net_name ops k) y p).
Proof. exact c107_order. Qed.
Print Assumptions C107_order_partial.

(** One call with all of it does the same. *)
Theorem C107_together : forall ops o h1 h2 o1 o2 o3 es es' k y p, well_shaped ops -> connected ops -> ord_ok o -> ord_ok o3 -> let N := net_of ops in
  valid_history N (h1 ++ [(o1, Update es); (o2, Update es')] ++ h2) -> all_noticed N no_evidence (calls (h1 ++ [(o1, Update es); (o2, Update es')] ++ h2)) ->
  (forall e e', In e es -> In e' es' -> ev_node e <> ev_node e') -> In k (vars N) -> In y (dom N k) ->
  (answers o ops (h1 ++ [(o1, Update es); (o2, Update es')] ++ h2) (net_name ops k) y p <-> answers o ops (h1 ++ [(o3, Update (es ++ es'))] ++ h2) (net_name ops k) y p).
Proof. exact c107_together. Qed.
Print Assumptions C107_together.

(** Of two pieces of evidence on one variable only the last counts. *)
Theorem C107_last : forall ops o h1 h2 o1 o2 o3 e e' k y p, well_shaped ops -> connected ops -> ord_ok o -> ord_ok o3 -> let N := net_of ops in
  valid_history N (h1 ++ [(o1, Update [e]); (o2, Update [e'])] ++ h2) -> all_noticed N no_evidence (calls (h1 ++ [(o1, Update [e]); (o2, Update [e'])] ++ h2)) ->
  ev_node e = ev_node e' -> noticed N (in_force N (calls h1)) (Update [e']) -> In k (vars N) -> In y (dom N k) ->
  (answers o ops (h1 ++ [(o1, Update [e]); (o2, Update [e'])] ++ h2) (net_name ops k) y p <-> answers o ops (h1 ++ [(o3, Update [e'])] ++ h2) (net_name ops k) y p).
Proof. exact c107_last. Qed.
Print Assumptions C107_last.

(** Evidence that is withdrawn again might never have been given. *)
Theorem C107_withdrawn : forall ops o h1 h2 o1 o2 e n k y p, well_shaped ops -> connected ops -> ord_ok o -> let N := net_of ops in
  valid_history N (h1 ++ [(o1, Update [e]); (o2, Unobserve [n])] ++ h2) -> all_noticed N no_evidence (calls (h1 ++ h2)) ->
  n_id n = ev_node e -> (forall v, in_force N (calls h1) (ev_node e) v = 1%Qc) -> In k (vars N) -> In y (dom N k) ->
  (answers o ops (h1 ++ [(o1, Update [e]); (o2, Unobserve [n])] ++ h2) (net_name ops k) y p <-> answers o ops (h1 ++ h2) (net_name ops k) y p).
Proof. exact c107_withdrawn. Qed.
Print Assumptions C107_withdrawn.

(** [diamond] with [a] observed, soft evidence on [b], [c] observed, then [d] *)
Example C107_case : let N := net_of diamond in let h := seen_a ++ [(ord_id, Update [hint]); (ord_rev, Update c_es)] ++ later in
  valid_history N h /\ all_noticed N no_evidence (calls h) /\
  same_answers diamond h diamond (seen_a ++ [(ord_id, Update c_es); (ord_id, Update [hint])] ++ later) = true /\
  same_answers diamond h diamond (seen_a ++ [(ord_id, Update ([hint] ++ c_es))] ++ later) = true /\
  same_answers diamond h diamond (seen_a ++ [(ord_id, Update c_es)] ++ later) = false.
Proof.
  cbv zeta. set (h := seen_a ++ [(ord_id, Update [hint]); (ord_rev, Update c_es)] ++ later).
  assert (V : valid_history (net_of diamond) h) by (split; [unfold h; orders|apply valid_calls_ok; vm_compute; reflexivity]). split; [exact V|].
  split. { apply all_noticedb_ok. intros i Hi. apply (ws_dom _ diamond_ok i Hi). apply V. vm_compute. reflexivity. }
  repeat split; vm_compute; reflexivity.
Qed.
(** [b] said to be x or z, then hinted at otherwise; or withdrawn *)
Example C107_last_case : let N := net_of diamond in let h := seen_a ++ [(ord_id, Update [e_b_xz]); (ord_rev, Update [hint])] ++ later in
  let h' := seen_a ++ [(ord_id, Update [e_b_xz]); (ord_rev, Unobserve [n_b])] ++ later in
  valid_history N h /\ all_noticed N no_evidence (calls h) /\ valid_history N h' /\ all_noticed N no_evidence (calls (seen_a ++ later)) /\
  all_noticed N no_evidence (calls (seen_a ++ [(ord_id, Update [hint])] ++ later)) /\ (forall v, in_force N (calls seen_a) (ev_node e_b_xz) v = 1%Qc) /\
  ev_node e_b_xz = ev_node hint /\ n_id n_b = ev_node e_b_xz /\
  same_answers diamond h diamond (seen_a ++ [(ord_id, Update [hint])] ++ later) = true /\
  same_answers diamond h' diamond (seen_a ++ later) = true /\ same_answers diamond h diamond h' = false.
Proof.
  cbv zeta. set (h := seen_a ++ [(ord_id, Update [e_b_xz]); (ord_rev, Update [hint])] ++ later). set (h' := seen_a ++ [(ord_id, Update [e_b_xz]); (ord_rev, Unobserve [n_b])] ++ later).
  assert (V : valid_history (net_of diamond) h) by (split; [unfold h; orders|apply valid_calls_ok; vm_compute; reflexivity]). split; [exact V|].
  split. { apply all_noticedb_ok. intros i Hi. apply (ws_dom _ diamond_ok i Hi). apply V. vm_compute. reflexivity. }
  split; [split; [unfold h'; orders|apply valid_calls_ok; vm_compute; reflexivity]|].
  split. { apply all_noticedb_ok. intros i Hi. apply (ws_dom _ diamond_ok i Hi). apply valid_calls_ok. vm_compute. reflexivity. vm_compute. reflexivity. }
  split. { apply all_noticedb_ok. intros i Hi. apply (ws_dom _ diamond_ok i Hi). apply valid_calls_ok. vm_compute. reflexivity. vm_compute. reflexivity. }
  split; [intros v; reflexivity|].
  repeat split; vm_compute; reflexivity.
Qed.
