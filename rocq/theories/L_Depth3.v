(** The claims about the depth of recursion. *)
From Verif Require Import Py M_Graph M_Node M_Pptc M_Depth Spec SpecNet SpecEv SpecGraph SpecDepth L_Base L_PD L_UG L_P3 L_R3 L_P6 L_Shown L_P1 L_Depth L_Depth2 L_Chain L_Chain2.
Open Scope nat_scope.
Lemma c93_inference d n : 2 * d + 3 <= n -> well_shaped (chain n) /\
  forall o, ord_ok o -> (exists j, session o (chain n) [] = Ok j) /\ forall h, session_d d o (chain n) h = Err OutOfFuel.
Proof.
  intros Hn. pose proof (chain_shaped n ltac:(lia)) as HW. split; auto. intros o Ho. split; [|intros h; apply chain_deep; auto].
  destruct (session_shows (chain n) o [] HW Ho) as [b [j [j' [A1 [A2 _]]]]]. { split; constructor. } exists j'. eapply session_eq; eauto.
Qed.
Lemma c93_enough ops o h d : well_shaped ops -> ord_ok o -> valid_history (net_of ops) h -> 2 * List.length (vars (net_of ops)) + 2 <= d -> session_d d o ops h = session o ops h.
Proof. intros HW Ho Hh Hd. apply session_more; auto. lia. Qed.
Lemma c93_graphs {N : Type} (nid : N -> Z) ops V d : orders_ok ops -> (forall o e, In (o, AddE e) ops -> In (nid (e_i e)) V /\ In (nid (e_j e)) V) -> 2 * List.length V + 2 <= d ->
  dag_run_d d nid ops = dag_run nid ops /\ pdag_run_d d nid ops = pdag_run nid ops.
Proof.
  intros Ho HV Hd. split.
  - destruct (@c22 N nid ops Ho) as [g [E _]]. rewrite E. apply (cut_ok (dag_run nid ops)); auto. apply (dag_more nid d V); auto; [lia|apply keyed_empty].
  - destruct (@c48_pdag N nid ops Ho) as [g [E _]]. rewrite E. apply (cut_ok (pdag_run nid ops)); auto. apply (pdag_more nid d V); auto; [lia|apply keyed_empty].
Qed.
