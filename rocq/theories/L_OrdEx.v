(** A posterior that is not 1 reported as 1. *)
From Verif Require Import Py M_Graph M_Node M_Pptc M_Round Spec SpecNet SpecEv L_Base L_Check L_Round5 Ex L_R1 SpecPot L_R4 L_R4 L_RSEx L_RoundEx SpecRound SpecStored SpecOrderly.
Local Open Scope string_scope.
Local Open Scope list_scope.
Local Open Scope Qc_scope.

(** a rare cause that rarely shows: 2^-30 each *)
Definition rare : positive := 1073741824.
Definition u_a : bnode := new_node 1 "a" ["x"; "y"] [qfrac 1 rare; qfrac 1073741823 rare].
Definition u_b : bnode := new_node 2 "b" ["t"; "f"] [qfrac 1 rare; qfrac 1073741823 rare; qfrac 1073741823 rare; qfrac 1 rare].
Definition unlikely : list bop := [AddNode u_a; AddNode u_b; AddEdge u_a u_b].
Definition seen : history := [(ord_id, SetObservation (build_evidence u_b OBSERVATION [("t", 1)]))].
Definition reported (p : Z) (ops : list bop) (h : history) (x y : string) : option Qc :=
  match float_table p ops h with Ok t => match dget t x with Some row => dget row y | None => None end | Err _ => None end.
Lemma reported_ok p ops h x y q : match reported p ops h x y with Some q' => qeqb q' q | None => false end = true ->
  exists j t row, session_r (floats p) ord_id ops h = Ok j /\ get_posteriors_r (floats p) j = Ok t /\ dget t x = Some row /\ dget row y = Some q.
Proof.
  unfold reported, float_table. destruct (session_r (floats p) ord_id ops h) as [j|]; cbn [rbind]; [|discriminate]. destruct (get_posteriors_r (floats p) j) as [t|] eqn:E; [|discriminate].
  destruct (dget t x) as [row|] eqn:Er; [|discriminate]. destruct (dget row y) as [q'|] eqn:Eq; [|discriminate]. intros H. apply qeqb_true in H. subst q'. exists j, t, row. auto.
Qed.
Lemma seen_ok : valid_history (net_of unlikely) seen. Proof. split; [orders|]. apply valid_calls_ok. vm_compute. reflexivity. Qed.
Lemma seen_hard : Forall hard_call (calls seen). Proof. apply hard_calls_ok. vm_compute. reflexivity. Qed.
Lemma below_one ops L i y : qeqb (exact_posterior (net_of ops) L i y) 1 = false -> exact_posterior (net_of ops) L i y <> 1.
Proof. apply qeqb_false. Qed.

Theorem c110_uncertain : exists ops h i y, well_shaped ops /\ connected ops /\ stochastic (net_of ops) /\ stored_net (digits 53) 4 (build ops) /\ valid_history (net_of ops) h /\ Forall hard_call (calls h) /\
  In i (vars (net_of ops)) /\ In y (dom (net_of ops) i) /\ exact_posterior (net_of ops) (in_force (net_of ops) (calls h)) i y <> 1 /\
  exists j t row, session_r binary64 ord_id ops h = Ok j /\ get_posteriors_r binary64 j = Ok t /\ dget t (net_name ops i) = Some row /\ dget row y = Some 1.
Proof.
  exists unlikely, seen, 1%Z, "y". split; [apply well_shapedb_ok; vm_compute; reflexivity|]. split; [apply connectedb_ok; vm_compute; reflexivity|]. split; [apply stochasticb_ok; vm_compute; reflexivity|].
  split; [apply stored_netb_ok; vm_compute; reflexivity|]. split; [exact seen_ok|]. split; [exact seen_hard|]. split; [vm_compute; auto|]. split; [vm_compute; auto|]. split; [apply below_one; vm_compute; reflexivity|].
  apply (reported_ok 53 unlikely seen (net_name unlikely 1) "y" 1). vm_compute. reflexivity.
Qed.
(** the observed value of [d] is certain *)
Lemma certainb ops L i y : qeqb (exact_posterior (net_of ops) L i y) 1 = true -> exact_posterior (net_of ops) L i y = 1.
Proof. apply qeqb_true. Qed.
Lemma d_certain : exact_posterior (net_of diamond) (in_force (net_of diamond) (calls hard_history)) 30 "t" = 1.
Proof. apply certainb. vm_compute. reflexivity. Qed.
