(** Underflow on concrete networks. *)
From Verif Require Import Py M_Graph M_Node M_Pptc M_Round Spec SpecNet SpecEv SpecPot SpecRound L_Base L_Check L_Round L_Round4 L_Round5 L_Range Ex L_R1 L_R4.
Open Scope nat_scope.
Open Scope Qc_scope.
Local Open Scope string_scope.

(** a cause and two rare signs: p, 2 p are the probabilities of each sign *)
Definition n_cause := new_node 1 "cause" ["x"; "y"] [qfrac 1 2; qfrac 1 2].
Definition n_sign (i : Z) (name : string) (e : Z) := new_node i name ["seen"; "not"] [pow2 e; 1 - pow2 e; pow2 (e + 1); 1 - pow2 (e + 1)].
Definition signs (e : Z) : list bop := [AddEdge n_cause (n_sign 2 "first" e); AddEdge n_cause (n_sign 3 "second" e)].
(** both signs are seen *)
Definition both_seen (e : Z) : history := [(ord_id, Update [build_evidence (n_sign 2 "first" e) OBSERVATION [("seen", 1)]; build_evidence (n_sign 3 "second" e) OBSERVATION [("seen", 1)]])].

Definition row_of (a : arith) (ops : list bop) (h : history) (x : string) : option (list (string * Qc)) :=
  match (j <- session_r a ord_id ops h ;; get_posteriors_r a j) with Ok t => dget t x | Err _ => None end.
Fixpoint same_rowb (l l' : list (string * Qc)) : bool :=
  match l, l' with [], [] => true | (x, q) :: l, (y, p) :: l' => String.eqb x y && qeqb q p && same_rowb l l' | _, _ => false end.
Lemma same_rowb_ok l : forall l', same_rowb l l' = true -> l = l'.
Proof.
  induction l as [|[x q] l IH]; intros [|[y p] l']; simpl; try discriminate; auto. rewrite !andb_true_iff. intros [[A B] C]. apply String.eqb_eq in A. apply qeqb_true in B. apply IH in C. congruence.
Qed.
Lemma row_ok a ops h x row : match row_of a ops h x with Some m => same_rowb m row | None => false end = true ->
  exists j t, session_r a ord_id ops h = Ok j /\ get_posteriors_r a j = Ok t /\ dget t x = Some row.
Proof.
  unfold row_of. destruct (session_r a ord_id ops h) as [j|]; cbn [rbind]; [|discriminate]. destruct (get_posteriors_r a j) as [t|] eqn:E; [|discriminate]. destruct (dget t x) as [m|] eqn:Em; [|discriminate].
  intros H. apply same_rowb_ok in H. subst. exists j, t. auto.
Qed.
Lemma signs_ok e : well_shapedb (signs e) && connectedb (signs e) && forallb (valid_callb (net_of (signs e))) (calls (both_seen e)) && forallb hard_callb (calls (both_seen e)) = true ->
  well_shaped (signs e) /\ connected (signs e) /\ valid_history (net_of (signs e)) (both_seen e) /\ Forall hard_call (calls (both_seen e)).
Proof.
  rewrite !andb_true_iff. intros [[[H1 H2] H3] H4]. split; [apply well_shapedb_ok; auto|]. split; [apply connectedb_ok; auto|]. split; [|apply hard_calls_ok; auto].
  split; [orders|]. apply valid_calls_ok; auto.
Qed.
Lemma c89_none over : (let N := net_of (signs (-700)) in let L := in_force N (calls (both_seen (-700))) in exact_posterior N L 1 "x" = qfrac 1 5 /\ exact_posterior N L 1 "y" = qfrac 4 5) /\
  exists j t, session_r (ieee64 over) ord_id (signs (-700)) (both_seen (-700)) = Ok j /\ get_posteriors_r (ieee64 over) j = Ok t /\ dget t "cause" = Some [("x", 0); ("y", 0)].
Proof. split. { split; apply qeqb_true; vm_compute; reflexivity. } apply row_ok. vm_compute. reflexivity. Qed.
Lemma c89_sure over : (let N := net_of (signs (-537)) in let L := in_force N (calls (both_seen (-537))) in exact_posterior N L 1 "x" = qfrac 1 5 /\ exact_posterior N L 1 "y" = qfrac 4 5) /\
  exists j t, session_r (ieee64 over) ord_id (signs (-537)) (both_seen (-537)) = Ok j /\ get_posteriors_r (ieee64 over) j = Ok t /\ dget t "cause" = Some [("x", 0); ("y", 1)].
Proof. split. { split; apply qeqb_true; vm_compute; reflexivity. } apply row_ok. vm_compute. reflexivity. Qed.
Lemma c89_case : (well_shaped (signs (-700)) /\ connected (signs (-700)) /\ valid_history (net_of (signs (-700))) (both_seen (-700)) /\ Forall hard_call (calls (both_seen (-700)))) /\
  (well_shaped (signs (-537)) /\ connected (signs (-537)) /\ valid_history (net_of (signs (-537))) (both_seen (-537)) /\ Forall hard_call (calls (both_seen (-537)))) /\
  stochastic (net_of (signs (-700))) /\ stochastic (net_of (signs (-537))).
Proof. split; [apply signs_ok; vm_compute; reflexivity|]. split; [apply signs_ok; vm_compute; reflexivity|]. split; apply stochasticb_ok; vm_compute; reflexivity. Qed.
(** signs with the probabilities 2^-500 and 2^-499 are not too rare *)
Lemma c89_fine over : match row_of (ieee64 over) (signs (-500)) (both_seen (-500)) "cause" with Some m => same_rowb m [("x", digits 53 (qfrac 1 5)); ("y", digits 53 (qfrac 4 5))] | None => false end = true.
Proof. vm_compute. reflexivity. Qed.
