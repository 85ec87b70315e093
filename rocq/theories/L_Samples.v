(** The example networks. *)
From Verif Require Import Py M_Graph M_Node M_Pptc M_Samples Spec SpecNet SpecEv SpecPot SpecDet SpecSamples L_Base L_Check L_Build L_Net L_P1 L_R1 L_R4 L_Det2.
Open Scope nat_scope.

Fixpoint alike (l m : list (string * Qc)) : bool :=
  match l, m with [], [] => true | (k, q) :: l, (k', q') :: m => String.eqb k k' && qeqb q q' && alike l m | _, _ => false end.
Lemma alike_ok l : forall m, alike l m = true -> l = m.
Proof.
  induction l as [|[k q] l IH]; intros [|[k' q'] m] E; simpl in E; try discriminate; auto. apply andb_true_iff in E. destruct E as [E E3]. apply andb_true_iff in E. destruct E as [E1 E2].
  apply String.eqb_eq in E1. apply qeqb_true in E2. subst. f_equal. auto.
Qed.
Definition saysb (r : res jtree) (E : list (string * list (string * Qc))) : bool :=
  match r with
  | Ok j => match get_posteriors j with
            | Ok t => nodupb (map fst E) && Nat.eqb (List.length t) (List.length E)
                      && forallb (fun p => match dget t (fst p) with Some l => alike l (snd p) | None => false end) E
            | Err _ => false end
  | Err _ => false end.
Lemma strings_ok (l : list string) : forall m, forallb (fun p => String.eqb (fst p) (snd p)) (combine l m) = true -> List.length l = List.length m -> l = m.
Proof. induction l as [|x l IH]; intros [|y m] F L; try discriminate; auto. simpl in F. apply andb_true_iff in F. destruct F as [F1 F2]. apply String.eqb_eq in F1. simpl in L. f_equal; auto. Qed.
(** the answers under one order of iteration are the answers under any *)
Lemma answers ops o h E : well_shapedb ops = true -> connectedb ops = true -> ord_ok o -> valid_history (net_of ops) h ->
  saysb (session ord_id ops (map (fun c => (ord_id, c)) (calls h))) E = true -> exists j, session o ops h = Ok j /\ says j E.
Proof.
  intros HW HC Ho Hh HE. apply well_shapedb_ok in HW. apply connectedb_ok in HC. destruct (session_exact ops o h HW HC Ho Hh) as [j [t [A1 [A2 [A3 A4]]]]]. exists j. split; auto. exists t. split; auto.
  assert (Hc : calls (map (fun c => (ord_id, c)) (calls h)) = calls h). { unfold calls. rewrite !map_map. reflexivity. }
  assert (Hv : valid_history (net_of ops) (map (fun c => (ord_id, c)) (calls h))).
  { destruct Hh as [_ V]. split; [|rewrite Hc; exact V]. apply Forall_forall. intros p Hp. apply in_map_iff in Hp. destruct Hp as [c [<- _]]. exact ord_id_ok. }
  destruct (session_exact ops ord_id _ HW HC ord_id_ok Hv) as [j0 [t0 [B1 [B2 [B3 B4]]]]]. rewrite Hc in B4. rewrite B1 in HE. unfold saysb in HE. rewrite B2 in HE.
  apply andb_true_iff in HE. destruct HE as [HE E3]. apply andb_true_iff in HE. destruct HE as [E1 E2]. apply Nat.eqb_eq in E2. apply nodupb_ok in E1. rewrite forallb_forall in E3.
  assert (P : Permutation (map fst t0) (map fst E)).
  { symmetry. apply NoDup_Permutation_bis; auto. { rewrite !map_length. rewrite E2. auto. }
    intros n Hn. apply in_map_iff in Hn. destruct Hn as [p [<- Hp]]. specialize (E3 p Hp). destruct (dget t0 (fst p)) eqn:D; [|discriminate]. eapply dget_Some_key; eauto. }
  split. { transitivity (map (net_name ops) (vars (net_of ops))); auto. transitivity (map fst t0); auto. symmetry; assumption. }
  intros n l Hn. pose proof (E3 _ Hn) as Q. cbn [fst snd] in Q. destruct (dget t0 n) as [l0|] eqn:D; [|discriminate]. apply alike_ok in Q. subst l0.
  assert (Hi : In n (map (net_name ops) (vars (net_of ops)))). { apply Permutation_in with (map fst t0); [assumption|]. apply Permutation_in with (map fst E); [symmetry; exact P|]. apply in_map_iff. exists (n, l); auto. }
  apply in_map_iff in Hi. destruct Hi as [i [<- Hi]]. rewrite (A4 i Hi). rewrite (B4 i Hi) in D. exact D.
Qed.
Lemma tree_ids ops o : well_shapedb ops = true -> ord_ok o -> forall K E, (match apply ord_id (build ops) with Ok (_, j) => forallb (fun p => String.eqb (fst p) (snd p)) (combine (map fst (jt_nodes j)) K) && forallb (fun p => String.eqb (fst p) (snd p)) (combine (map fst (jt_edges j)) E) && Nat.eqb (List.length (jt_nodes j)) (List.length K) && Nat.eqb (List.length (jt_edges j)) (List.length E) | Err _ => false end) = true ->
  exists b j, apply o (build ops) = Ok (b, j) /\ map fst (jt_nodes j) = K /\ map fst (jt_edges j) = E.
Proof.
  intros HW Ho K E H. apply well_shapedb_ok in HW. destruct (apply ord_id (build ops)) as [[b j]|] eqn:A; [|discriminate].
  apply andb_true_iff in H. destruct H as [H H4]. apply andb_true_iff in H. destruct H as [H H3]. apply andb_true_iff in H. destruct H as [H1 H2].
  apply Nat.eqb_eq in H3. apply Nat.eqb_eq in H4. rewrite <- (map_length fst) in H3. rewrite <- (map_length fst) in H4. apply strings_ok in H1; auto. apply strings_ok in H2; auto.
  destruct (apply_build ops o HW Ho) as [b' [j' [A1 _]]]. exists b', j'. split; auto.
  assert (S : same_tree j j') by (refine (apply_tree ops ops ord_id o b b' j j' HW HW ord_id_ok Ho eq_refl (fun i => eq_refl) (fun i x => iff_refl _) A A1)).
  destruct S as [S1 [S2 _]]. rewrite <- H1, <- H2. split; symmetry; [clear -S1; induction S1 as [|p q l m [Q _] F IH]; simpl; congruence|clear -S2; induction S2 as [|p q l m [Q _] F IH]; simpl; congruence].
Qed.

Theorem c56_shape : well_shaped huang_graph /\ connected huang_graph /\ acyclic (is_parent (net_of huang_graph)) /\ stochastic (net_of huang_graph) /\
  well_shaped simple_graph /\ connected simple_graph /\ acyclic (is_parent (net_of simple_graph)) /\ stochastic (net_of simple_graph).
Proof.
  split; [apply well_shapedb_ok; vm_compute; reflexivity|]. split; [apply connectedb_ok; vm_compute; reflexivity|]. split; [apply rankedb_ok with Z.to_nat; vm_compute; reflexivity|].
  split; [apply stochasticb_ok; vm_compute; reflexivity|]. split; [apply well_shapedb_ok; vm_compute; reflexivity|]. split; [apply connectedb_ok; vm_compute; reflexivity|].
  split; [apply rankedb_ok with Z.to_nat; vm_compute; reflexivity|]. apply stochasticb_ok; vm_compute; reflexivity.
Qed.

Theorem c56_answers o o1 o2 : ord_ok o -> ord_ok o1 -> ord_ok o2 ->
  (exists j, session o huang_graph [] = Ok j /\ says j huang_prior) /\
  (exists j, session o huang_graph [(o1, UnobserveAll); (o2, SetObservation (observe huang_a))] = Ok j /\ says j huang_given_a) /\
  (exists j, session o huang_graph [(o1, UnobserveAll); (o2, Update [observe huang_a; observe huang_f])] = Ok j /\ says j huang_given_a_f) /\
  (exists j, session o simple_graph [] = Ok j /\ says j simple_prior).
Proof.
  intros Ho H1 H2.
  assert (V : forall c, valid_callb (net_of huang_graph) c = true -> valid_history (net_of huang_graph) [(o1, UnobserveAll); (o2, c)]).
  { intros c Hc. split; [constructor; [exact H1|constructor; [exact H2|constructor]]|]. apply valid_calls_ok. unfold calls. cbn [map snd forallb]. rewrite Hc. reflexivity. }
  split; [|split; [|split]]; apply answers; auto; try (vm_compute; reflexivity); try (split; constructor); try (apply V; vm_compute; reflexivity).
Qed.
Theorem c56_tree o : ord_ok o -> exists b j, apply o (build huang_graph) = Ok (b, j) /\ map fst (jt_nodes j) = huang_tree_nodes /\ map fst (jt_edges j) = huang_tree_edges.
Proof. intros Ho. apply tree_ids; auto; vm_compute; reflexivity. Qed.
