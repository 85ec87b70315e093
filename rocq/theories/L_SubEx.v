(** A network and the network with one more effect. *)
From Verif Require Import Py M_Graph M_Node M_Pptc Spec SpecNet SpecEv SpecSub L_Base L_Table L_Exact L_Apply L_Net L_Check Ex L_R1 L_Iso.
Local Open Scope string_scope.

Definition subnetworkb (N N' : net) : bool :=
  forallb (fun i => mem i (vars N') && eqlb (dom N' i) (dom N i) && (if list_eq_dec Z.eq_dec (par N' i) (par N i) then true else false) &&
    forallb (fun vs => let a := asg_of (vars N) vs in qeqb (cpt_entry N' i a) (cpt_entry N i a)) (cartesian (map (dom N) (vars N)))) (vars N).
Lemma subnetworkb_ok N N' : nshape N -> subnetworkb N N' = true -> subnetwork N N'.
Proof.
  intros HN H i Hi. unfold subnetworkb in H. rewrite forallb_forall in H. specialize (H i Hi).
  apply andb_true_iff in H. destruct H as [H H4]. apply andb_true_iff in H. destruct H as [H H3]. apply andb_true_iff in H. destruct H as [H1 H2].
  apply mem_In in H1. unfold eqlb in H2. destruct (list_eq_dec string_dec _ _) as [E2|]; [|discriminate]. destruct (list_eq_dec Z.eq_dec _ _) as [E3|]; [|discriminate].
  split; [exact H1|]. split; [exact E2|]. split; [exact E3|]. intros a Ha. rewrite forallb_forall in H4.
  specialize (H4 _ (map_okon _ _ a Ha)). cbv zeta in H4. apply qeqb_true in H4.
  assert (G : forall u, In u (par N i ++ [i]) -> asg_of (vars N) (map a (vars N)) u = a u).
  { intros u Hu. apply (asg_of_in (dom N)). apply in_app_or in Hu. destruct Hu as [Hu|[<-|[]]]; auto. apply (ns_ends _ HN u i Hu). }
  etransitivity; [|etransitivity; [exact H4|]].
  - apply cpt_entry_dep. rewrite E3. intros u Hu. symmetry. apply G; auto.
  - apply cpt_entry_dep. exact G.
Qed.

(** [diamond] without [d] *)
Definition vee : list bop := [AddEdge n_a n_c; AddEdge n_a n_b].
Definition vee_calls : history := [(ord_id, Update [e_c_on; e_b_xz]); (ord_rev, SetObservation e_c_on); (ord_id, UnobserveAll); (ord_rev, Update [e_b_xz]);
  (ord_id, Update [build_evidence n_c VIRTUAL [("on", qfrac 1 3); ("off", 1%Qc)]])].
Lemma vee_ok : well_shaped vee. Proof. apply well_shapedb_ok. vm_compute. reflexivity. Qed.
Lemma vee_connected : connected vee. Proof. apply connectedb_ok. vm_compute. reflexivity. Qed.
Lemma vee_sub : subnetwork (net_of vee) (net_of diamond).
Proof. apply subnetworkb_ok; [apply net_shape, vee_ok|]. vm_compute. reflexivity. Qed.
Lemma vee_valid : valid_history (net_of vee) vee_calls.
Proof. split; [orders|]. apply valid_calls_ok. vm_compute. reflexivity. Qed.
Definition shows (ops : list bop) : list (string * list (string * Q)) :=
  match session ord_id ops [] with
  | Ok j => match get_posteriors j with Ok t => map (fun kl => (fst kl, map (fun p => (fst p, this (snd p))) (snd kl))) t | Err _ => [] end
  | Err _ => [] end.
