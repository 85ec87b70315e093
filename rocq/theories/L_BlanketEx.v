(** Checks for the examples of PropBlanket. *)
From Verif Require Import Py M_Graph M_Node M_Pptc Spec SpecNet SpecEv SpecBlanket L_Base L_PD L_Apply L_Check Ex L_R1 L_RowEx.
Local Open Scope string_scope.
Local Open Scope list_scope.

Definition in_blanket (N : net) (y p : Z) : bool := negb (Z.eqb p y) && (mem p (par N y) || mem y (par N p) || existsb (fun c => mem y (par N c) && mem p (par N c)) (vars N)).
Definition blanketb (N : net) (L : likelihood) (y : Z) (a : asg) : bool :=
  negb (qeqb (total N L) 0%Qc) && mem y (vars N) &&
  forallb (fun k => forallb (fun p => mem p (vars N)) (par N k)) (vars N) &&
  forallb (fun p => negb (in_blanket N y p) || mem (a p) (dom N p) && forallb (fun v => String.eqb v (a p) || qeqb (L p v) 0%Qc) (dom N p)) (vars N).
Lemma blanketb_ok N L y a : blanketb N L y a = true -> possible N L /\ In y (vars N) /\ blanket_known N L y a.
Proof.
  unfold blanketb. rewrite !andb_true_iff, !forallb_forall. intros (((H1 & H2) & H3) & H4). split; [intros E; rewrite E in H1; discriminate|]. split; [apply mem_In; auto|].
  assert (HE : forall k p, In k (vars N) -> In p (par N k) -> In p (vars N)). { intros k p Hk Hp. specialize (H3 k Hk). rewrite forallb_forall in H3. apply mem_In. auto. }
  intros p [Hn Hp]. assert (Hv : In p (vars N)). { destruct Hp as [[A B]|[[A B]|(c & _ & [A B])]]; eauto. }
  assert (IB : in_blanket N y p = true).
  { unfold in_blanket. apply andb_true_iff. split; [apply negb_true_iff, Z.eqb_neq; auto|]. apply orb_true_iff. destruct Hp as [[A B]|[[A B]|(c & [A B] & [C D])]].
    - left. apply orb_true_iff. left. apply mem_In; auto.
    - left. apply orb_true_iff. right. apply mem_In; auto.
    - right. apply existsb_exists. exists c. split; auto. apply andb_true_iff. split; apply mem_In; auto. }
  specialize (H4 p Hv). rewrite IB in H4. simpl in H4. apply andb_true_iff in H4. destruct H4 as [A B]. rewrite forallb_forall in B. split; [apply mem_In; auto|]. intros v Hv' Hne.
  specialize (B v Hv'). apply orb_true_iff in B. destruct B as [B|B]; [apply String.eqb_eq in B; contradiction|]. apply qeqb_true; auto.
Qed.

(** a chain 1 -> 2 -> 3 *)
Definition chain3 : list bop := [AddEdge n_1 n_2; AddEdge n_2 n_3].
Definition say (n : bnode) (v : string) : evidence := build_evidence n OBSERVATION [(v, 1%Qc)].
Definition middle (v : string) : history := [(ord_id, Update [say n_2 "off"; say n_3 v]); (ord_rev, SetObservation (say n_2 "on"))].
Definition no_middle (v : string) : history := [(ord_rev, Update [say n_3 v])].
Definition all_round : history := [(ord_id, Update [say n_d "f"; say n_a "off"]); (ord_rev, SetObservation (say n_c "off"))].
Definition round_world : asg := world [(10%Z, "off"); (1%Z, "off"); (30%Z, "f")].
(** the row reported for a name *)
Definition row (ops : list bop) (h : history) (x : string) : list (string * Q) :=
  match session ord_id ops h with Ok j => match get_posteriors j with Ok t => match dget t x with Some r => map (fun p => (fst p, this (snd p))) r | None => [] end | Err _ => [] end | Err _ => [] end.
