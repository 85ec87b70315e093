(** Counterexamples for the graph classes. *)
From Verif Require Import Py M_Graph M_Node M_Pptc Spec SpecGraph SpecNet L_Base L_PD L_P3.

Definition zedge (i j : Z) (t : etype) : edge Z := mkEdge i j t.
Definition zid : Z -> Z := fun i => i.
Definition bn (i : Z) : bnode := new_node i (str_of_Z i) ["t"%string; "f"%string] [].

(** a network with a self loop and a cycle of two *)
Definition bbn_cycle : list bop := [AddEdge (bn 1) (bn 2); AddEdge (bn 2) (bn 1); AddEdge (bn 3) (bn 3)].
Lemma c23_refuted : exists ops x y, arc (b_g (build ops)) x y /\ path (arc (b_g (build ops))) y x.
Proof.
  exists bbn_cycle, 1%Z, 2%Z. split; [|apply path_one]; rewrite bbn_arc.
  - exists (bn 1), (bn 2). simpl. auto.
  - exists (bn 2), (bn 1). simpl. auto.
Qed.
Lemma c23_loop : exists ops x, arc (b_g (build ops)) x x.
Proof. exists bbn_cycle, 3%Z. rewrite bbn_arc. exists (bn 3), (bn 3). simpl. auto. Qed.

(** 1 -> 2, 2 -- 3, 3 -> 1 *)
Definition semi : list (Ord * gop Z) :=
  [(ord_id, AddE (zedge 1 2 DIRECTED)); (ord_id, AddE (zedge 2 3 UNDIRECTED)); (ord_id, AddE (zedge 3 1 DIRECTED))].
Lemma semi_ok : orders_ok semi.
Proof. unfold orders_ok, semi. repeat (apply Forall_cons; [exact ord_id_ok|]). apply Forall_nil. Qed.
Definition memb (g : graph Z) (x y : Z) : bool := mem y (emap g x).
Lemma c24_refuted : exists ops g x y, orders_ok ops /\ pdag_run zid ops = Ok g /\ directed g x y /\ path (arc g) y x.
Proof.
  exists semi. destruct (pdag_run zid semi) as [g|e] eqn:E; [|vm_compute in E; discriminate].
  exists g, 1%Z, 2%Z. split; [exact semi_ok|]. split; auto.
  assert (B : memb g 1 2 && negb (memb g 2 1) && memb g 2 3 && memb g 3 1 = true) by (vm_compute in E; inversion E; subst; reflexivity).
  unfold memb in B. rewrite !andb_true_iff, negb_true_iff, !mem_In, mem_false in B. unfold directed, arc. split; [tauto|].
  apply path_step with 3%Z; [tauto|]. apply path_one. tauto.
Qed.

(** an edge still reported after one of its ends was removed *)
Definition stale : list (gop Z) := [AddE (zedge 1 2 UNDIRECTED); Remove 2].
Lemma c25_refuted : exists ops i e, In e (get_edges (graph_run zid (ops ++ [Remove i]))) /\ (zid (e_i e) = i \/ zid (e_j e) = i).
Proof. exists [AddE (zedge 1 2 UNDIRECTED)], 2%Z, (zedge 1 2 UNDIRECTED). vm_compute. auto. Qed.
