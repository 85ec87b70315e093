(** Changing a network object: what apply left in its nodes plays no part. *)
From Verif Require Import Py M_Graph M_Node M_Pptc Spec SpecNet SpecEv SpecRe SpecAgain L_Base L_PD L_Sums L_Table L_Tree L_Walk L_Forest L_Root L_Good L_Prop L_Init L_Post L_Read
  L_Ids L_Trans L_Elim L_UG L_Tri L_Moral L_Build L_Exact L_Apply L_Net L_Evid L_Hist L_Claims L_Shape L_Shown L_P1 L_Reapply L_Det L_Again.
Open Scope nat_scope.

Definition cln (l : list (Z * bnode)) : list (Z * bnode) := map (fun p => (fst p, clear (snd p))) l.
Definition cle (l : list (string * edge bnode)) := map (fun p => (fst p, clear_edge (snd p))) l.
Definition same_cleared (b b' : bbn) : Prop :=
  cln (g_nodes (b_g b)) = cln (g_nodes (b_g b')) /\ cle (g_edges (b_g b)) = cle (g_edges (b_g b')) /\ g_emap (b_g b) = g_emap (b_g b') /\ g_nbrs (b_g b) = g_nbrs (b_g b') /\ b_parents b = b_parents b'.
Lemma cleared_iff b b' : cleared b = cleared b' <-> same_cleared b b'.
Proof.
  unfold cleared, same_cleared, cln, cle. split.
  - intros E. inversion E. auto.
  - intros [E1 [E2 [E3 [E4 E5]]]]. rewrite E1, E2, E3, E4, E5. reflexivity.
Qed.
Lemma map_dset {K V W} `{EqB K} (f : V -> W) (d : list (K * V)) k v : map (fun p => (fst p, f (snd p))) (dset d k v) = dset (map (fun p => (fst p, f (snd p))) d) k (f v).
Proof. induction d as [|[a x] d IH]; simpl; auto. destruct (eqb k a); simpl; [reflexivity|]. rewrite IH. reflexivity. Qed.
Lemma cln_mem l k : dmem (cln l) k = dmem l k.
Proof. unfold dmem, cln. induction l as [|[a x] l IH]; simpl; auto. destruct (Z.eqb k a); auto. Qed.

Lemma add_node_same b b' n : same_cleared b b' -> same_cleared (bbn_add_node b n) (bbn_add_node b' n).
Proof.
  intros [E1 [E2 [E3 [E4 E5]]]]. unfold bbn_add_node, add_node. rewrite <- (cln_mem (g_nodes (b_g b))), <- (cln_mem (g_nodes (b_g b'))), E1. destruct (dmem _ _).
  - repeat split; auto.
  - repeat split; auto. simpl. unfold cln. rewrite !map_dset. fold (cln (g_nodes (b_g b))). fold (cln (g_nodes (b_g b'))). rewrite E1. reflexivity.
Qed.
Lemma step_same b b' op : same_cleared b b' -> same_cleared (bstep b op) (bstep b' op).
Proof.
  intros H. destruct op as [n|i j]; [apply add_node_same; auto|]. simpl. unfold bbn_add_edge. cbn [e_i e_j].
  change (add_ends n_id (b_g b) (mkEdge i j DIRECTED)) with (b_g (bbn_add_node (bbn_add_node b i) j)). change (add_ends n_id (b_g b') (mkEdge i j DIRECTED)) with (b_g (bbn_add_node (bbn_add_node b' i) j)).
  pose proof (add_node_same _ _ j (add_node_same _ _ i H)) as [E1 [E2 [E3 [E4 E5]]]]. set (c := bbn_add_node (bbn_add_node b i) j) in *. set (c' := bbn_add_node (bbn_add_node b' i) j) in *.
  change (b_parents b) with (b_parents c). change (b_parents b') with (b_parents c'). unfold put_edge. split; [exact E1|]. split; [|cbn [b_g b_parents g_emap g_nbrs e_t e_i e_j]; rewrite E3, E4, E5; auto].
  etransitivity; [apply map_dset|]. etransitivity; [|symmetry; apply map_dset]. f_equal. exact E2.
Qed.
Lemma assign_same b b' cpts : same_cleared b b' -> same_cleared (assign b cpts) (assign b' cpts).
Proof.
  intros [E1 [E2 [E3 [E4 E5]]]]. repeat split; auto. unfold assign. simpl. revert E1. generalize (g_nodes (b_g b)) (g_nodes (b_g b')). clear.
  induction l as [|[k n] l IH]; intros [|[k' n'] l'] E; try discriminate; [reflexivity|]. unfold cln in E. cbn [map fst snd] in E. injection E as E1 E2 E3 E4 E5 E6. subst k'.
  unfold cln. cbn [map fst snd]. f_equal; [|apply IH; exact E6]. destruct (dget cpts k); cbn [fst snd]; unfold clear, new_node; simpl; congruence.
Qed.
Lemma changed_same cs : forall b b', same_cleared b b' -> same_cleared (changed b cs) (changed b' cs).
Proof.
  induction cs as [|c cs IH]; intros b b' H; simpl; auto. apply IH. destruct c as [op|cpts]; simpl; [apply step_same|apply assign_same]; auto.
Qed.

Theorem c42_changed ops o b j cs : well_shaped ops -> ord_ok o -> apply o (build ops) = Ok (b, j) -> cleared (changed b cs) = cleared (changed (build ops) cs).
Proof.
  intros HW Ho A. apply cleared_iff, changed_same. pose proof (net_shape ops HW) as HN. pose proof (build_good ops) as HB. rewrite apply_compile in A.
  destruct (compile o (build ops)) as [j0|] eqn:C; cbn [rbind] in A; [|discriminate]. destruct (infer o j0) as [j1|] eqn:I; cbn [rbind] in A; [|discriminate]. inversion A; subst. clear A.
  pose proof (apply_good _ _ _ _ _ _ HN HB Ho C I) as G. repeat split. simpl.
  pose proof (bg_ids _ _ _ G) as G1. pose proof (bg_ids _ _ _ HB) as B1. pose proof (bg_node _ _ _ G) as G2. pose proof (bg_node _ _ _ HB) as B2. unfold ids in *. cbn [b_g shared set_graph_nodes g_nodes] in G1, G2. rewrite <- B1 in G1.
  revert G1 G2 B2. generalize (g_nodes (b_g (build ops))) as m. generalize (jt_heap j1) as l. clear. induction l as [|[k n] l IH]; intros [|[k' n'] l'] E H1 H2; try discriminate; [reflexivity|].
  cbn [dkeys map fst] in E. injection E as E1 E2. subst k'. unfold cln. cbn [map fst snd]. f_equal.
  - destruct (H1 k n (or_introl eq_refl)) as [A1 [A2 [A3 A4]]]. destruct (H2 k n' (or_introl eq_refl)) as [B1 [B2 [B3 B4]]]. unfold clear. congruence.
  - apply IH; [exact E2|intros; apply H1; right; assumption|intros; apply H2; right; assumption].
Qed.

Theorem c42_again ops o o' : well_shaped ops -> connected ops -> ord_ok o -> ord_ok o' ->
  exists b j b' j' t t', apply o (build ops) = Ok (b, j) /\ get_posteriors j = Ok t /\ apply o' b = Ok (b', j') /\ get_posteriors j' = Ok t' /\
    exact_table (net_of ops) (net_name ops) no_evidence t /\ exact_table (net_of ops) (net_name ops) no_evidence t'.
Proof.
  intros HW Hc Ho Ho'. destruct (c42_turns ops o [] HW Hc Ho I) as [b [j [t [A1 [A2 A3]]]]]. unfold turns in A1. cbn [foldM] in A1. destruct (apply o (build ops)) as [[b0 j0]|] eqn:A0; cbn [rbind] in A1; [|discriminate]. inversion A1; subst b0 j0.
  destruct (c42_turns ops o [Reapply o' []] HW Hc Ho) as [b' [j' [t' [B1 [B2 B3]]]]]. { split; [|exact I]. split; [exact Ho'|]. split; [constructor|intros i c []]. }
  unfold turns in B1. rewrite A0 in B1. cbn [rbind foldM do_turn fst] in B1. assert (Eb : assign b [] = b). { unfold assign. destruct b as [[n e m x] p]. cbn. f_equal. unfold set_graph_nodes. cbn. f_equal. rewrite <- (map_id n) at 2. reflexivity. }
  rewrite Eb in B1. destruct (apply o' b) as [[b1 j1]|] eqn:E1; cbn [rbind] in B1; [|discriminate]. inversion B1; subst. exists b, j, b', j', t, t'. split; [reflexivity|]. split; [exact A2|]. split; [exact E1|]. split; [exact B2|]. split; [exact A3|exact B3].
Qed.
