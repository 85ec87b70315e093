(** Undirected graphs as kept by Graph.add_node, add_edge and remove_node. *)
From Verif Require Import Py M_Graph Spec L_Base L_PD.

Section UG.
  Context {N : Type} (nid : N -> Z).
  Notation graph := (graph N).

  Definition adj (g : graph) (x y : Z) : Prop := In y (get_neighbors g x).
  Definition ids (g : graph) : list Z := dkeys (g_nodes g).

  Record ug (g : graph) : Prop := {
    ug_keys : NoDup (ids g);
    ug_kid : forall k n, In (k, n) (g_nodes g) -> nid n = k;
    ug_sym : forall x y, adj g x y -> adj g y x;
    ug_irr : forall x, ~ adj g x x;
    ug_in : forall x y, adj g x y -> In x (ids g);
    ug_nd : forall x, NoDup (get_neighbors g x);
    ug_em : forall x y, In y (emap g x) <-> adj g x y }.

  Lemma ug_in2 g x y : ug g -> adj g x y -> In y (ids g).
  Proof. intros U H. eapply ug_in; eauto. apply ug_sym; eauto. Qed.

  Lemma ug_empty : ug g_empty.
  Proof. constructor; simpl; try tauto; try (intros; constructor). Qed.

  Lemma add_node_ids g n k : In k (ids (add_node nid g n)) <-> In k (ids g) \/ k = nid n.
  Proof.
    unfold add_node, ids. destruct (dmem (g_nodes g) (nid n)) eqn:E; simpl.
    - apply dmem_In in E. split; auto. intros [Hq|Hq]; subst; auto.
    - rewrite dkeys_dset_In. tauto.
  Qed.
  Lemma add_node_in g n : In (nid n) (ids g) -> add_node nid g n = g.
  Proof. intros H. unfold add_node. apply dmem_In in H. unfold ids in *. rewrite H. auto. Qed.
  Lemma add_node_new g n : ~ In (nid n) (ids g) -> add_node nid g n = mkGraph (g_nodes g ++ [(nid n, n)]) (g_edges g) (g_emap g) (g_nbrs g).
  Proof. intros H. unfold add_node. unfold ids in *. rewrite (proj2 (dmem_false _ _) H). rewrite dkeys_dset_notin; auto. Qed.
  Lemma add_node_adj g n x y : adj (add_node nid g n) x y <-> adj g x y.
  Proof. unfold add_node. destruct (dmem _ _); reflexivity. Qed.
  Lemma add_node_emap g n x : emap (add_node nid g n) x = emap g x.
  Proof. unfold add_node. destruct (dmem _ _); reflexivity. Qed.

  Lemma add_node_nodes_ok g n : NoDup (ids g) -> (forall k m, In (k, m) (g_nodes g) -> nid m = k) ->
    NoDup (ids (add_node nid g n)) /\ (forall k m, In (k, m) (g_nodes (add_node nid g n)) -> nid m = k).
  Proof.
    intros H1 H2. destruct (in_dec Z.eq_dec (nid n) (ids g)) as [Hi|Hi].
    - rewrite add_node_in; auto.
    - rewrite add_node_new by auto. unfold ids in *. simpl. unfold dkeys in *. rewrite map_app. simpl. split.
      + apply NoDup_Add with (a := nid n) (l := map fst (g_nodes g)).
        * apply Add_app with (l2 := []) (l1 := map fst (g_nodes g)) (a := nid n) || (rewrite <- (app_nil_r (map fst (g_nodes g))) at 1; apply Add_app).
        * auto.
      + intros k m Hm. apply in_app_or in Hm. destruct Hm as [Hm|[E|[]]]; eauto. inv E; auto.
  Qed.

  Lemma ug_add_node g n : ug g -> ug (add_node nid g n).
  Proof.
    intros U. destruct (add_node_nodes_ok g n (ug_keys _ U) (ug_kid _ U)) as [H1 H2]. constructor; auto.
    - intros x y. rewrite !add_node_adj. apply (ug_sym _ U).
    - intros x. rewrite add_node_adj. apply (ug_irr _ U).
    - intros x y. rewrite add_node_adj, add_node_ids. intros H. left. eapply ug_in; eauto.
    - intros x. unfold get_neighbors, add_node. destruct (dmem _ _); apply (ug_nd _ U).
    - intros x y. rewrite add_node_adj, add_node_emap. apply (ug_em _ U).
  Qed.

  Lemma dsadd_gets d k x k' y : In y (dgets (dsadd d k x) k') <-> In y (dgets d k') \/ (k' = k /\ y = x).
  Proof.
    unfold dsadd. rewrite dgets_dset. destruct (eqb_spec k' k) as [->|Hn].
    - rewrite sadd_In. tauto.
    - intuition congruence.
  Qed.
  Lemma dsadd_NoDup d k x k' : NoDup (dgets d k') -> NoDup (dgets (dsadd d k x) k').
  Proof. intros H. unfold dsadd. rewrite dgets_dset. destruct (eqb_spec k' k) as [->|Hn]; auto. apply sadd_NoDup; auto. Qed.

  Definition link (e : edge N) (x y : Z) : Prop :=
    nid (e_i e) <> nid (e_j e) /\ ((x = nid (e_i e) /\ y = nid (e_j e)) \/ (x = nid (e_j e) /\ y = nid (e_i e))).

  Section Add.
    Context (g : graph) (e : edge N) (U : ug g) (Ht : e_t e = UNDIRECTED).

    Lemma add_edge_ids k : In k (ids (add_edge nid g e)) <-> In k (ids g) \/ k = nid (e_i e) \/ k = nid (e_j e).
    Proof.
      assert (E : ids (add_edge nid g e) = ids (add_ends nid g e)) by (unfold add_edge; destruct (shouldadd _ _ _); reflexivity).
      rewrite E. unfold add_ends. rewrite !add_node_ids. tauto.
    Qed.
    Lemma add_edge_nodes : In (nid (e_i e)) (ids g) -> In (nid (e_j e)) (ids g) -> g_nodes (add_edge nid g e) = g_nodes g.
    Proof.
      intros Hi Hj. assert (E : g_nodes (add_edge nid g e) = g_nodes (add_ends nid g e)) by (unfold add_edge; destruct (shouldadd _ _ _); reflexivity).
      rewrite E. unfold add_ends. rewrite add_node_in by (rewrite add_node_ids; auto). rewrite add_node_in; auto.
    Qed.
    Lemma add_ends_adj x y : adj (add_ends nid g e) x y <-> adj g x y.
    Proof. unfold add_ends. rewrite !add_node_adj. reflexivity. Qed.

    Lemma add_edge_adj x y : adj (add_edge nid g e) x y <-> adj g x y \/ link e x y.
    Proof using U Ht.
      unfold add_edge. set (g1 := add_ends nid g e). assert (U1 : ug g1) by (apply ug_add_node, ug_add_node; auto).
      assert (Ha : adj g x y <-> adj g1 x y) by (unfold g1; rewrite add_ends_adj; reflexivity). rewrite Ha. clear Ha.
      unfold shouldadd. rewrite Ht. unfold link. destruct (Z.eqb_spec (nid (e_i e)) (nid (e_j e))) as [E|E]. { tauto. }
      destruct (mem_spec (nid (e_i e)) (emap g1 (nid (e_j e)))) as [M1|M1].
      - apply (ug_em _ U1) in M1. rewrite (proj2 (mem_In _ _)) by (apply (ug_em _ U1), (ug_sym _ U1); auto). simpl. split; auto.
        intros [H|[_ [[-> ->]|[-> ->]]]]; auto. apply (ug_sym _ U1); auto.
      - simpl. unfold adj, get_neighbors, put_edge. simpl. rewrite !dsadd_gets. tauto.
    Qed.

    Lemma ug_add_edge : ug (add_edge nid g e).
    Proof using U Ht.
      unfold add_edge. set (g1 := add_ends nid g e). assert (U1 : ug g1) by (apply ug_add_node, ug_add_node; auto).
      destruct (shouldadd nid g1 e) eqn:Es; auto.
      assert (Hn : nid (e_i e) <> nid (e_j e)). { unfold shouldadd in Es. destruct (Z.eqb_spec (nid (e_i e)) (nid (e_j e))); auto. discriminate. }
      assert (A : forall x y, adj (put_edge nid g1 e) x y <-> adj g1 x y \/ link e x y).
      { intros x y. unfold adj, get_neighbors, put_edge, link. simpl. rewrite !dsadd_gets. tauto. }
      assert (I1 : forall k, In k (ids g) \/ k = nid (e_i e) \/ k = nid (e_j e) -> In k (ids g1)).
      { intros k Hk. unfold g1, add_ends. rewrite !add_node_ids. tauto. }
      constructor.
      - apply (ug_keys _ U1).
      - apply (ug_kid _ U1).
      - intros x y. rewrite !A. intros [H|[H1 [[H2 H3]|[H2 H3]]]]; [left; apply (ug_sym _ U1); auto| |]; right; split; auto.
      - intros x. rewrite A. intros [H|[H1 H2]]; [apply (ug_irr _ U1 x); auto|]. destruct H2 as [[-> H2]|[-> H2]]; congruence.
      - intros x y. rewrite A. intros [H|[H1 H2]]; [apply (ug_in _ U1 x y); auto|]. change (In x (ids g1)). apply I1. destruct H2 as [[-> _]|[-> _]]; auto.
      - intros x. unfold get_neighbors, put_edge. simpl. apply dsadd_NoDup, dsadd_NoDup. apply (ug_nd _ U1).
      - intros x y. rewrite A. unfold emap, put_edge. simpl. rewrite Ht. rewrite !dsadd_gets. fold (emap g1 x). rewrite (ug_em _ U1). unfold link. tauto.
    Qed.
  End Add.

  Lemma fold_add_nodes ns : forall g, ug g -> let g' := fold_left (add_node nid) ns g in
    ug g' /\ (forall x y, adj g' x y <-> adj g x y) /\ (forall k, In k (ids g') <-> In k (ids g) \/ In k (map nid ns)).
  Proof.
    induction ns as [|n ns IH]; intros g U; simpl.
    - split; auto. split; [reflexivity|tauto].
    - destruct (IH (add_node nid g n) (ug_add_node _ _ U)) as [U' [A I]]. split; auto. split.
      + intros x y. rewrite A, add_node_adj. reflexivity.
      + intros k. rewrite I, add_node_ids. intuition congruence.
  Qed.

  Lemma fold_add_nodes_eq ns : forall g, NoDup (ids g ++ map nid ns) ->
    g_nodes (fold_left (add_node nid) ns g) = g_nodes g ++ map (fun n => (nid n, n)) ns.
  Proof.
    induction ns as [|n ns IH]; intros g HN; simpl. rewrite app_nil_r; auto.
    assert (Hn : ~ In (nid n) (ids g)). { simpl in HN. apply NoDup_remove_2 in HN. rewrite in_app_iff in HN. tauto. }
    rewrite IH; rewrite add_node_new by auto; simpl.
    - rewrite <- app_assoc. auto.
    - unfold ids, dkeys in *. simpl. rewrite map_app, <- app_assoc. auto.
  Qed.

  Lemma fold_add_edges es : forall g, ug g -> (forall e, In e es -> e_t e = UNDIRECTED) -> let g' := fold_left (add_edge nid) es g in
    ug g' /\ (forall x y, adj g' x y <-> adj g x y \/ exists e, In e es /\ link e x y) /\
    ((forall e, In e es -> In (nid (e_i e)) (ids g) /\ In (nid (e_j e)) (ids g)) -> g_nodes g' = g_nodes g).
  Proof.
    induction es as [|e es IH]; intros g U Ht; simpl.
    - split; auto. split; auto. intros x y. split; auto. intros [H|[e [[] _]]]; auto.
    - destruct (IH (add_edge nid g e)) as [U' [A I]]; [apply ug_add_edge; auto; apply Ht; left; auto|intros; apply Ht; right; auto|].
      split; auto. split.
      + intros x y. rewrite A, add_edge_adj by (auto; apply Ht; left; auto). split.
        * intros [[H|H]|[e' [H1 H2]]]; auto. right. exists e; auto. right. exists e'; auto.
        * intros [H|[e' [[<-|H1] H2]]]; auto. right. exists e'; auto.
      + intros H. destruct (H e (or_introl eq_refl)) as [H1 H2]. rewrite I; [apply add_edge_nodes; auto|].
        intros e' He'. rewrite !add_edge_ids by (auto; apply Ht; left; auto). destruct (H e' (or_intror He')); auto.
  Qed.

  Lemma dgets_map_srem (d : list (Z * list Z)) i k : dgets (map (fun p => (fst p, srem (snd p) i)) d) k = srem (dgets d k) i.
  Proof. unfold dgets. induction d as [|[k' l] d IH]; simpl; auto. destruct (Z.eqb k k'); auto. Qed.

  Lemma dgets_dpop (d : list (Z * list Z)) i k : dgets (dpop d i) k = if Z.eqb k i then [] else dgets d k.
  Proof. unfold dgets. rewrite dget_dpop. change (eqb k i) with (Z.eqb k i). destruct (Z.eqb k i); auto. Qed.

  Lemma remove_adj g i x y : adj (remove_node g i) x y <-> adj g x y /\ x <> i /\ y <> i.
  Proof.
    unfold adj, get_neighbors, remove_node. simpl. rewrite dgets_map_srem, dgets_dpop. destruct (Z.eqb_spec x i); rewrite srem_In; simpl; tauto.
  Qed.
  Lemma remove_ids g i k : In k (ids (remove_node g i)) <-> In k (ids g) /\ k <> i.
  Proof. unfold ids, remove_node. simpl. apply dkeys_dpop_In. Qed.

  Lemma ug_remove g i : ug g -> ug (remove_node g i).
  Proof.
    intros U. constructor.
    - apply dpop_NoDup. apply (ug_keys _ U).
    - intros k n Hi. apply filter_In in Hi. apply (ug_kid _ U). tauto.
    - intros x y. rewrite !remove_adj. intros [H1 H2]. split; [apply (ug_sym _ U); auto|tauto].
    - intros x. rewrite remove_adj. intros [H _]. apply (ug_irr _ U x H).
    - intros x y. rewrite remove_adj, remove_ids. intros [H1 [H2 _]]. split; auto. eapply ug_in; eauto.
    - intros x. unfold get_neighbors, remove_node. simpl. rewrite dgets_map_srem, dgets_dpop. destruct (Z.eqb x i); apply srem_NoDup. constructor. apply (ug_nd _ U).
    - intros x y. rewrite remove_adj. unfold emap, remove_node. simpl. rewrite dgets_map_srem, dgets_dpop. destruct (Z.eqb_spec x i); rewrite srem_In; simpl; [tauto|].
      fold (emap g x). rewrite (ug_em _ U). tauto.
  Qed.

  Lemma dmem_gets (d : list (Z * list Z)) k x : In x (dgets d k) -> dmem d k = true.
  Proof. unfold dgets, dmem. destruct (dget d k); auto. Qed.

  Lemma edge_exists_adj g i j : ug g -> edge_exists g i j = true <-> adj g i j.
  Proof.
    intros U. unfold edge_exists. rewrite orb_true_iff, !andb_true_iff, !mem_In. rewrite !(ug_em _ U). split.
    - intros [[_ H]|[_ H]]; auto. apply (ug_sym _ U); auto.
    - intros H. left. split; auto. apply (ug_em _ U) in H. eapply dmem_gets; eauto.
  Qed.

  Lemma get_node_ok g i : ug g -> In i (ids g) -> exists n, get_node g i = Ok n /\ nid n = i.
  Proof.
    intros U H. unfold get_node, ids in *. apply dkeys_dget in H. destruct H as [n En]. exists n. split. apply dgetE_Ok; auto. apply dget_In in En. eapply ug_kid; eauto.
  Qed.
  Lemma get_nodes_ok g l : ug g -> incl l (ids g) -> exists ns, mapM (get_node g) l = Ok ns /\ map nid ns = l.
  Proof.
    intros U. induction l as [|i l IH]; intros Hi; simpl. exists []; auto.
    destruct (get_node_ok g i U) as [n [-> En]]; [apply Hi; left; auto|]. destruct IH as [ns [-> Ens]]; [intros x Hx; apply Hi; right; auto|].
    exists (n :: ns). simpl. split; auto. congruence.
  Qed.
  Lemma get_nodes_ids g : ug g -> map nid (get_nodes g) = ids g.
  Proof. intros U. unfold get_nodes, dvals, ids, dkeys. rewrite map_map. apply map_ext_in. intros [k n] Hi. simpl. eapply ug_kid; eauto. Qed.
End UG.
