(** Graph bookkeeping, acyclicity of Dag and Pdag, and path detection. *)
From Verif Require Import Py M_Graph Spec SpecGraph L_Base L_PD L_Ids L_UG L_Moral.

Lemma path_add {K} (R S : K -> K -> Prop) p c x y : (forall a b, S a b -> R a b \/ (a = p /\ b = c)) ->
  path S x y -> path R x y \/ (path R x p /\ path S c y).
Proof.
  intros H. induction 1 as [x|x z y HR HP IH]. left; constructor.
  destruct (H _ _ HR) as [HR'|[-> ->]].
  - destruct IH as [IH|[I1 I2]]; [left; econstructor; eauto|]. right. split; auto. econstructor; eauto.
  - right. split; auto. constructor.
Qed.
(** adding one arc that closes no cycle *)
Lemma acyclic_add {K} (R S : K -> K -> Prop) p c : (forall a b, S a b -> R a b \/ (a = p /\ b = c)) ->
  acyclic R -> ~ path R c p -> acyclic S.
Proof.
  intros H HA Hn x y HR HP.
  assert (C : forall a b, path S a b -> path R a b \/ (path R a p /\ path R c b)).
  { intros a b Hp. induction Hp as [a|a z b HR' HP' IH]. left; constructor.
    destruct (H _ _ HR') as [HR''|[-> ->]].
    - destruct IH as [IH|[I1 I2]]; [left; econstructor; eauto|]. right. split; auto. econstructor; eauto.
    - destruct IH as [IH|[I1 I2]]; right; split; auto; constructor. }
  destruct (H _ _ HR) as [HR'|[-> ->]]; destruct (C _ _ HP) as [Q|[Q1 Q2]]; auto.
  - eapply HA; eauto.
  - apply Hn. eapply path_trans; [exact Q2|]. econstructor; eauto.
Qed.

Section G.
  Context {N : Type} (nid : N -> Z).
  Notation graph := (graph N).

  Lemma put_emap g e x y : In y (emap (put_edge nid g e) x) <-> In y (emap g x) \/ leads nid e x y.
  Proof.
    unfold emap, put_edge, leads. destruct (e_t e); simpl; rewrite !dsadd_gets; intuition congruence.
  Qed.
  Lemma put_nbrs g e x y : In y (get_neighbors (put_edge nid g e) x) <-> In y (get_neighbors g x) \/ ends_at nid e x y.
  Proof. unfold get_neighbors, put_edge, ends_at. simpl. rewrite !dsadd_gets. intuition congruence. Qed.
  Lemma ends_emap g e x : emap (add_ends nid g e) x = emap g x.
  Proof. unfold add_ends. rewrite !add_node_emap. auto. Qed.
  Lemma ends_nbrs g e x : get_neighbors (add_ends nid g e) x = get_neighbors g x.
  Proof. unfold add_ends, add_node. repeat (destruct (dmem _ _); simpl); reflexivity. Qed.
  Lemma rm_emap (g : graph) i x y : In y (emap (remove_node g i) x) <-> In y (emap g x) /\ x <> i /\ y <> i.
  Proof. unfold emap, remove_node. simpl. rewrite dgets_map_srem, dgets_dpop. destruct (Z.eqb_spec x i); rewrite srem_In; simpl; tauto. Qed.
  Lemma rm_nbrs (g : graph) i x y : In y (get_neighbors (remove_node g i) x) <-> In y (get_neighbors g x) /\ x <> i /\ y <> i.
  Proof. apply remove_adj. Qed.

  (** what holds of every graph, whatever the rule that accepts edges *)
  Record ginv (g : graph) : Prop := {
    gi_keys : NoDup (ids g);
    gi_kid : forall k n, In (k, n) (g_nodes g) -> nid n = k;
    gi_nb : forall x y, In y (get_neighbors g x) <-> In y (emap g x) \/ In x (emap g y);
    gi_in : forall x y, In y (emap g x) -> In x (ids g) /\ In y (ids g);
    gi_irr : forall x, ~ In x (emap g x) }.

  Lemma ginv_empty : ginv g_empty.
  Proof. constructor; simpl; try tauto; constructor. Qed.
  Lemma ginv_node g n : ginv g -> ginv (add_node nid g n).
  Proof.
    intros G. destruct (add_node_nodes_ok nid g n (gi_keys _ G) (gi_kid _ G)) as [H1 H2]. constructor; auto.
    - intros x y. rewrite !add_node_emap. rewrite <- (gi_nb _ G). apply add_node_adj.
    - intros x y. rewrite add_node_emap, !add_node_ids. intros H. apply (gi_in _ G) in H. tauto.
    - intros x. rewrite add_node_emap. apply (gi_irr _ G).
  Qed.
  Lemma ginv_ends g e : ginv g -> ginv (add_ends nid g e).
  Proof. intros. apply ginv_node, ginv_node; auto. Qed.
  Lemma ends_ids g e k : In k (ids (add_ends nid g e)) <-> In k (ids g) \/ k = nid (e_i e) \/ k = nid (e_j e).
  Proof. unfold add_ends. rewrite !add_node_ids. tauto. Qed.
  Lemma ginv_put g e : ginv g -> nid (e_i e) <> nid (e_j e) -> ginv (put_edge nid (add_ends nid g e) e).
  Proof.
    intros G Hn. pose proof (ginv_ends g e G) as G1. constructor.
    - apply (gi_keys _ G1).
    - apply (gi_kid _ G1).
    - intros x y. rewrite put_nbrs, !put_emap, (gi_nb _ G1). unfold ends_at, leads. destruct (e_t e); intuition congruence.
    - intros x y. rewrite put_emap. change (ids (put_edge nid (add_ends nid g e) e)) with (ids (add_ends nid g e)).
      intros [H|H]; [apply (gi_in _ G1); auto|]. rewrite !ends_ids. destruct H as [[<- <-]|[_ [<- <-]]]; auto.
    - intros x. rewrite put_emap. intros [H|H]; [eapply gi_irr; eauto|]. destruct H as [[<- H]|[_ [<- H]]]; congruence.
  Qed.
  Lemma ginv_remove g i : ginv g -> ginv (remove_node g i).
  Proof.
    intros G. constructor.
    - apply dpop_NoDup. apply (gi_keys _ G).
    - intros k n Hi. apply filter_In in Hi. apply (gi_kid _ G). tauto.
    - intros x y. rewrite rm_nbrs, !rm_emap, (gi_nb _ G). tauto.
    - intros x y. rewrite rm_emap, !remove_ids. intros [H1 [H2 H3]]. apply (gi_in _ G) in H1. tauto.
    - intros x. rewrite rm_emap. intros [H _]. eapply gi_irr; eauto.
  Qed.

  (** ** Graph *)
  Lemma ginv_add g e : ginv g -> ginv (add_edge nid g e).
  Proof.
    intros G. unfold add_edge. destruct (shouldadd nid (add_ends nid g e) e) eqn:Es; [|apply ginv_ends; auto].
    apply ginv_put; auto. unfold shouldadd in Es. destruct (Z.eqb_spec (nid (e_i e)) (nid (e_j e))); auto. discriminate.
  Qed.
  Lemma ginv_step g op : ginv g -> ginv (graph_step nid g op).
  Proof. destruct op; simpl; auto using ginv_node, ginv_add, ginv_remove. Qed.
  Lemma ginv_run ops : ginv (graph_run nid ops).
  Proof. unfold graph_run. rewrite <- fold_left_rev_right. induction (rev ops); simpl; auto using ginv_empty, ginv_step. Qed.

  Lemma run_snoc ops op : graph_run nid (ops ++ [op]) = graph_step nid (graph_run nid ops) op.
  Proof. unfold graph_run. rewrite fold_left_app. auto. Qed.

  Lemma add_emap g e x y : ginv g -> In y (emap (add_edge nid g e) x) <-> In y (emap g x) \/ (x <> y /\ leads nid e x y).
  Proof.
    intros G. unfold add_edge. destruct (shouldadd nid (add_ends nid g e) e) eqn:Es.
    - assert (Hn : nid (e_i e) <> nid (e_j e)). { unfold shouldadd in Es. destruct (Z.eqb_spec (nid (e_i e)) (nid (e_j e))); auto. discriminate. }
      rewrite put_emap, ends_emap. unfold leads. intuition congruence.
    - rewrite ends_emap. split; auto. intros [H|[Hn H]]; auto. unfold shouldadd in Es.
      destruct (Z.eqb_spec (nid (e_i e)) (nid (e_j e))) as [E|E]; [exfalso; destruct H as [[<- <-]|[_ [<- <-]]]; congruence|].
      rewrite !ends_emap in Es. unfold leads in H. destruct (e_t e).
      + apply orb_false_iff in Es. destruct Es as [E1 E2]. apply negb_false_iff in E1, E2. apply mem_In in E1, E2.
        destruct H as [[<- <-]|[_ [<- <-]]]; auto.
      + apply negb_false_iff, mem_In in Es. destruct H as [[<- <-]|[H _]]; [auto|discriminate].
  Qed.

  Lemma split_snoc {A} (l : list A) x l1 y l2 : l ++ [x] = l1 ++ y :: l2 <->
    (l2 = [] /\ l = l1 /\ x = y) \/ exists l2', l2 = l2' ++ [x] /\ l = l1 ++ y :: l2'.
  Proof.
    split.
    - intros E. destruct l2 as [|z l2] using rev_ind.
      + left. apply app_inj_tail in E. tauto.
      + right. exists l2. rewrite app_comm_cons, app_assoc in E. apply app_inj_tail in E. destruct E as [-> ->]. auto.
    - intros [[-> [-> ->]]|[l2' [-> ->]]]; auto. rewrite <- app_assoc. auto.
  Qed.
  Section Last.
    Context (lk : edge N -> Z -> Z -> Prop).
    Definition lastly (ops : list (gop N)) (x y : Z) : Prop :=
      x <> y /\ exists before e after, ops = before ++ AddE e :: after /\ lk e x y /\ ~ In (Remove x) after /\ ~ In (Remove y) after.
    Lemma lastly_snoc ops op x y : lastly (ops ++ [op]) x y <->
      match op with
      | AddN _ => lastly ops x y
      | AddE e => lastly ops x y \/ (x <> y /\ lk e x y)
      | Remove i => lastly ops x y /\ x <> i /\ y <> i
      end.
    Proof.
      unfold lastly. split.
      - intros [Hn [b [e [a [E [He [R1 R2]]]]]]]. apply split_snoc in E. destruct E as [[-> [-> ->]]|[a' [-> ->]]].
        + right. auto.
        + assert (R1' : ~ In (Remove x) a' /\ Remove x <> op). { split; intros H; apply R1; apply in_or_app; simpl; auto. }
          assert (R2' : ~ In (Remove y) a' /\ Remove y <> op). { split; intros H; apply R2; apply in_or_app; simpl; auto. }
          assert (B : x <> y /\ exists before e0 after, b ++ AddE e :: a' = before ++ AddE e0 :: after /\ lk e0 x y /\ ~ In (Remove x) after /\ ~ In (Remove y) after).
          { split; auto. exists b, e, a'. tauto. }
          destruct op; auto. split; auto. split; intros ->; [apply (proj2 R1')|apply (proj2 R2')]; auto.
      - assert (W : (forall i, op = Remove i -> x <> i /\ y <> i) -> lastly ops x y -> lastly (ops ++ [op]) x y).
        { unfold lastly. intros Ho [Hn [b [e [a [-> [He [R1 R2]]]]]]]. split; auto. exists b, e, (a ++ [op]). split. rewrite <- app_assoc; auto. split; auto.
          split; intros H; apply in_app_or in H; destruct H as [H|[->|[]]]; auto; destruct (Ho _ eq_refl); congruence. }
        unfold lastly in W. destruct op.
        + apply W. discriminate.
        + intros [H|[Hn H]]; [apply W; auto; discriminate|]. split; auto. exists ops, e, []. simpl. auto.
        + intros [H1 H2]. apply W; auto. intros i' E; inv E. auto.
    Qed.
  End Last.

  Lemma run_emap ops : forall x y, In y (emap (graph_run nid ops) x) <-> pointed nid ops x y.
  Proof.
    induction ops as [|op ops IH] using rev_ind; intros x y.
    - simpl. split; [intros []|]. intros [_ [b [e [a [E _]]]]]. destruct b; discriminate.
    - rewrite run_snoc. change (pointed nid (ops ++ [op]) x y) with (lastly (leads nid) (ops ++ [op]) x y). rewrite lastly_snoc.
      destruct op; change (lastly (leads nid) ops x y) with (pointed nid ops x y); rewrite <- IH; simpl.
      + rewrite add_node_emap. reflexivity.
      + rewrite add_emap by apply ginv_run. reflexivity.
      + apply rm_emap.
  Qed.
  Lemma run_nbrs ops x y : In y (get_neighbors (graph_run nid ops) x) <-> joined nid ops x y.
  Proof.
    rewrite (gi_nb _ (ginv_run ops)), !run_emap. split.
    - intros [[Hn [b [e [a [E [He R]]]]]]|[Hn [b [e [a [E [He R]]]]]]]; split; auto; exists b, e, a; split; auto; split; try tauto; unfold leads, ends_at in *; tauto.
    - intros [Hn [b [e [a [E [He R]]]]]]. destruct He as [He|He]; [left|right]; split; auto; exists b, e, a; split; auto; split; try tauto; unfold leads; tauto.
  Qed.

  Lemma add_node_dget g n k : dget (g_nodes (add_node nid g n)) k = keep nid k (dget (g_nodes g) k) n.
  Proof.
    unfold add_node, keep, dmem. destruct (dget (g_nodes g) (nid n)) eqn:E; simpl.
    - destruct (dget (g_nodes g) k) eqn:E'; auto. destruct (Z.eqb_spec (nid n) k); auto. congruence.
    - rewrite dget_dset. change (eqb k (nid n)) with (Z.eqb k (nid n)). rewrite Z.eqb_sym. destruct (Z.eqb_spec (nid n) k) as [<-|Hn].
      + rewrite E. auto.
      + destruct (dget (g_nodes g) k); auto.
  Qed.
  Lemma run_kept ops k : dget (g_nodes (graph_run nid ops)) k = kept nid ops k.
  Proof.
    unfold graph_run, kept. change (@None N) with (dget (g_nodes (@g_empty N)) k). generalize (@g_empty N) as g.
    induction ops as [|op ops IH]; intros g; simpl; auto. rewrite IH. destruct op; simpl.
    - rewrite add_node_dget. auto.
    - f_equal. transitivity (dget (g_nodes (add_ends nid g e)) k). { unfold add_edge. destruct (shouldadd _ _ _); auto. }
      unfold add_ends. rewrite !add_node_dget. auto.
    - f_equal. rewrite dget_dpop. change (eqb k i) with (Z.eqb k i). rewrite Z.eqb_sym. auto.
  Qed.

  (** reported edges *)
  Lemma key_joins e e' x y : edge_key nid e = edge_key nid e' -> ends_at nid e x y -> ends_at nid e' x y.
  Proof.
    unfold edge_key, ends_at. intros E H.
    assert (O : forall s, ends_ok (String "-" s)) by (intros s; right; eauto).
    destruct (e_t e), (e_t e'); simpl in E; destruct (str_prefix _ _ _ _ (O _) (O _) E) as [E1 E2]; inversion E2 as [E3]; apply str_of_Z_inj in E3; lia.
  Qed.

  Definition einv (g : graph) : Prop :=
    (forall e, In e (get_edges g) -> In (nid (e_j e)) (emap g (nid (e_i e)))) /\
    (forall x y, In y (get_neighbors g x) -> exists e, In e (get_edges g) /\ ends_at nid e x y).
  Lemma dset_vals {K V} `{EqB K} (d : list (K * V)) k v x : In x (dvals (dset d k v)) -> x = v \/ In x (dvals d).
  Proof.
    induction d as [|[k' v'] d IH]; simpl. intros [->|[]]; auto. destruct (eqb k k'); simpl; intros [->|H1]; auto. destruct (IH H1); auto.
  Qed.
  Lemma dset_vals_new {K V} `{EqB K} (d : list (K * V)) k v : In v (dvals (dset d k v)).
  Proof. induction d as [|[k' v'] d IH]; simpl; auto. destruct (eqb k k'); simpl; auto. Qed.
  Lemma dset_vals_old {K V} `{EqB K} (d : list (K * V)) k v x : In x (dvals d) -> In x (dvals (dset d k v)) \/ In (k, x) d.
  Proof.
    induction d as [|[k' v'] d IH]; simpl; [tauto|]. destruct (eqb_spec k k') as [<-|Hn]; simpl.
    - intros [->|H1]; auto.
    - intros [->|H1]; auto. destruct (IH H1); auto.
  Qed.
  Definition ekeyed (g : graph) : Prop := forall k e, In (k, e) (g_edges g) -> k = edge_key nid e.
  Lemma dset_In_weak {K V} `{EqB K} (d : list (K * V)) k v k' v' : In (k', v') (dset d k v) -> (k' = k /\ v' = v) \/ In (k', v') d.
  Proof.
    induction d as [|[k1 v1] d IH]; simpl. intros [E|[]]; inv E; auto. destruct (eqb_spec k k1) as [<-|Hn]; simpl; intros [E|H1]; auto.
    - inv E; auto.
    - destruct (IH H1); auto.
  Qed.
  Lemma ekeyed_put g e : ekeyed g -> ekeyed (put_edge nid g e).
  Proof. intros K k e' Hi. simpl in Hi. apply dset_In_weak in Hi. destruct Hi as [[-> ->]|Hi]; auto. Qed.
  Lemma ekeyed_step g op : ekeyed g -> ekeyed (graph_step nid g op).
  Proof.
    assert (A : forall g n, ekeyed g -> ekeyed (add_node nid g n)). { intros g' n K k e. unfold add_node. destruct (dmem _ _); simpl; apply K. }
    intros K. destruct op; simpl; auto. unfold add_edge, add_ends. destruct (shouldadd _ _ _); auto using ekeyed_put.
  Qed.
  Lemma ekeyed_run ops : ekeyed (graph_run nid ops).
  Proof. unfold graph_run. rewrite <- fold_left_rev_right. induction (rev ops); simpl. intros k e []. apply ekeyed_step; auto. Qed.

  Lemma einv_add g e : ekeyed g -> ginv g -> einv g -> einv (add_edge nid g e).
  Proof.
    intros K G [E1 E2]. unfold add_edge. assert (Ge : get_edges (add_ends nid g e) = get_edges g) by (unfold get_edges, add_ends, add_node; repeat (destruct (dmem _ _); simpl); auto).
    assert (Gk : g_edges (add_ends nid g e) = g_edges g) by (unfold add_ends, add_node; repeat (destruct (dmem _ _); simpl); auto).
    destruct (shouldadd nid (add_ends nid g e) e) eqn:Es.
    - split.
      + intros e' Hi. unfold get_edges in Hi. simpl in Hi. rewrite Gk in Hi. apply dset_vals in Hi. rewrite put_emap, ends_emap. destruct Hi as [->|Hi]; [right; left; auto|left; auto].
      + intros x y. rewrite put_nbrs, ends_nbrs. intros [H|H].
        * apply E2 in H. destruct H as [e' [He' Hj]]. unfold get_edges. simpl. rewrite Gk. destruct (dset_vals_old (g_edges g) (edge_key nid e) e e' He') as [Q|Q]; eauto.
          exists e. split; [apply dset_vals_new|]. eapply key_joins; [|exact Hj]. symmetry. apply (K _ _ Q).
        * exists e. split; auto. unfold get_edges. simpl. apply dset_vals_new.
    - split.
      + intros e'. rewrite Ge, ends_emap. auto.
      + intros x y. rewrite Ge, ends_nbrs. auto.
  Qed.
  Lemma einv_run ops : no_removal ops -> einv (graph_run nid ops).
  Proof.
    induction ops as [|op ops IH] using rev_ind; intros H.
    - split; [intros e []|intros x y []].
    - assert (H' : no_removal ops) by (intros i Hi; apply (H i), in_or_app; auto). specialize (IH H'). rewrite run_snoc. destruct op; simpl.
      + destruct IH as [E1 E2]. unfold add_node. destruct (dmem _ _); [split; auto|]. split; [apply E1|apply E2].
      + apply einv_add; auto using ekeyed_run, ginv_run.
      + exfalso. apply (H i), in_or_app. simpl. auto.
  Qed.
  Lemma run_edges ops x y : no_removal ops ->
    (In y (get_neighbors (graph_run nid ops) x) <-> exists e, In e (get_edges (graph_run nid ops)) /\ ends_at nid e x y).
  Proof.
    intros H. destruct (einv_run ops H) as [E1 E2]. split; auto. intros [e [He Hj]]. apply E1 in He. rewrite (gi_nb _ (ginv_run ops)). destruct Hj as [[<- <-]|[<- <-]]; auto.
  Qed.

  Lemma c25 : forall ops, let g := graph_run nid ops in
    (forall x y, In y (get_neighbors g x) <-> joined nid ops x y) /\
    (forall x y, In y (emap g x) <-> pointed nid ops x y) /\
    (forall x y, In y (get_neighbors g x) -> In x (get_neighbors g y) /\ x <> y /\ (exists n, get_node g x = Ok n /\ nid n = x) /\ exists n, get_node g y = Ok n /\ nid n = y) /\
    (forall x y, edge_exists g x y = true <-> joined nid ops x y) /\
    (forall k, get_node g k = match kept nid ops k with Some n => Ok n | None => Err KeyError end).
  Proof.
    intros ops g. pose proof (ginv_run ops : ginv g) as G. split; [apply run_nbrs|]. split; [apply run_emap|]. split; [|split].
    - intros x y H. apply (gi_nb _ G) in H. split; [apply (gi_nb _ G); tauto|].
      assert (A : forall k, In k (ids g) -> exists n, get_node g k = Ok n /\ nid n = k).
      { intros k Hk. unfold get_node, ids in *. apply dkeys_dget in Hk. destruct Hk as [n En]. exists n. split. apply dgetE_Ok; auto. apply dget_In in En. eapply gi_kid; eauto. }
      split. { intros <-. destruct H; eapply gi_irr; eauto. }
      destruct H as [H|H]; apply (gi_in _ G) in H; split; apply A; tauto.
    - intros x y. rewrite <- run_nbrs. fold g. rewrite (gi_nb _ G). unfold edge_exists. rewrite orb_true_iff, !andb_true_iff, !mem_In. split.
      + tauto.
      + intros [H|H]; [left|right]; split; auto; eapply dmem_gets; eauto.
    - intros k. unfold get_node, dgetE. rewrite <- run_kept. reflexivity.
  Qed.

  (** ** Dag and Pdag *)
  Definition nb_ok (g : graph) : Prop := forall x y, In y (get_neighbors g x) <-> In y (emap g x) \/ In x (emap g y).
  Lemma fuel_ok (g : graph) (adj : Z -> list Z) stop start f : nb_ok g -> (forall x y, In y (adj x) -> In y (get_neighbors g x)) ->
    g_fuel g <= f -> exists b, pd_exists adj stop f start = Ok b /\ (b = true <-> path (fun x y => In y (adj x)) start stop).
  Proof.
    intros G Ha Hf. destruct (pd_exists_fuel adj stop (start :: dkeys (g_nbrs g))) with (f := f) (start := start) as [b E].
    - intros x y _ Hy. right. apply Ha in Hy. apply G in Hy.
      assert (Hx : In x (get_neighbors g y)) by (apply G; tauto). apply dmem_In. eapply dmem_gets; eauto.
    - left; auto.
    - unfold g_fuel in Hf. simpl. unfold dkeys. rewrite map_length. lia.
    - exists b. split; auto. apply pd_exists_spec in E. exact E.
  Qed.
  Lemma path_iff {K} (R S : K -> K -> Prop) x y : (forall a b, R a b <-> S a b) -> path R x y <-> path S x y.
  Proof. intros H. split; apply path_mono; intros a b; apply H. Qed.
  Lemma children_ok (o : Ord) (g : graph) stop start f : ord_ok o -> nb_ok g -> g_fuel g <= f ->
    exists b, pd_exists (get_children o g) stop f start = Ok b /\ (b = true <-> path (arc g) start stop).
  Proof.
    intros Ho G Hf. destruct (fuel_ok g (get_children o g) stop start f) as [b [E S]]; auto.
    - intros x y H. unfold get_children in H. apply zord_In in H; auto. apply G. auto.
    - exists b. split; auto. rewrite S. apply path_iff. intros x y. unfold get_children, arc. apply zord_In; auto.
  Qed.
  Lemma get_parents_iff (g : graph) p i : In p (get_parents g i) <-> In i (emap g p).
  Proof. unfold get_parents. rewrite filter_In, mem_In. split; [tauto|]. intros H. split; auto. apply dmem_In. eapply dmem_gets; eauto. Qed.
  Lemma outs_In (o : Ord) (g : graph) x y : ord_ok o -> nb_ok g -> In y (get_out_nodes o g x) <-> directed g x y.
  Proof.
    intros Ho G. unfold get_out_nodes, directed, arc. rewrite filter_In, zord_In by auto. unfold nb_ok in G. rewrite G.
    destruct (mem_spec y (get_parents g x)) as [M|M]; rewrite get_parents_iff in M; simpl; intuition discriminate.
  Qed.
  Lemma outs_ok (o : Ord) (g : graph) stop start f : ord_ok o -> nb_ok g -> g_fuel g <= f ->
    exists b, pd_exists (get_out_nodes o g) stop f start = Ok b /\ (b = true <-> path (directed g) start stop).
  Proof.
    intros Ho G Hf. destruct (fuel_ok g (get_out_nodes o g) stop start f) as [b [E S]]; auto.
    - intros x y H. apply outs_In in H; auto. destruct H as [H _]. apply G. auto.
    - exists b. split; auto. rewrite S. apply path_iff. intros x y. apply outs_In; auto.
  Qed.

  Lemma path_dec_neg (b : bool) (P : Prop) : (b = true <-> P) -> b = false -> ~ P.
  Proof. intros H E HP. apply H in HP. congruence. Qed.

  Lemma dag_add o g e : ord_ok o -> ginv g ->
    exists g', dag_add_edge nid o g e = Ok g' /\ ginv g' /\ ids g' = ids (add_ends nid g e) /\
      ((admissible nid (arc g) e /\ forall x y, arc g' x y <-> arc g x y \/ (x = nid (e_i e) /\ y = nid (e_j e))) \/
       (~ admissible nid (arc g) e /\ forall x y, arc g' x y <-> arc g x y)).
  Proof.
    intros Ho G. unfold dag_add_edge, dag_shouldadd. pose proof (ginv_ends g e G) as G1. unfold admissible.
    assert (A : forall x y, arc (add_ends nid g e) x y <-> arc g x y). { intros x y. unfold arc. rewrite ends_emap. reflexivity. }
    assert (Rej : forall P, ~ P -> exists g', Ok (add_ends nid g e) = Ok g' /\ ginv g' /\ ids g' = ids (add_ends nid g e) /\
      ((P /\ forall x y, arc g' x y <-> arc g x y \/ (x = nid (e_i e) /\ y = nid (e_j e))) \/ (~ P /\ forall x y, arc g' x y <-> arc g x y))).
    { intros P HP. exists (add_ends nid g e). auto 7. }
    destruct (e_t e) eqn:Et; cbn [rbind]. { apply Rej. intros [H _]. discriminate. }
    destruct (Z.eqb_spec (nid (e_i e)) (nid (e_j e))) as [E|E]; cbn [rbind]. { apply Rej. tauto. }
    destruct (mem_spec (nid (e_j e)) (emap (add_ends nid g e) (nid (e_i e)))) as [M1|M1]; cbn [negb andb rbind].
    { apply Rej. apply (A (nid (e_i e)) (nid (e_j e))) in M1. tauto. }
    destruct (mem_spec (nid (e_i e)) (emap (add_ends nid g e) (nid (e_j e)))) as [M2|M2]; cbn [negb andb rbind].
    { apply Rej. apply (A (nid (e_j e)) (nid (e_i e))) in M2. tauto. }
    destruct (children_ok o (add_ends nid g e) (nid (e_i e)) (nid (e_j e)) (g_fuel (add_ends nid g e))) as [b [-> S]]; auto using gi_nb. { exact (gi_nb _ G1). } cbn [rbind].
    rewrite (path_iff _ _ _ _ A) in S. destruct b; cbn [negb].
    - apply Rej. tauto.
    - exists (put_edge nid (add_ends nid g e) e). split; auto. split; [apply ginv_put; auto|]. split; auto. left. split.
      + split; auto. split; auto. split; [intros H; apply M1, A, H|]. split; [intros H; apply M2, A, H|]. intros H. apply S in H. discriminate.
      + intros x y. unfold arc. rewrite put_emap, ends_emap. unfold leads. rewrite Et. intuition congruence.
  Qed.

  Definition dinv (g : graph) : Prop := ginv g /\ acyclic (arc g).
  Lemma acyclic_sub {K} (R S : K -> K -> Prop) : (forall a b, S a b -> R a b) -> acyclic R -> acyclic S.
  Proof. intros H A x y H1 H2. eapply A; [apply H; eauto|]. eapply path_mono; eauto. Qed.
  Lemma dinv_step g op : ord_ok (fst op) -> dinv g -> exists g', dag_step nid g op = Ok g' /\ dinv g'.
  Proof.
    intros Ho [G A]. destruct op as [o [n|e|i]]; unfold dag_step; simpl in *.
    - eexists. split; eauto. split; [apply ginv_node; auto|]. eapply acyclic_sub; [|exact A]. intros x y. unfold arc. rewrite add_node_emap. auto.
    - destruct (dag_add o g e Ho G) as [g' [E [G' [_ H]]]]. exists g'. split; auto. split; auto. destruct H as [[P H]|[P H]].
      + eapply acyclic_add; [intros a b Hab; apply H; exact Hab|auto|]. apply P.
      + eapply acyclic_sub; [|exact A]. intros x y. apply H.
    - eexists. split; eauto. split; [apply ginv_remove; auto|]. eapply acyclic_sub; [|exact A]. intros x y. unfold arc. rewrite rm_emap. tauto.
  Qed.
  Lemma foldM_inv {A B} (f : B -> A -> res B) (P : B -> Prop) (Q : A -> Prop) : (forall b a, Q a -> P b -> exists b', f b a = Ok b' /\ P b') ->
    forall l b, Forall Q l -> P b -> exists b', foldM f l b = Ok b' /\ P b'.
  Proof.
    intros H. induction l as [|a l IH]; intros b HQ HP; simpl; eauto. inversion HQ; subst. destruct (H b a) as [b1 [-> H1]]; auto. simpl. auto.
  Qed.
  Lemma dag_ok ops : orders_ok ops -> exists g, dag_run nid ops = Ok g /\ dinv g.
  Proof.
    intros H. apply foldM_inv with (Q := fun op => ord_ok (fst op)); auto using dinv_step. split; [apply ginv_empty|]. intros x y [].
  Qed.

  Lemma c22 : forall ops, orders_ok ops -> exists g, dag_run nid ops = Ok g /\ acyclic (arc g) /\
    forall o e, ord_ok o -> exists g', dag_run nid (ops ++ [(o, AddE e)]) = Ok g' /\
      ((admissible nid (arc g) e /\ forall x y, arc g' x y <-> arc g x y \/ (x = nid (e_i e) /\ y = nid (e_j e))) \/
       (~ admissible nid (arc g) e /\ forall x y, arc g' x y <-> arc g x y)).
  Proof.
    intros ops H. destruct (dag_ok ops H) as [g [E [G A]]]. exists g. split; auto. split; auto. intros o e Ho.
    destruct (dag_add o g e Ho G) as [g' [E' [_ [_ D]]]]. exists g'. split.
    - unfold dag_run in *. clear -E E'. revert E. generalize (@g_empty N). induction ops as [|op ops IH]; intros g0 E; simpl in *.
      + inversion E; subst. unfold dag_step. simpl. rewrite E'. auto.
      + destruct (dag_step nid g0 op); simpl in *; [auto|discriminate].
    - exact D.
  Qed.

  (** *** Pdag *)
  Definition padmissible (g : graph) (e : edge N) : Prop :=
    let p := nid (e_i e) in let c := nid (e_j e) in p <> c /\ ~ arc g p c /\ ~ arc g c p /\ ~ path (directed g) c p.
  Lemma pdag_add o g e : ord_ok o -> ginv g ->
    exists g', pdag_add_edge nid o g e = Ok g' /\ ginv g' /\
      ((padmissible g e /\ forall x y, arc g' x y <-> arc g x y \/ leads nid e x y) \/
       (~ padmissible g e /\ forall x y, arc g' x y <-> arc g x y)).
  Proof.
    intros Ho G. unfold pdag_add_edge, pdag_shouldadd. pose proof (ginv_ends g e G) as G1. unfold padmissible.
    assert (A : forall x y, arc (add_ends nid g e) x y <-> arc g x y). { intros x y. unfold arc. rewrite ends_emap. reflexivity. }
    assert (Rej : forall P, ~ P -> exists g', Ok (add_ends nid g e) = Ok g' /\ ginv g' /\
      ((P /\ forall x y, arc g' x y <-> arc g x y \/ leads nid e x y) \/ (~ P /\ forall x y, arc g' x y <-> arc g x y))).
    { intros P HP. exists (add_ends nid g e). auto 7. }
    destruct (Z.eqb_spec (nid (e_i e)) (nid (e_j e))) as [E|E]; cbn [rbind]. { apply Rej. tauto. }
    destruct (mem_spec (nid (e_j e)) (emap (add_ends nid g e) (nid (e_i e)))) as [M1|M1]; cbn [negb andb rbind].
    { apply Rej. apply (A (nid (e_i e)) (nid (e_j e))) in M1. tauto. }
    destruct (mem_spec (nid (e_i e)) (emap (add_ends nid g e) (nid (e_j e)))) as [M2|M2]; cbn [negb andb rbind].
    { apply Rej. apply (A (nid (e_j e)) (nid (e_i e))) in M2. tauto. }
    destruct (outs_ok o (add_ends nid g e) (nid (e_i e)) (nid (e_j e)) (g_fuel (add_ends nid g e))) as [b [-> S]]; auto. { exact (gi_nb _ G1). } cbn [rbind].
    assert (D : forall x y, directed (add_ends nid g e) x y <-> directed g x y) by (intros x y; unfold directed; rewrite !A; reflexivity).
    rewrite (path_iff _ _ _ _ D) in S. destruct b; cbn [negb].
    - apply Rej. tauto.
    - exists (put_edge nid (add_ends nid g e) e). split; auto. split; [apply ginv_put; auto|]. left. split.
      + split; auto. split; [intros H; apply M1, A, H|]. split; [intros H; apply M2, A, H|]. intros H. apply S in H. discriminate.
      + intros x y. unfold arc. rewrite put_emap, ends_emap. reflexivity.
  Qed.
  Definition pinv (g : graph) : Prop := ginv g /\ acyclic (directed g).
  Lemma pinv_step g op : ord_ok (fst op) -> pinv g -> exists g', pdag_step nid g op = Ok g' /\ pinv g'.
  Proof.
    intros Ho [G A]. destruct op as [o [n|e|i]]; unfold pdag_step; simpl in *.
    - eexists. split; eauto. split; [apply ginv_node; auto|]. eapply acyclic_sub; [|exact A]. intros x y. unfold directed, arc. rewrite !add_node_emap. auto.
    - destruct (pdag_add o g e Ho G) as [g' [E [G' H]]]. exists g'. split; auto. split; auto. destruct H as [[P H]|[P H]].
      + apply acyclic_add with (R := directed g) (p := nid (e_i e)) (c := nid (e_j e)); auto; [|apply P].
        intros a b [H1 H2]. rewrite H in H1, H2. unfold directed. destruct H1 as [H1|[[<- <-]|[Ht [<- <-]]]]; auto; [left; tauto|].
        exfalso. apply H2. right. left. auto.
      + eapply acyclic_sub; [|exact A]. intros x y. unfold directed. rewrite !H. auto.
    - eexists. split; eauto. split; [apply ginv_remove; auto|]. eapply acyclic_sub; [|exact A]. intros x y. unfold directed, arc. rewrite !rm_emap. tauto.
  Qed.
  Lemma pdag_ok ops : orders_ok ops -> exists g, pdag_run nid ops = Ok g /\ pinv g.
  Proof.
    intros H. apply foldM_inv with (Q := fun op => ord_ok (fst op)); auto using pinv_step. split; [apply ginv_empty|]. intros x y [[] _].
  Qed.
  Lemma foldM_snoc {A B} (f : B -> A -> res B) l a b b1 : foldM f l b = Ok b1 -> foldM f (l ++ [a]) b = f b1 a.
  Proof.
    revert b. induction l as [|x l IH]; intros b E; simpl in *. { inversion E; subst. destruct (f b1 a); auto. }
    destruct (f b x); simpl in *; [auto|discriminate].
  Qed.
  Lemma c24 : forall ops, orders_ok ops -> exists g, pdag_run nid ops = Ok g /\ acyclic (directed g) /\
    forall o e, ord_ok o -> exists g', pdag_run nid (ops ++ [(o, AddE e)]) = Ok g' /\
      let p := nid (e_i e) in let c := nid (e_j e) in
      ((p <> c /\ ~ arc g p c /\ ~ arc g c p /\ ~ path (directed g) c p) /\ forall x y, arc g' x y <-> arc g x y \/ leads nid e x y) \/
      (~ (p <> c /\ ~ arc g p c /\ ~ arc g c p /\ ~ path (directed g) c p) /\ forall x y, arc g' x y <-> arc g x y).
  Proof.
    intros ops H. destruct (pdag_ok ops H) as [g [E [G A]]]. exists g. split; auto. split; auto. intros o e Ho.
    destruct (pdag_add o g e Ho G) as [g' [E' [_ D]]]. exists g'. split; auto.
    unfold pdag_run in *. rewrite (foldM_snoc _ _ _ _ _ E). exact E'.
  Qed.

  Lemma c48_dag : forall ops, orders_ok ops -> exists g, dag_run nid ops = Ok g /\
    forall o start stop f, ord_ok o -> g_fuel g <= f ->
      exists b, pd_exists (get_children o g) stop f start = Ok b /\ (b = true <-> path (arc g) start stop).
  Proof.
    intros ops H. destruct (dag_ok ops H) as [g [E [G _]]]. exists g. split; auto. intros. apply children_ok; auto. exact (gi_nb _ G).
  Qed.
  Lemma c48_pdag : forall ops, orders_ok ops -> exists g, pdag_run nid ops = Ok g /\
    forall o start stop f, ord_ok o -> g_fuel g <= f ->
      exists b, pd_exists (get_out_nodes o g) stop f start = Ok b /\ (b = true <-> path (directed g) start stop).
  Proof.
    intros ops H. destruct (pdag_ok ops H) as [g [E [G _]]]. exists g. split; auto. intros. apply outs_ok; auto. exact (gi_nb _ G).
  Qed.
End G.

(** ** Bbn *)
From Verif Require Import M_Node M_Pptc SpecNet L_Build.

Lemma net_par_In ops x y : In x (net_par ops y) <-> called ops x y.
Proof.
  induction ops as [|op ops IH] using rev_ind.
  - simpl. split; [intros []|]. intros [a [b [[] _]]].
  - assert (S : called (ops ++ [op]) x y <-> called ops x y \/ exists a b, op = AddEdge a b /\ n_id a = x /\ n_id b = y).
    { unfold called. setoid_rewrite in_app_iff. simpl. split.
      - intros [a [b [[H|[H|[]]] H']]]; eauto 6.
      - intros [[a [b [H1 H2]]]|[a [b [H1 H2]]]]; eauto 7. }
    rewrite S, net_par_snoc, <- IH. destruct op as [n|a b].
    + split; auto. intros [H|[a [b [H _]]]]; [auto|discriminate].
    + destruct (Z.eqb_spec (n_id b) y) as [E|E].
      * rewrite vars_add_In. split.
        -- intros [H|H]; eauto 7.
        -- intros [H|[a' [b' [H [H1 H2]]]]]; auto. inv H. auto.
      * split; auto. intros [H|[a' [b' [H [H1 H2]]]]]; auto. inv H. congruence.
Qed.
Lemma bbn_arc ops x y : arc (b_g (build ops)) x y <-> called ops x y.
Proof. unfold arc. rewrite (bi_em _ _ (build_inv ops)). apply net_par_In. Qed.
Lemma acyclic_iff {K} (R S : K -> K -> Prop) : (forall a b, R a b <-> S a b) -> acyclic R <-> acyclic S.
Proof. intros H. split; apply acyclic_sub; intros a b; apply H. Qed.
Lemma c23 : forall ops, (forall x y, arc (b_g (build ops)) x y <-> called ops x y) /\
  (acyclic (arc (b_g (build ops))) <-> acyclic (called ops)).
Proof. intros ops. split; [apply bbn_arc|]. apply acyclic_iff. apply bbn_arc. Qed.

Lemma c48_bbn : forall ops, let g := b_g (build ops) in
  forall o start stop f, ord_ok o -> g_fuel g <= f ->
    exists b, pd_exists (get_children o g) stop f start = Ok b /\ (b = true <-> path (called ops) start stop).
Proof.
  intros ops g o start stop f Ho Hf. destruct (children_ok o g stop start f) as [b [E S]]; auto.
  - intros x y. pose proof (build_inv ops) as B. unfold g. rewrite (bi_enb _ _ B), !(bi_em _ _ B). reflexivity.
  - exists b. split; auto. rewrite S. apply path_iff. apply bbn_arc.
Qed.

(** ** JoinTree *)
Lemma dsadds_gets d k x k' y : In y (dgets (dsadds d k x) k') <-> In y (dgets d k') \/ (k' = k /\ y = x).
Proof.
  unfold dsadds. rewrite dgets_dset. destruct (eqb_spec k' k) as [->|Hn].
  - rewrite sadd_In. tauto.
  - intuition congruence.
Qed.
Definition jsym (j : jtree) : Prop := forall x y, beside j x y -> beside j y x.
Lemma jsym_node j n : jsym j -> jsym (jt_add_node j n).
Proof. intros H x y. unfold beside, jt_neighbors, jt_add_node. destruct (dmem _ _); apply H. Qed.
Lemma jpd_ok o j start stop f : ord_ok o -> jsym j -> jt_fuel j <= f ->
  exists b, pd_exists (fun i => sord o i (jt_neighbors j i)) stop f start = Ok b /\ (b = true <-> path (beside j) start stop).
Proof.
  intros Ho HS Hf. destruct (pd_exists_fuel (fun i => sord o i (jt_neighbors j i)) stop (start :: dkeys (jt_nbrs j))) with (f := f) (start := start) as [b E].
  - intros x y _ Hy. right. apply sord_In in Hy; auto. apply HS in Hy. apply dmem_In. unfold beside, jt_neighbors, dgets in Hy. unfold dmem. destruct (dget (jt_nbrs j) y); auto.
  - left; auto.
  - unfold jt_fuel in Hf. simpl. unfold dkeys. rewrite map_length. lia.
  - exists b. split; auto. apply pd_exists_spec in E. rewrite E. apply path_iff. intros x y. unfold R, beside. apply sord_In; auto.
Qed.
Lemma jsym_step j op : ord_ok (fst op) -> jsym j -> exists j', jt_step j op = Ok j' /\ jsym j'.
Proof.
  intros Ho HS. destruct op as [o [n|s]]; unfold jt_step; simpl in *. { eexists. split; eauto. apply jsym_node; auto. }
  unfold jt_add_edge, jt_shouldadd. destruct (eqb (cl_id (ss_left s)) (cl_id (ss_right s))); cbn [rbind]; [eauto|].
  destruct (jpd_ok o j (cl_id (ss_left s)) (cl_id (ss_right s)) (jt_fuel j)) as [b [-> _]]; auto. cbn [rbind].
  destruct b; cbn [negb]; [eauto|]. eexists. split; [reflexivity|]. intros x y. unfold beside, jt_neighbors. simpl. rewrite !dsadds_gets.
  set (j1 := jt_add_node _ _). assert (S1 : jsym j1) by (repeat apply jsym_node; auto). specialize (S1 x y). unfold beside, jt_neighbors in S1. tauto.
Qed.
Lemma c48_jt : forall h ops, Forall (fun op => ord_ok (fst op)) ops -> exists j, jt_run h ops = Ok j /\
  forall o start stop f, ord_ok o -> jt_fuel j <= f ->
    exists b, pd_exists (fun i => sord o i (jt_neighbors j i)) stop f start = Ok b /\ (b = true <-> path (beside j) start stop).
Proof.
  intros h ops H. destruct (foldM_inv jt_step jsym (fun op => ord_ok (fst op)) (fun b a => jsym_step b a) ops (jt_empty h) H) as [j [E S]].
  { intros x y []. }
  exists j. split; auto. intros. apply jpd_ok; auto.
Qed.
