(** Moralizer.moralize gives the moral graph; Triangulator.triangulate eliminates its vertices. *)
From Verif Require Import Py M_Graph M_Node M_Pptc Spec L_Base L_PD L_UG L_Ids L_Elim L_Trans L_Tri.

Lemma dset_vals_new {K V} `{EqB K} (d : list (K * V)) k v : In v (dvals (dset d k v)).
Proof. induction d as [|[k' v'] d IH]; simpl; auto. destruct (eqb k k'); simpl; auto. Qed.
Lemma dset_vals_In {K V} `{EqB K} (d : list (K * V)) k v w : In w (dvals (dset d k v)) -> w = v \/ In w (dvals d).
Proof. induction d as [|[k' v'] d IH]; simpl. intros [E|[]]; auto. destruct (eqb k k'); simpl; intuition. Qed.
Lemma dset_vals_old {K V} `{EqB K} (d : list (K * V)) k v k' w : In (k', w) d -> k' <> k -> In w (dvals (dset d k v)).
Proof.
  induction d as [|[k2 v2] d IH]; simpl; [tauto|]. intros [E|Hi] Hn.
  - inv E. destruct (eqb_spec k k'); [congruence|]. simpl; auto.
  - destruct (eqb k k2); simpl; auto. right. unfold dvals. apply in_map_iff. exists (k', w); auto.
Qed.
Lemma dset_In {K V} `{EqB K} (d : list (K * V)) k v k' w : In (k', w) (dset d k v) -> (k' = k /\ w = v) \/ In (k', w) d.
Proof.
  induction d as [|[k2 v2] d IH]; simpl. intros [E|[]]; inv E; auto.
  destruct (eqb_spec k k2); simpl; intros [E|Hi]; try (inv E); auto. apply IH in Hi. tauto.
Qed.

Notation ug := (ug n_id).
Notation link := (link n_id).
Notation ekey := (edge_key n_id).

Lemma key_und_inj a b c d : (str_of_Z a ++ "--" ++ str_of_Z b = str_of_Z c ++ "--" ++ str_of_Z d)%string -> a = c /\ b = d.
Proof.
  intros E. apply str_prefix in E; [|right; simpl; eauto|right; simpl; eauto]. destruct E as [-> E]. simpl in E. inversion E as [E']. apply str_of_Z_inj in E'. auto.
Qed.
Lemma key_dir_inj a b c d : (str_of_Z a ++ "->" ++ str_of_Z b = str_of_Z c ++ "->" ++ str_of_Z d)%string -> a = c /\ b = d.
Proof.
  intros E. apply str_prefix in E; [|right; simpl; eauto|right; simpl; eauto]. destruct E as [-> E]. simpl in E. inversion E as [E']. apply str_of_Z_inj in E'. auto.
Qed.

Lemma key_link (e e' : edge bnode) : e_t e = UNDIRECTED -> e_t e' = UNDIRECTED -> ekey e = ekey e' -> forall x y, link e x y <-> link e' x y.
Proof.
  intros H1 H2. unfold edge_key. rewrite H1, H2. intros E x y. apply key_und_inj in E. unfold L_UG.link. lia.
Qed.

Record ue (g : graph bnode) : Prop := {
  ue_und : forall e, In e (get_edges g) -> e_t e = UNDIRECTED;
  ue_ne : forall e, In e (get_edges g) -> n_id (e_i e) <> n_id (e_j e);
  ue_key : forall k e, In (k, e) (g_edges g) -> k = ekey e;
  ue_adj : forall x y, adj g x y <-> exists e, In e (get_edges g) /\ link e x y }.

Lemma ue_empty : ue g_empty.
Proof. constructor; simpl; try tauto. intros x y. unfold adj, get_neighbors. simpl. split; [tauto|]. intros [e [[] _]]. Qed.
Lemma add_node_edges g n : g_edges (add_node n_id g n) = g_edges g.
Proof. unfold add_node. destruct (dmem _ _); auto. Qed.
Lemma ue_add_node g n : ue g -> ue (add_node n_id g n).
Proof.
  intros [A A' B C]. constructor; unfold get_edges in *; rewrite ?add_node_edges; auto.
  intros x y. rewrite add_node_adj, C. reflexivity.
Qed.
Lemma ue_add_edge g e : ug g -> ue g -> e_t e = UNDIRECTED -> ue (add_edge n_id g e).
Proof.
  intros U E Ht. pose proof (add_edge_adj n_id g e U Ht) as A. unfold add_edge in *. set (g1 := add_ends n_id g e) in *.
  assert (E1 : ue g1) by (apply ue_add_node, ue_add_node; auto). destruct (shouldadd n_id g1 e) eqn:Es; auto.
  assert (A1 : forall x y, adj g x y <-> adj g1 x y) by (intros; unfold g1; rewrite add_ends_adj; reflexivity).
  constructor.
  - intros e' He. apply dset_vals_In in He. destruct He as [->|He]; auto. apply (ue_und _ E1); auto.
  - intros e' He. apply dset_vals_In in He. destruct He as [->|He]; [|apply (ue_ne _ E1); auto].
    unfold shouldadd in Es. destruct (Z.eqb_spec (n_id (e_i e)) (n_id (e_j e))); auto. discriminate.
  - intros k e' He. apply dset_In in He. destruct He as [[-> ->]|He]; auto. apply (ue_key _ E1); auto.
  - intros x y. rewrite A, A1, (ue_adj _ E1). unfold get_edges, put_edge. simpl. split.
    + intros [[e' [H1 H2]]|H].
      * apply in_map_iff in H1. destruct H1 as [[k e2] [E2 H1]]. simpl in E2; subst e2. destruct (string_dec k (ekey e)) as [Hk|Hk].
        -- exists e. split; [apply dset_vals_new|]. rewrite (ue_key _ E1 _ _ H1) in Hk. apply (key_link e' e); auto. apply (ue_und _ E1). unfold get_edges, dvals. apply in_map_iff. exists (k, e'); auto.
        -- exists e'. split; auto. eapply dset_vals_old; eauto.
      * exists e. split; auto. apply dset_vals_new.
    + intros [e' [H1 H2]]. apply dset_vals_In in H1. destruct H1 as [->|H1]; auto. left. exists e'. auto.
Qed.
Lemma ue_fold_nodes ns : forall g, ue g -> ue (fold_left (add_node n_id) ns g).
Proof. induction ns as [|n ns IH]; intros g H; simpl; auto. apply IH, ue_add_node; auto. Qed.
Lemma ue_fold_edges es : forall g, ug g -> ue g -> (forall e, In e es -> e_t e = UNDIRECTED) -> ue (fold_left (add_edge n_id) es g).
Proof.
  induction es as [|e es IH]; intros g U H Ht; simpl; auto. apply IH; [apply ug_add_edge; auto; apply Ht; left; auto|apply ue_add_edge; auto; apply Ht; left; auto|intros; apply Ht; right; auto].
Qed.

Lemma nodes_self (g : graph bnode) : (forall k n, In (k, n) (g_nodes g) -> n_id n = k) -> map (fun n => (n_id n, n)) (get_nodes g) = g_nodes g.
Proof. intros H. unfold get_nodes, dvals. rewrite map_map. rewrite <- (map_id (g_nodes g)) at 2. apply map_ext_in. intros [k n] Hi. simpl. rewrite (H k n Hi). auto. Qed.
Lemma nodes_ids (g : graph bnode) : (forall k n, In (k, n) (g_nodes g) -> n_id n = k) -> map n_id (get_nodes g) = ids g.
Proof. intros H. unfold get_nodes, dvals, ids, dkeys. rewrite map_map. apply map_ext_in. intros [k n] Hi. simpl. eauto. Qed.

(** duplicate (triangulator.py:40-52) is a copy *)
Lemma duplicate_ok g : ug g -> ue g -> ug (duplicate g) /\ ids (duplicate g) = ids g /\ (forall x y, adj (duplicate g) x y <-> adj g x y).
Proof.
  intros U E. unfold duplicate. destruct (fold_add_nodes n_id (get_nodes g) g_empty (ug_empty n_id)) as [U0 [A0 I0]].
  destruct (fold_add_edges n_id (get_edges g) _ U0 (ue_und _ E)) as [U1 [A1 I1]]. split; auto. split.
  - unfold ids. rewrite I1.
    + rewrite fold_add_nodes_eq. simpl. rewrite nodes_self; auto. apply (ug_kid _ _ U). simpl. rewrite nodes_ids; [apply (ug_keys _ _ U)|apply (ug_kid _ _ U)].
    + intros e He. rewrite !I0. rewrite nodes_ids by apply (ug_kid _ _ U). split; right.
      * apply (ug_in _ _ U _ (n_id (e_j e))). apply (ue_adj _ E). exists e. split; auto. split; auto. apply (ue_ne _ E); auto.
      * apply (ug_in _ _ U _ (n_id (e_i e))). apply (ue_adj _ E). exists e. split; auto. split; auto. apply (ue_ne _ E); auto.
  - intros x y. rewrite A1, A0, (ue_adj _ E). unfold adj, get_neighbors. simpl. tauto.
Qed.

Theorem triangulate_ok o g : ord_ok o -> ug g -> ue g ->
  exists m' Ks, triangulate o g = Ok (m', map mk_clique (keep [] Ks)) /\ elim (ids g) (adj g) Ks /\
    g_nodes m' = g_nodes g /\ (forall x y, adj m' x y <-> adj g x y \/ exists K, In K Ks /\ fill K x y).
Proof.
  intros Ho U E. destruct (duplicate_ok g U E) as [U' [I' A']]. unfold triangulate.
  destruct (tri_loop_ok o Ho (List.length (g_nodes g)) g (duplicate g) [] U U') as [m' [Ks [F1 [F2 [F3 [F4 F5]]]]]].
  - intros x y. apply A'.
  - rewrite I'. apply incl_refl.
  - rewrite I'. unfold ids, dkeys. rewrite map_length. auto.
  - exists m', Ks. split; [exact F1|]. split; auto. rewrite I' in F2. eapply elim_ext; [exact F2|]. intros. apply A'.
Qed.

(** ** moralize *)
Lemma get_parents_In (g : graph bnode) p i : In p (get_parents g i) <-> In i (emap g p).
Proof.
  unfold get_parents. rewrite filter_In, mem_In. split; [tauto|]. intros H. split; auto. apply dmem_In. eapply dmem_gets; eauto.
Qed.

Definition moral (g : graph bnode) (x y : Z) : Prop :=
  x <> y /\ ((exists e, In e (get_edges g) /\ ((x = n_id (e_i e) /\ y = n_id (e_j e)) \/ (x = n_id (e_j e) /\ y = n_id (e_i e)))) \/
            exists i, In i (ids g) /\ In x (get_parents g i) /\ In y (get_parents g i)).

Theorem moralize_ok g : NoDup (ids g) -> (forall k n, In (k, n) (g_nodes g) -> n_id n = k) ->
  (forall e, In e (get_edges g) -> In (n_id (e_i e)) (ids g) /\ In (n_id (e_j e)) (ids g)) ->
  (forall i p, In i (ids g) -> In p (get_parents g i) -> In p (ids g)) ->
  exists u, moralize g = Ok u /\ ug u /\ ue u /\ g_nodes u = g_nodes g /\ (forall x y, adj u x y <-> moral g x y).
Proof.
  intros HN Hk He Hp. unfold moralize.
  destruct (fold_add_nodes n_id (get_nodes g) g_empty (ug_empty n_id)) as [U0 [A0 I0]].
  pose proof (ue_fold_nodes (get_nodes g) g_empty ue_empty) as E0.
  assert (N0 : g_nodes (fold_left (add_node n_id) (get_nodes g) g_empty) = g_nodes g).
  { rewrite fold_add_nodes_eq; simpl; [apply nodes_self; auto|rewrite nodes_ids; auto]. }
  set (u0 := fold_left (add_node n_id) (get_nodes g) g_empty) in *.
  set (und := fun e : edge bnode => mkEdge (e_i e) (e_j e) UNDIRECTED).
  assert (Ef : forall es u, fold_left (fun u e => add_edge n_id u (mkEdge (e_i e) (e_j e) UNDIRECTED)) es u = fold_left (add_edge n_id) (map und es) u).
  { induction es as [|e es IH]; intros u; simpl; auto. }
  rewrite Ef. clear Ef.
  assert (Hu : forall e, In e (map und (get_edges g)) -> e_t e = UNDIRECTED) by (intros e Hi; apply in_map_iff in Hi; destruct Hi as [e' [<- _]]; auto).
  destruct (fold_add_edges n_id (map und (get_edges g)) u0 U0 Hu) as [U1 [A1 I1]].
  pose proof (ue_fold_edges (map und (get_edges g)) u0 U0 E0 Hu) as E1.
  assert (N1 : g_nodes (fold_left (add_edge n_id) (map und (get_edges g)) u0) = g_nodes g).
  { rewrite I1; auto. intros e Hi. apply in_map_iff in Hi. destruct Hi as [e' [<- Hi]]. unfold ids. rewrite N0. apply (He e' Hi). }
  set (u1 := fold_left (add_edge n_id) (map und (get_edges g)) u0) in *.
  assert (A1' : forall x y, adj u1 x y <-> x <> y /\ exists e, In e (get_edges g) /\ ((x = n_id (e_i e) /\ y = n_id (e_j e)) \/ (x = n_id (e_j e) /\ y = n_id (e_i e)))).
  { intros x y. rewrite A1, A0. unfold adj at 1, get_neighbors at 1. simpl. split.
    - intros [[]|[e [Hi [Hn Hl]]]]. apply in_map_iff in Hi. destruct Hi as [e' [<- Hi]]. simpl in *. split; [destruct Hl as [[-> ->]|[-> ->]]; auto|]. exists e'. auto.
    - intros [Hn [e [Hi Hl]]]. right. exists (und e). split; [apply in_map; auto|]. unfold L_UG.link. simpl. split; auto. destruct Hl as [[-> ->]|[-> ->]]; auto. }
  assert (G : forall ns u, (forall n, In n ns -> In (n_id n) (ids g)) -> ug u -> ue u -> g_nodes u = g_nodes g ->
     exists u', foldM (fun u n => ps <- parent_nodes g (n_id n) ;;
           Ok (fold_left (fun u p => add_edge n_id u (mkEdge (fst p) (snd p) UNDIRECTED)) (pairs ps) u)) ns u = Ok u' /\ ug u' /\ ue u' /\ g_nodes u' = g_nodes g /\
       forall x y, adj u' x y <-> adj u x y \/ (x <> y /\ exists n, In n ns /\ In x (get_parents g (n_id n)) /\ In y (get_parents g (n_id n)))).
  { induction ns as [|n ns IH]; intros u Hns U E Nn; cbn [foldM].
    - exists u. split; auto. split; auto. split; auto. split; auto. intros x y. split; auto. intros [H|[_ [n [[] _]]]]; auto.
    - assert (Hps : exists ps, parent_nodes g (n_id n) = Ok ps /\ map n_id ps = get_parents g (n_id n)).
      { unfold parent_nodes. assert (Hsub : incl (get_parents g (n_id n)) (ids g)) by (intros p Hpp; eapply Hp; eauto; apply Hns; left; auto).
        revert Hsub. clear - Hk. induction (get_parents g (n_id n)) as [|p l IH]; intros Hsub; simpl. exists []; auto.
        destruct IH as [ps [-> Eps]]; [intros x Hx; apply Hsub; right; auto|].
        assert (Hin : In p (ids g)) by (apply Hsub; left; auto). apply dkeys_dget in Hin. destruct Hin as [m Em].
        assert (Eg : get_node g p = Ok m) by (apply dgetE_Ok; auto). rewrite Eg. cbn [rbind]. exists (m :: ps). split; auto. simpl. rewrite (Hk p m (dget_In _ _ _ Em)). congruence. }
      destruct Hps as [ps [-> Eps]]. cbn [rbind].
      set (mk := fun p : bnode * bnode => mkEdge (fst p) (snd p) UNDIRECTED).
      assert (Ef : forall l u, fold_left (fun u p => add_edge n_id u (mkEdge (fst p) (snd p) UNDIRECTED)) l u = fold_left (add_edge n_id) (map mk l) u).
      { induction l as [|p l IHl]; intros u'; simpl; auto. }
      rewrite Ef. clear Ef.
      assert (Hu2 : forall e, In e (map mk (pairs ps)) -> e_t e = UNDIRECTED) by (intros e Hi; apply in_map_iff in Hi; destruct Hi as [e' [<- _]]; auto).
      destruct (fold_add_edges n_id (map mk (pairs ps)) u U Hu2) as [U2 [A2 I2]].
      destruct (IH (fold_left (add_edge n_id) (map mk (pairs ps)) u)) as [u' [F1 [F2 [F3 [F4 F5]]]]]; auto.
      { intros m Hm. apply Hns; right; auto. }
      { apply ue_fold_edges; auto. }
      { rewrite I2; auto. intros e Hi. apply in_map_iff in Hi. destruct Hi as [[a b] [<- Hi]]. apply pairs_In in Hi. simpl. unfold ids. rewrite Nn.
        destruct Hi as [Ha Hb]. apply (in_map n_id) in Ha. apply (in_map n_id) in Hb. rewrite Eps in Ha, Hb. split; eapply Hp; eauto; apply Hns; left; auto. }
      exists u'. split; auto. split; auto. split; auto. split; auto. intros x y. rewrite F5, A2. split.
      + intros [[H|[e [Hi Hl]]]|[Hn [m [Hm H]]]]; auto.
        * right. apply in_map_iff in Hi. destruct Hi as [[a b] [<- Hi]]. apply pairs_In in Hi. unfold L_UG.link in Hl. simpl in Hl. destruct Hi as [Ha Hb].
          apply (in_map n_id) in Ha. apply (in_map n_id) in Hb. rewrite Eps in Ha, Hb. destruct Hl as [Hn Hl].
          split; [destruct Hl as [[-> ->]|[-> ->]]; auto|]. exists n. split; [left; auto|]. destruct Hl as [[-> ->]|[-> ->]]; auto.
        * right. split; auto. exists m. split; auto. right; auto.
      + intros [H|[Hn [m [[<-|Hm] [Hx Hy]]]]]; auto.
        * left. right. rewrite <- Eps in Hx, Hy. apply in_map_iff in Hx. destruct Hx as [a [<- Ha]]. apply in_map_iff in Hy. destruct Hy as [b [<- Hb]].
          destruct (pairs_all ps a b Ha Hb) as [Hi|Hi]; [congruence| |].
          -- exists (mk (a, b)). split; [apply in_map; auto|]. split; simpl; auto.
          -- exists (mk (b, a)). split; [apply in_map; auto|]. split; simpl; auto.
        * right. split; auto. exists m. auto. }
  destruct (G (get_nodes g) u1) as [u [F1 [F2 [F3 [F4 F5]]]]]; auto.
  { intros n Hn. rewrite <- (nodes_ids g Hk). apply in_map; auto. }
  exists u. split; auto. split; auto. split; auto. split; auto. intros x y. rewrite F5, A1'. unfold moral.
  assert (Eq : (exists n, In n (get_nodes g) /\ In x (get_parents g (n_id n)) /\ In y (get_parents g (n_id n))) <->
               (exists i, In i (ids g) /\ In x (get_parents g i) /\ In y (get_parents g i))).
  { rewrite <- (nodes_ids g Hk). split.
    - intros [n [H1 H2]]. exists (n_id n). split; auto. apply in_map; auto.
    - intros [i [H1 H2]]. apply in_map_iff in H1. destruct H1 as [n [<- H1]]. exists n; auto. }
  rewrite Eq. tauto.
Qed.
