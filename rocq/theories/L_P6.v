(** Queries on the graph classes, and the export to networkx. *)
From Verif Require Import Py M_Graph M_Node M_Pptc M_Nx M_GraphNx Spec SpecGraph SpecNet SpecNx L_Base L_PD L_UG L_P3 L_Nx L_R3.

Section Q.
  Context {N : Type} (nid : N -> Z).
  Notation graph := (graph N).
  Notation arc := (@SpecGraph.arc N).

  (** dictionary keys and sets have no duplicates *)
  Definition enodup (g : graph) : Prop := NoDup (dkeys (g_emap g)) /\ forall x, NoDup (emap g x).
  Lemma node_emap g n : g_emap (add_node nid g n) = g_emap g.
  Proof. unfold add_node. destruct (dmem _ _); auto. Qed.
  Lemma enodup_node g n : enodup g -> enodup (add_node nid g n).
  Proof. intros [H1 H2]. unfold enodup, emap. rewrite node_emap. split; auto. Qed.
  Lemma dsadd_nodup d k x : NoDup (dkeys d) -> (forall k, NoDup (dgets d k)) -> NoDup (dkeys (dsadd d k x)) /\ forall k', NoDup (dgets (dsadd d k x) k').
  Proof.
    intros H1 H2. unfold dsadd. split; [apply dset_NoDup; auto|]. intros k'. rewrite dgets_dset. destruct (eqb k' k); auto. apply sadd_NoDup; auto.
  Qed.
  Lemma enodup_put g e : enodup g -> enodup (put_edge nid g e).
  Proof.
    intros [H1 H2]. unfold enodup, emap, put_edge. cbn [g_emap]. destruct (dsadd_nodup _ (nid (e_i e)) (nid (e_j e)) H1 H2) as [H3 H4].
    destruct (e_t e); [|split; auto]. apply dsadd_nodup; auto.
  Qed.
  Lemma enodup_remove (g : graph) i : enodup g -> enodup (remove_node g i).
  Proof.
    intros [H1 H2]. unfold enodup, emap, remove_node. cbn [g_emap]. split.
    - unfold dkeys in *. rewrite map_map. simpl. apply dpop_NoDup; auto.
    - intros x. rewrite dgets_map_srem, dgets_dpop. destruct (Z.eqb x i); [constructor|]. apply srem_NoDup, H2.
  Qed.
  Lemma enodup_dag g op g' : enodup g -> dag_step nid g op = Ok g' -> enodup g'.
  Proof.
    intros H. destruct op as [o [n|e|i]]; unfold dag_step; cbn [fst snd].
    - intros E. injection E as <-. apply enodup_node; auto.
    - unfold dag_add_edge. destruct (dag_shouldadd nid o (add_ends nid g e) e) as [b|]; cbn [rbind]; [|discriminate]. intros E. injection E as <-.
      assert (enodup (add_ends nid g e)) by (unfold add_ends; auto using enodup_node). destruct b; auto using enodup_put.
    - intros E. injection E as <-. apply enodup_remove; auto.
  Qed.
  Lemma enodup_pdag g op g' : enodup g -> pdag_step nid g op = Ok g' -> enodup g'.
  Proof.
    intros H. destruct op as [o [n|e|i]]; unfold pdag_step; cbn [fst snd].
    - intros E. injection E as <-. apply enodup_node; auto.
    - unfold pdag_add_edge. destruct (pdag_shouldadd nid o (add_ends nid g e) e) as [b|]; cbn [rbind]; [|discriminate]. intros E. injection E as <-.
      assert (enodup (add_ends nid g e)) by (unfold add_ends; auto using enodup_node). destruct b; auto using enodup_put.
    - intros E. injection E as <-. apply enodup_remove; auto.
  Qed.
  Lemma foldM_keep {A B} (f : B -> A -> res B) (P : B -> Prop) : (forall b a b', P b -> f b a = Ok b' -> P b') ->
    forall l b b', P b -> foldM f l b = Ok b' -> P b'.
  Proof.
    intros H. induction l as [|a l IH]; intros b b' HP; cbn [foldM].
    - intros E. injection E as <-. exact HP.
    - destruct (f b a) as [b1|] eqn:E; cbn [rbind]; [|discriminate]. intros E'. apply (IH b1 b'); [eapply H; eauto|exact E'].
  Qed.
  Lemma enodup_empty : enodup g_empty.
  Proof. split; [constructor|]. intros x. constructor. Qed.
  Lemma parents_NoDup (g : graph) y : enodup g -> NoDup (get_parents g y).
  Proof. intros [H _]. apply NoDup_filter; auto. Qed.
  Lemma children_NoDup o (g : graph) y : ord_ok o -> enodup g -> NoDup (get_children o g y).
  Proof. intros Ho [_ H]. eapply Permutation_NoDup; [apply Permutation_sym, Ho|]. apply H. Qed.
  Lemma dag_edge_iff (g : graph) x y : dag_edge_exists g x y = true <-> arc g x y /\ ~ arc g y x.
  Proof.
    unfold dag_edge_exists, SpecGraph.arc. rewrite andb_true_iff, negb_true_iff, mem_In. split; intros [H1 H2]; (split; [auto|]).
    - intros C. apply mem_In in C. congruence.
    - destruct (mem_spec x (emap g y)); tauto.
  Qed.

  Lemma c52_dag : forall ops, orders_ok ops -> exists g, dag_run nid ops = Ok g /\ forall x y,
    (dag_edge_exists g x y = true <-> arc g x y) /\ (In x (get_parents g y) <-> arc g x y) /\ NoDup (get_parents g y) /\
    forall o, ord_ok o -> (In y (get_children o g x) <-> arc g x y) /\ NoDup (get_children o g x).
  Proof.
    intros ops H. destruct (dag_ok nid ops H) as [g [E [G A]]]. exists g. split; auto. intros x y.
    assert (EN : enodup g) by (eapply (foldM_keep (dag_step nid)); [apply enodup_dag|apply enodup_empty|exact E]).
    split; [|split; [|split]].
    - rewrite dag_edge_iff. split; [tauto|]. intros K. split; auto. intros K'. apply (A x y K). apply path_one; auto.
    - apply get_parents_iff.
    - apply parents_NoDup; auto.
    - intros o Ho. split; [apply zord_In; auto|apply children_NoDup; auto].
  Qed.
  Lemma c52_pdag : forall ops, orders_ok ops -> exists g, pdag_run nid ops = Ok g /\ forall x y,
    (pdag_edge_exists g x y = true <-> arc g x y \/ arc g y x) /\ (pdag_directed_edge_exists g x y = true <-> SpecGraph.directed g x y) /\
    (In x (get_parents g y) <-> arc g x y) /\ NoDup (get_parents g y) /\
    forall o, ord_ok o -> (In y (get_out_nodes o g x) <-> SpecGraph.directed g x y).
  Proof.
    intros ops H. destruct (pdag_ok nid ops H) as [g [E [G A]]]. exists g. split; auto. intros x y.
    assert (EN : enodup g) by (eapply (foldM_keep (pdag_step nid)); [apply enodup_pdag|apply enodup_empty|exact E]).
    split; [|split; [|split; [|split]]].
    - unfold pdag_edge_exists, SpecGraph.arc. rewrite orb_true_iff, !mem_In. tauto.
    - apply dag_edge_iff.
    - apply get_parents_iff.
    - apply parents_NoDup; auto.
    - intros o Ho. apply outs_In; auto. exact (gi_nb _ _ G).
  Qed.

  (** the other calls on a Dag *)
  Lemma c22_others : forall ops, orders_ok ops -> exists g, dag_run nid ops = Ok g /\
    (forall o i, ord_ok o -> exists g', dag_run nid (ops ++ [(o, Remove i)]) = Ok g' /\
       (forall x y, arc g' x y <-> arc g x y /\ x <> i /\ y <> i) /\ (forall x, In x (ids g') <-> In x (ids g) /\ x <> i)) /\
    (forall o n, ord_ok o -> exists g', dag_run nid (ops ++ [(o, AddN n)]) = Ok g' /\
       (forall x y, arc g' x y <-> arc g x y) /\ (forall x, In x (ids g') <-> In x (ids g) \/ x = nid n)) /\
    (forall o e, ord_ok o -> exists g', dag_run nid (ops ++ [(o, AddE e)]) = Ok g' /\
       (forall x, In x (ids g') <-> In x (ids g) \/ x = nid (e_i e) \/ x = nid (e_j e))).
  Proof.
    intros ops H. destruct (dag_ok nid ops H) as [g [E [G A]]]. exists g. split; auto. split; [|split].
    - intros o i Ho. eexists. unfold dag_run in *. rewrite (foldM_snoc _ _ _ _ _ E). split; [reflexivity|]. split.
      + intros x y. apply rm_emap.
      + intros x. apply remove_ids.
    - intros o n Ho. eexists. unfold dag_run in *. rewrite (foldM_snoc _ _ _ _ _ E). split; [reflexivity|]. split.
      + intros x y. unfold SpecGraph.arc. rewrite add_node_emap. reflexivity.
      + intros x. rewrite add_node_ids. tauto.
    - intros o e Ho. unfold dag_run in *. rewrite (foldM_snoc _ _ _ _ _ E). destruct (dag_add nid o g e Ho G) as (g' & E' & _ & I & _). exists g'. split; [exact E'|].
      intros x. rewrite I, ends_ids. tauto.
  Qed.

  (** edges of a Dag from which nothing was removed *)
  Definition eok (g : graph) : Prop := forall x y, arc g x y <-> exists e, In e (get_edges g) /\ nid (e_i e) = x /\ nid (e_j e) = y.
  Lemma ends_edges g e : g_edges (add_ends nid g e) = g_edges g.
  Proof. unfold add_ends, add_node; repeat (destruct (dmem _ _); simpl); auto. Qed.
  Lemma shouldadd_true o g e : dag_shouldadd nid o g e = Ok true -> e_t e = DIRECTED /\ nid (e_i e) <> nid (e_j e) /\ ~ arc g (nid (e_i e)) (nid (e_j e)) /\ ~ arc g (nid (e_j e)) (nid (e_i e)).
  Proof.
    unfold dag_shouldadd, SpecGraph.arc. destruct (e_t e); [discriminate|]. destruct (Z.eqb_spec (nid (e_i e)) (nid (e_j e))); [discriminate|].
    destruct (mem_spec (nid (e_j e)) (emap g (nid (e_i e)))); [discriminate|]. destruct (mem_spec (nid (e_i e)) (emap g (nid (e_j e)))); [discriminate|]. auto.
  Qed.
  Lemma eok_put g e : ekeyed nid g -> eok g -> e_t e = DIRECTED -> ~ arc g (nid (e_i e)) (nid (e_j e)) -> ~ arc g (nid (e_j e)) (nid (e_i e)) -> eok (put_edge nid g e).
  Proof.
    intros K X Ht P3 P4 x y. unfold SpecGraph.arc. rewrite put_emap. unfold leads. rewrite Ht. fold (arc g x y). rewrite (X x y).
    unfold get_edges, put_edge. cbn [g_edges]. rewrite dkeys_dset_notin.
    - unfold dvals. rewrite map_app. simpl. setoid_rewrite in_app_iff. simpl. split.
      + intros [(e' & H1 & H2)|[[<- <-]|[C _]]]; [exists e'; tauto|exists e; auto|discriminate].
      + intros (e' & [H1|[<-|[]]] & <- & <-); [left; exists e'; auto|auto].
    - intros C. apply in_map_iff in C as ([k e0] & E & C). simpl in E. subst k. pose proof (K _ _ C) as Ek.
      assert (Hj : ends_at nid e0 (nid (e_i e)) (nid (e_j e))) by (eapply key_joins; [exact Ek|left; auto]).
      assert (H0 : arc g (nid (e_i e0)) (nid (e_j e0))). { apply X. exists e0. split; auto. unfold get_edges, dvals. apply in_map_iff. exists (edge_key nid e, e0); auto. }
      destruct Hj as [[Ea Eb]|[Ea Eb]]; rewrite Ea, Eb in H0; auto.
  Qed.
  Lemma eok_ends g e : ekeyed nid g -> eok g -> ekeyed nid (add_ends nid g e) /\ eok (add_ends nid g e).
  Proof.
    intros K X. split; [intros k e'; rewrite ends_edges; apply K|]. intros x y. unfold SpecGraph.arc, get_edges. rewrite ends_emap, ends_edges. apply X.
  Qed.
  Lemma eok_run ops : forall g, no_removal (map snd ops) -> dag_run nid ops = Ok g -> ekeyed nid g /\ eok g.
  Proof.
    unfold dag_run. assert (H0 : ekeyed nid g_empty /\ eok (@g_empty N)). { split; [intros k e []|]. intros x y. split; [intros []|intros (e & [] & _)]. }
    revert H0. generalize (@g_empty N). induction ops as [|[o op] ops IH]; intros g0 [K X] g HR; [intros E; injection E as <-; auto|].
    cbn [foldM]. destruct (dag_step nid g0 (o, op)) as [g1|] eqn:E; cbn [rbind]; [|discriminate]. intros E'.
    apply (IH g1); auto. 2:{ intros i Hi. apply (HR i). simpl; auto. } clear E' IH. unfold dag_step in E. cbn [fst snd] in E. destruct op as [n|e|i].
    - injection E as <-. unfold add_node. destruct (dmem _ _); auto.
    - unfold dag_add_edge in E. destruct (dag_shouldadd nid o (add_ends nid g0 e) e) as [b|] eqn:Eb; cbn [rbind] in E; [|discriminate]. injection E as <-.
      destruct (eok_ends g0 e K X) as [K1 X1]. destruct b; auto. apply shouldadd_true in Eb as (? & ? & ? & ?). split; [apply ekeyed_put; auto|apply eok_put; auto].
    - exfalso. apply (HR i). simpl; auto.
  Qed.

  Context (name : N -> string).
  (** the export *)
  Lemma nx_nodes (l : list (Z * N)) : (forall k n, In (k, n) l -> nid n = k) -> NoDup (dkeys l) -> fold_left (fun d kn => dg_add_node d (nid (snd kn))) l dg_empty = mkDg (dkeys l) [].
  Proof.
    induction l as [|[k n] l IH] using rev_ind; intros H1 H2; auto. unfold dkeys in *. rewrite map_app in *. simpl in *. rewrite fold_left_app, IH.
    - simpl. assert (E : nid n = k) by (apply H1, in_or_app; simpl; auto). rewrite E. unfold dg_add_node. simpl. destruct (mem_spec k (map fst l)) as [C|]; auto.
      exfalso. apply NoDup_remove_2 in H2. rewrite app_nil_r in H2. auto.
    - intros k' n' H. apply H1, in_or_app. auto.
    - apply NoDup_remove_1 in H2. rewrite app_nil_r in H2. auto.
  Qed.
  Lemma nx_edges (l : list (string * edge N)) : forall d, dgood d -> let d' := fold_left (fun d ke => dg_add_edge d (nid (e_i (snd ke))) (nid (e_j (snd ke)))) l d in
    dgood d' /\ (forall x y, In (x, y) (dg_edges d') <-> In (x, y) (dg_edges d) \/ exists e, In e (dvals l) /\ nid (e_i e) = x /\ nid (e_j e) = y) /\
    ((forall e, In e (dvals l) -> In (nid (e_i e)) (dg_nodes d) /\ In (nid (e_j e)) (dg_nodes d)) -> dg_nodes d' = dg_nodes d).
  Proof.
    induction l as [|[k e] l IH]; intros d G; cbn zeta; simpl.
    - split; auto. split; auto. intros x y. split; auto. intros [H|(e & [] & _)]; auto.
    - destruct (IH (dg_add_edge d (nid (e_i e)) (nid (e_j e))) (add_edge_good _ _ _ G)) as (I1 & I2 & I3). split; auto. split.
      + intros x y. rewrite I2, add_edge_In. split.
        * intros [[H|E]|(e' & H & H')]; auto; [right; exists e; inversion E; auto|right; exists e'; auto].
        * intros [H|(e' & [<-|H] & <- & <-)]; eauto.
      + intros H. destruct (H e) as [H1 H2]; auto. rewrite I3; rewrite add_edge_nodes_in; auto.
  Qed.
  Lemma labels_ok (l : list (Z * N)) : (forall k n, In (k, n) l -> nid n = k) -> NoDup (dkeys l) ->
    fold_left (fun m kv => dset m (fst kv) (snd kv)) (map (fun kn => (nid (snd kn), name (snd kn))) l) [] = map (fun kn => (fst kn, name (snd kn))) l.
  Proof.
    induction l as [|[k n] l IH] using rev_ind; intros H1 H2; auto. unfold dkeys in *. rewrite !map_app in *. simpl in *. rewrite fold_left_app, IH.
    - simpl. assert (E : nid n = k) by (apply H1, in_or_app; simpl; auto). rewrite E, dkeys_dset_notin; auto. unfold dkeys. rewrite map_map. simpl.
      apply NoDup_remove_2 in H2. rewrite app_nil_r in H2. auto.
    - intros k' n' H. apply H1, in_or_app. auto.
    - apply NoDup_remove_1 in H2. rewrite app_nil_r in H2. auto.
  Qed.
  Lemma dgood_nodes (l : list Z) : NoDup l -> dgood (mkDg l []).
  Proof. intros H. constructor; simpl; auto; [constructor|]. intros ? ? []. Qed.

  Lemma c53 : forall ops, orders_ok ops -> no_removal (map snd ops) -> exists g, dag_run nid ops = Ok g /\
    let '(d, labels) := to_nx_graph nid name g in
    dg_nodes d = dkeys (g_nodes g) /\ NoDup (dg_edges d) /\ (forall x y, In (x, y) (dg_edges d) <-> arc g x y) /\
    forall k, dget labels k = match get_node g k with Ok n => Some (name n) | Err _ => None end.
  Proof.
    intros ops H HR. destruct (dag_ok nid ops H) as [g [E [G A]]]. exists g. split; auto. destruct (eok_run ops g HR E) as [K X].
    unfold to_nx_graph. pose proof (gi_keys _ _ G : NoDup (dkeys (g_nodes g))) as HN. rewrite nx_nodes, labels_ok; auto using (gi_kid _ _ G); try exact (gi_kid _ _ G).
    destruct (nx_edges (g_edges g) (mkDg (dkeys (g_nodes g)) []) (dgood_nodes _ HN)) as (I1 & I2 & I3). split; [|split; [|split]].
    - apply I3. intros e He. simpl. assert (arc g (nid (e_i e)) (nid (e_j e))) as Q by (apply X; exists e; auto). apply (gi_in _ _ G) in Q. exact Q.
    - apply I1.
    - intros x y. rewrite I2. simpl. rewrite (X x y). unfold get_edges. tauto.
    - intros k. unfold get_node, dgetE. clear. induction (g_nodes g) as [|[k' n] l IH]; simpl; auto. change (eqb k k') with (Z.eqb k k'). destruct (Z.eqb k k'); auto.
  Qed.

  (** names to ids and back *)
  Lemma n2i_fold (l : list (Z * N)) : forall m s k, dget (fold_left (fun d kn => dset d (name (snd kn)) (fst kn)) l m) s = Some k ->
    dget m s = Some k \/ exists n, In (k, n) l /\ name n = s.
  Proof.
    induction l as [|[k0 n0] l IH]; intros m s k H; [auto|]. simpl in H. apply IH in H as [H|(n & H & E)]; [|right; exists n; simpl; auto].
    rewrite dget_dset in H. destruct (eqb_spec s (name n0)) as [->|]; auto. injection H as ->. right. exists n0. simpl. auto.
  Qed.
  Lemma n2i_some (l : list (Z * N)) : forall m s, ((exists k n, In (k, n) l /\ name n = s) \/ exists k, dget m s = Some k) ->
    exists k, dget (fold_left (fun d kn => dset d (name (snd kn)) (fst kn)) l m) s = Some k.
  Proof.
    induction l as [|[k0 n0] l IH]; intros m s H; [destruct H as [(k & n & [] & _)|H]; auto|]. simpl. apply IH. rewrite dget_dset.
    destruct (eqb_spec s (name n0)) as [->|Hn]; [right; eauto|]. destruct H as [(k & n & [E|H] & E')|H]; [inversion E; subst; congruence|left; eauto|right; auto].
  Qed.
  Lemma i2n_fold (l : list (Z * N)) : NoDup (dkeys l) -> fold_left (fun d kn => dset d (fst kn) (name (snd kn))) l [] = map (fun kn => (fst kn, name (snd kn))) l.
  Proof.
    induction l as [|[k n] l IH] using rev_ind; intros H2; auto. unfold dkeys in *. rewrite map_app in *. simpl in *. rewrite fold_left_app, IH.
    - simpl. rewrite dkeys_dset_notin; auto. unfold dkeys. rewrite map_map. simpl. apply NoDup_remove_2 in H2. rewrite app_nil_r in H2. auto.
    - apply NoDup_remove_1 in H2. rewrite app_nil_r in H2. auto.
  Qed.
  Lemma c54 : forall ops, orders_ok ops -> exists g, dag_run nid ops = Ok g /\
    (forall k, dget (get_i2n name g) k = match get_node g k with Ok n => Some (name n) | Err _ => None end) /\
    (forall s k, dget (get_n2i name g) s = Some k -> exists n, get_node g k = Ok n /\ name n = s) /\
    (forall k n, get_node g k = Ok n -> exists k', dget (get_n2i name g) (name n) = Some k') /\
    ((forall k k' n n', get_node g k = Ok n -> get_node g k' = Ok n' -> name n = name n' -> k = k') ->
     forall s k, dget (get_n2i name g) s = Some k <-> exists n, get_node g k = Ok n /\ name n = s).
  Proof.
    intros ops H. destruct (dag_ok nid ops H) as [g [E [G A]]]. exists g. split; auto. pose proof (gi_keys _ _ G : NoDup (dkeys (g_nodes g))) as HN.
    assert (GN : forall k n, get_node g k = Ok n <-> In (k, n) (g_nodes g)).
    { intros k n. unfold get_node, dgetE. rewrite <- dget_In_NoDup by auto. destruct (dget (g_nodes g) k); split; congruence. }
    assert (F : forall s k, dget (get_n2i name g) s = Some k -> exists n, get_node g k = Ok n /\ name n = s).
    { intros s k Hs. apply n2i_fold in Hs as [Hs|(n & Hn & En)]; [discriminate|]. exists n. split; auto. apply GN; auto. }
    assert (S0 : forall k n, get_node g k = Ok n -> exists k', dget (get_n2i name g) (name n) = Some k').
    { intros k n Hn. apply n2i_some. left. exists k, n. split; auto. apply GN; auto. }
    split; [|split; [exact F|split; [exact S0|]]].
    - intros k. unfold get_i2n. rewrite i2n_fold by auto. unfold get_node, dgetE. clear. induction (g_nodes g) as [|[k' n] l IH]; simpl; auto. change (eqb k k') with (Z.eqb k k'). destruct (Z.eqb k k'); auto.
    - intros U s k. split; [apply F|]. intros (n & Hn & <-). destruct (S0 k n Hn) as (k' & Hk'). rewrite Hk'. destruct (F _ _ Hk') as (n' & Hn' & En'). f_equal. eapply U; eauto.
  Qed.
End Q.

Lemma c52_bbn : forall ops x y, (dag_edge_exists (b_g (build ops)) x y = true <-> called ops x y /\ ~ called ops y x) /\
  (In x (get_parents (b_g (build ops)) y) <-> called ops x y) /\ forall o, ord_ok o -> (In y (get_children o (b_g (build ops)) x) <-> called ops x y).
Proof.
  intros ops x y. split; [|split].
  - rewrite dag_edge_iff, !bbn_arc. reflexivity.
  - rewrite get_parents_iff. apply bbn_arc.
  - intros o Ho. unfold get_children. rewrite zord_In by auto. apply bbn_arc.
Qed.
(** both directions, and neither is seen *)
Lemma c52_bbn_refuted : exists ops x y, called ops x y /\ dag_edge_exists (b_g (build ops)) x y = false.
Proof.
  exists [AddEdge (bn 1) (bn 2); AddEdge (bn 2) (bn 1)], 1%Z, 2%Z. split; [|vm_compute; reflexivity]. exists (bn 1), (bn 2). simpl. auto.
Qed.
(** the removed node comes back *)
Lemma c53_refuted : exists ops g i, orders_ok ops /\ dag_run zid (ops ++ [(ord_id, Remove i)]) = Ok g /\
  ~ In i (ids g) /\ In i (dg_nodes (fst (to_nx_graph zid str_of_Z g))).
Proof.
  exists [(ord_id, AddE (zedge 1 2 DIRECTED))]. eexists. exists 2%Z. split; [constructor; [exact ord_id_ok|constructor]|]. split; [vm_compute; reflexivity|]. split; vm_compute; intuition discriminate.
Qed.
