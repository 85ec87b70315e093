(** Moralizer.moralize and Triangulator.triangulate. *)
From Verif Require Import Py M_Graph M_Node M_Pptc Spec L_Base L_PD L_UG L_Ids L_Elim L_Trans.

Lemma elim_ext V adj Ks : elim V adj Ks -> forall adj', (forall x y, In x V -> In y V -> adj x y <-> adj' x y) -> elim V adj' Ks.
Proof.
  induction 1 as [adj|V V' v N adj Ks HP HN HNs He IH]; intros adj' Ha; [constructor|].
  assert (Hi : forall x, In x V' -> In x V) by (intros x Hx; apply (Permutation_in _ (Permutation_sym HP)); right; auto).
  assert (Hv : In v V) by (apply (Permutation_in _ (Permutation_sym HP)); left; auto).
  econstructor; eauto.
  - intros x. rewrite HNs. split; intros [H1 H2]; split; auto; apply Ha in H2; auto.
  - apply IH. intros x y Hx Hy. rewrite Ha; auto. reflexivity.
Qed.

Section Tri.
  Context (o : Ord) (Ho : ord_ok o).
  Notation ug := (ug n_id).

  Lemma nbr_nodes_ok m n : ug m -> exists ns, nbr_nodes o m n = Ok ns /\ map n_id ns = zord o (n_id n) (get_neighbors m (n_id n)).
  Proof using Ho.
    intros U. unfold nbr_nodes. apply get_nodes_ok; auto. intros x Hx. apply zord_In in Hx; auto. eapply ug_in2; eauto.
  Qed.

  Lemma generate_ok m : ug m -> exists l, generate_cliques o m = Ok l /\ map nc_node l = get_nodes m /\
    forall nc, In nc l -> nbr_nodes o m (nc_node nc) = Ok (nc_nbrs nc) /\ edges_to_add o (nc_node nc) m = Ok (nc_edges nc).
  Proof using Ho.
    intros U. unfold generate_cliques. induction (get_nodes m) as [|n l IH]; simpl.
    - exists []. split; auto. split; auto. intros nc [].
    - destruct (nbr_nodes_ok m n U) as [ns [E1 _]]. destruct IH as [l' [E2 [E3 E4]]].
      assert (Ew : exists w, tri_weight o n m = Ok w) by (unfold tri_weight; rewrite E1; simpl; eauto). destruct Ew as [w Ew].
      assert (Ee : exists es, edges_to_add o n m = Ok es) by (unfold edges_to_add; rewrite E1; simpl; eauto). destruct Ee as [es Ee].
      rewrite E1. cbn [rbind]. rewrite Ew. cbn [rbind]. rewrite Ee. cbn [rbind]. rewrite E2. cbn [rbind]. eexists. split; [reflexivity|]. simpl. split; [congruence|].
      intros nc [<-|Hnc]; simpl; auto.
  Qed.

  Lemma select_ok m : ug m -> get_nodes m <> [] -> exists nc, select_node o m = Ok nc /\ In (nc_node nc) (get_nodes m) /\
    nbr_nodes o m (nc_node nc) = Ok (nc_nbrs nc) /\ edges_to_add o (nc_node nc) m = Ok (nc_edges nc).
  Proof using Ho.
    intros U Hne. unfold select_node. destruct (generate_ok m U) as [l [-> [E2 E3]]]. cbn [rbind].
    destruct (isort nc_leb l) as [|nc t] eqn:Es.
    - exfalso. apply Hne. rewrite <- E2. 
      pose proof (isort_perm nc_leb l) as P. rewrite Es in P. apply Permutation_nil in P. subst; auto.
    - assert (Hi : In nc l) by (apply (isort_In nc_leb); rewrite Es; left; auto). exists nc. split; auto. split; auto. rewrite <- E2. apply in_map; auto.
  Qed.

  Lemma link_pairs m ns x y : ug m -> NoDup (map n_id ns) ->
    (adj m x y \/ exists e, In e (map (fun p => mkEdge (fst p) (snd p) UNDIRECTED)
          (filter (fun p => negb (edge_exists m (n_id (fst p)) (n_id (snd p)))) (pairs ns))) /\ link n_id e x y) <->
    (adj m x y \/ (In x (map n_id ns) /\ In y (map n_id ns) /\ x <> y)).
  Proof.
    intros U HN. split.
    - intros [H|[e [He Hl]]]; auto. right. apply in_map_iff in He. destruct He as [[a b] [<- He]]. apply filter_In in He. destruct He as [He _].
      apply pairs_In in He. destruct He as [Ha Hb]. unfold link in Hl. simpl in Hl. destruct Hl as [Hn [[-> ->]|[-> ->]]]; repeat split; auto; apply in_map; auto.
    - intros [H|[Hx [Hy Hn]]]; auto. apply in_map_iff in Hx. destruct Hx as [a [<- Ha]]. apply in_map_iff in Hy. destruct Hy as [b [<- Hb]].
      destruct (edge_exists m (n_id a) (n_id b)) eqn:E. { left. apply edge_exists_adj with (nid := n_id) in E; auto. }
      assert (E' : edge_exists m (n_id b) (n_id a) = false).
      { destruct (edge_exists m (n_id b) (n_id a)) eqn:E'; auto. apply edge_exists_adj with (nid := n_id) in E'; auto. apply (ug_sym _ _ U) in E'. apply edge_exists_adj with (nid := n_id) in E'; auto. congruence. }
      right. destruct (pairs_all ns a b Ha Hb) as [Hp|Hp]; [congruence| |].
      + exists (mkEdge a b UNDIRECTED). split; [|unfold link; simpl; auto]. apply in_map_iff. exists (a, b). split; auto. apply filter_In. simpl. rewrite E. auto.
      + exists (mkEdge b a UNDIRECTED). split; [|unfold link; simpl; auto]. apply in_map_iff. exists (b, a). split; auto. apply filter_In. simpl. rewrite E'. auto.
  Qed.

  Definition fill (K : list Z) (x y : Z) : Prop := In x K /\ In y K /\ x <> y.

  Theorem tri_loop_ok f : forall m mm acc, ug m -> ug mm -> (forall x y, adj mm x y -> adj m x y) -> incl (ids mm) (ids m) ->
    List.length (ids mm) <= f ->
    exists m' Ks, tri_loop o f m mm (map mk_clique acc) = Ok (m', map mk_clique (keep acc Ks)) /\ elim (ids mm) (adj mm) Ks /\
      ug m' /\ g_nodes m' = g_nodes m /\ (forall x y, adj m' x y <-> adj m x y \/ exists K, In K Ks /\ fill K x y).
  Proof using Ho.
    induction f as [|f IH]; intros m mm acc Um U Hsub Hids Hf.
    - destruct (g_nodes mm) as [|p l] eqn:E; [|unfold ids, dkeys in Hf; rewrite E in Hf; simpl in Hf; lia].
      exists m, []. assert (E' : get_nodes mm = []) by (unfold get_nodes, dvals; rewrite E; auto). split; [simpl; rewrite E'; auto|].
      split; [unfold ids, dkeys; rewrite E; constructor|]. split; auto. split; auto. intros x y. split; auto. intros [H|[K [[] _]]]; auto.
    - destruct (list_eq_dec Z.eq_dec (ids mm) []) as [E|E].
      + assert (E' : get_nodes mm = []). { pose proof (get_nodes_ids n_id mm U) as E'. rewrite E in E'. apply map_eq_nil in E'. auto. }
        exists m, []. split; [simpl; rewrite E'; auto|]. rewrite E. split; [constructor|]. split; auto. split; auto. intros x y. split; auto. intros [H|[K [[] _]]]; auto.
      + assert (Hne : get_nodes mm <> []). { pose proof (get_nodes_ids n_id mm U) as E'. intros E2. rewrite E2 in E'. simpl in E'. congruence. }
        destruct (select_ok mm U Hne) as [nc [Es [Hnc [En Ee]]]].
        assert (EL : tri_loop o (S f) m mm (map mk_clique acc) =
                     (let c := mk_clique (map n_id (nc_nbrs nc ++ [nc_node nc])) in
                      let cliques' := if is_subset (map mk_clique acc) c then map mk_clique acc else map mk_clique acc ++ [c] in
                      let mm1 := remove_node mm (n_id (nc_node nc)) in
                      tri_loop o f (fold_left (add_edge n_id) (nc_edges nc) m) (fold_left (add_edge n_id) (nc_edges nc) mm1) cliques')).
        { cbn [tri_loop]. destruct (get_nodes mm) as [|p l] eqn:Eg; [congruence|]. rewrite Es. cbn [rbind]. reflexivity. }
        rewrite EL. clear EL. cbv zeta.
        set (v := n_id (nc_node nc)) in *.
        destruct (nbr_nodes_ok mm (nc_node nc) U) as [ns [E1 E2]]. rewrite E1 in En. inversion En; subst ns. clear En E1. fold v in E2.
        set (NN := zord o v (get_neighbors mm v)) in *.
        assert (HNN : NoDup NN). { apply Permutation_NoDup with (get_neighbors mm v). symmetry. apply Ho. apply (ug_nd _ _ U). }
        assert (HNi : forall x, In x NN <-> adj mm v x). { intros x. unfold NN. rewrite zord_In by auto. reflexivity. }
        assert (Hv : In v (ids mm)). { rewrite <- (get_nodes_ids n_id mm U). apply in_map; auto. }
        assert (HvN : ~ In v NN). { rewrite HNi. apply (ug_irr _ _ U). }
        rewrite map_app, E2. simpl map. fold v.
        assert (Eac : (if is_subset (map mk_clique acc) (mk_clique (NN ++ [v])) then map mk_clique acc else map mk_clique acc ++ [mk_clique (NN ++ [v])]) =
                       map mk_clique (if existsb (fun A => subset (NN ++ [v]) A) acc then acc else acc ++ [NN ++ [v]])).
        { assert (Ei : is_subset (map mk_clique acc) (mk_clique (NN ++ [v])) = existsb (fun A => subset (NN ++ [v]) A) acc).
          { unfold is_subset. clear. induction acc as [|A acc IH]; simpl; auto. rewrite IH. reflexivity. }
          rewrite Ei. destruct (existsb _ acc); auto. rewrite map_app. reflexivity. }
        rewrite Eac. clear Eac.
        set (mm1 := remove_node mm v). assert (U1 : ug mm1) by (apply ug_remove; auto).
        assert (Hund : forall e, In e (nc_edges nc) -> e_t e = UNDIRECTED).
        { unfold edges_to_add in Ee. apply rbind_Ok in Ee. destruct Ee as [ns [_ Ee]]. inversion Ee as [Ee']. intros e He. apply in_map_iff in He. destruct He as [p [<- _]]. auto. }
        assert (Hes : nc_edges nc = map (fun p => mkEdge (fst p) (snd p) UNDIRECTED)
           (filter (fun p => negb (edge_exists mm (n_id (fst p)) (n_id (snd p)))) (pairs (nc_nbrs nc)))).
        { unfold edges_to_add in Ee. destruct (nbr_nodes_ok mm (nc_node nc) U) as [ns [E1 _]]. rewrite E1 in Ee. cbn [rbind] in Ee. inversion Ee as [Ee'].
          assert (ns = nc_nbrs nc); [|subst; auto]. destruct (select_ok mm U Hne) as [nc' [Es' [_ [En' _]]]]. rewrite Es in Es'. inversion Es'; subst nc'. congruence. }
        assert (Hends : forall e, In e (nc_edges nc) -> In (n_id (e_i e)) NN /\ In (n_id (e_j e)) NN).
        { intros e He. rewrite Hes in He. apply in_map_iff in He. destruct He as [[a b] [<- He]]. apply filter_In in He. destruct He as [He _]. apply pairs_In in He.
          destruct He as [Ha Hb]. simpl. rewrite <- E2. split; apply in_map; auto. }
        assert (HNids : forall x, In x NN -> In x (ids mm1)).
        { intros x Hx. apply remove_ids. split; [|intros ->; auto]. apply HNi in Hx. eapply ug_in2; eauto. }
        destruct (fold_add_edges n_id (nc_edges nc) mm1 U1 Hund) as [U2 [A2 I2]].
        destruct (fold_add_edges n_id (nc_edges nc) m Um Hund) as [Um2 [Am2 Im2]].
        assert (Inm : g_nodes (fold_left (add_edge n_id) (nc_edges nc) m) = g_nodes m).
        { apply Im2. intros e He. destruct (Hends e He) as [Ha Hb]. split; apply Hids; [apply HNids in Ha; apply remove_ids in Ha; tauto|apply HNids in Hb; apply remove_ids in Hb; tauto]. }
        assert (In1 : g_nodes (fold_left (add_edge n_id) (nc_edges nc) mm1) = g_nodes mm1).
        { apply I2. intros e He. destruct (Hends e He) as [Ha Hb]. auto. }
        set (mm2 := fold_left (add_edge n_id) (nc_edges nc) mm1) in *. set (m2 := fold_left (add_edge n_id) (nc_edges nc) m) in *.
        assert (Lk : forall x y, adj mm x y \/ (exists e, In e (nc_edges nc) /\ link n_id e x y) <-> adj mm x y \/ (In x NN /\ In y NN /\ x <> y)).
        { intros x y. rewrite Hes. rewrite link_pairs; auto; rewrite E2; auto. reflexivity. }
        assert (Lk1 : forall x y, (exists e, In e (nc_edges nc) /\ link n_id e x y) -> In x NN /\ In y NN /\ x <> y).
        { intros x y [e [He [Hn Hl]]]. destruct (Hends e He). destruct Hl as [[-> ->]|[-> ->]]; auto. }
        assert (Ha2 : forall x y, adj mm2 x y <-> (adj mm x y /\ x <> v /\ y <> v) \/ (In x NN /\ In y NN /\ x <> y)).
        { intros x y. rewrite A2. unfold mm1. rewrite remove_adj. split.
          - intros [H|H]; auto.
          - intros [H|H]; auto. destruct (proj2 (Lk x y) (or_intror H)) as [H'|H']; auto. left. split; auto. destruct H as [H1 [H2 _]]. split; intros ->; auto. }
        assert (Ham : forall x y, adj m2 x y <-> adj m x y \/ fill (NN ++ [v]) x y).
        { intros x y. rewrite Am2. split.
          - intros [H|H]; auto. right. apply Lk1 in H. unfold fill. rewrite !in_app_iff. tauto.
          - intros [H|[H1 [H2 H3]]]; auto. apply in_app_or in H1. apply in_app_or in H2. destruct H1 as [H1|[<-|[]]], H2 as [H2|[<-|[]]]; try congruence.
            + destruct (proj2 (Lk x y)) as [H'|H']; auto.
            + left. apply Hsub. apply (ug_sym _ _ U). apply HNi; auto.
            + left. apply Hsub. apply HNi; auto. }
        assert (Hsub2 : forall x y, adj mm2 x y -> adj m2 x y).
        { intros x y. rewrite Ha2, Ham. intros [[H _]|H]; auto. right. unfold fill. rewrite !in_app_iff. tauto. }
        assert (Eid : ids mm2 = ids mm1) by (unfold ids; rewrite In1; auto).
        assert (Hperm : Permutation (ids mm) (v :: ids mm1)).
        { apply NoDup_Permutation. apply (ug_keys _ _ U). constructor. unfold mm1. rewrite remove_ids. tauto. apply (ug_keys _ _ U1).
          intros x. unfold mm1. simpl. rewrite remove_ids. destruct (Z.eq_dec x v) as [->|Hn]. tauto. intuition congruence. }
        destruct (IH m2 mm2 (if existsb (fun A => subset (NN ++ [v]) A) acc then acc else acc ++ [NN ++ [v]])) as [m' [Ks [F1 [F2 [F3 [F4 F5]]]]]]; auto.
        { rewrite Eid. unfold ids at 2. rewrite Inm. intros x Hx. apply Hids. apply remove_ids in Hx. tauto. }
        { rewrite Eid. pose proof (Permutation_length Hperm) as El. simpl in El. lia. }
        rewrite F1. exists m', ((NN ++ [v]) :: Ks). split; [reflexivity|]. split.
        * apply elim_cons with (V' := ids mm1); auto.
          -- intros x. rewrite HNi. split; [|tauto]. intros Hx. split; auto. apply HNids, HNi; auto.
          -- rewrite <- Eid. eapply elim_ext; [exact F2|]. intros x y Hx Hy. rewrite Ha2.
             rewrite Eid in Hx, Hy. unfold mm1 in Hx, Hy. apply remove_ids in Hx. apply remove_ids in Hy. tauto.
        * split; auto. split; [congruence|]. intros x y. rewrite F5, Ham. split.
          -- intros [[H|H]|[K [H1 H2]]]; auto. right. exists (NN ++ [v]). split; auto. left; auto. right. exists K. split; auto. right; auto.
          -- intros [H|[K [[<-|H1] H2]]]; auto. right. exists K. auto.
  Qed.
End Tri.
