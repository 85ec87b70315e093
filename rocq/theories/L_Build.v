(** What a Bbn holds after a sequence of add_node / add_edge calls. *)
From Verif Require Import Py M_Graph M_Node M_Pptc Spec SpecNet L_Base L_PD L_UG L_Moral.

Lemma firsts_In l x : In x (firsts l) <-> In x l.
Proof.
  induction l as [|y l IH]; simpl; [tauto|]. rewrite filter_In, IH. destruct (Z.eqb_spec y x); simpl; intuition congruence.
Qed.
Lemma firsts_NoDup l : NoDup (firsts l).
Proof. induction l as [|y l IH]; simpl; constructor. rewrite filter_In, Z.eqb_refl. simpl. intros [_ H]; discriminate. apply NoDup_filter'; auto. Qed.
Lemma firsts_snoc l x : firsts (l ++ [x]) = if mem x l then firsts l else firsts l ++ [x].
Proof.
  induction l as [|y l IH]; simpl; auto. rewrite IH. unfold mem in *. simpl. destruct (Z.eqb_spec x y) as [->|Hn]; simpl.
  - destruct (existsb _ l); auto. rewrite filter_app. simpl. rewrite Z.eqb_refl. simpl. rewrite app_nil_r; auto.
  - destruct (existsb _ l); auto. rewrite filter_app. simpl. destruct (Z.eqb_spec y x); [congruence|]. auto.
Qed.
Lemma firsts_id l : NoDup l -> firsts l = l.
Proof.
  induction 1 as [|x l Hn HN IH]; simpl; auto. rewrite IH. f_equal. apply L_Elim.forallb_filter_id. apply forallb_forall. intros y Hy.
  destruct (Z.eqb_spec x y); auto. subst; tauto.
Qed.

(** first node object per id, as an association list *)
Definition nodes_of (l : list bnode) : list (Z * bnode) :=
  fold_left (fun d n => if dmem d (n_id n) then d else d ++ [(n_id n, n)]) l [].

Record binv (ops : list bop) (b : bbn) : Prop := {
  bi_ids : ids (b_g b) = net_vars ops;
  bi_get : forall i, dget (g_nodes (b_g b)) i = node_of ops i;
  bi_kid : forall k n, In (k, n) (g_nodes (b_g b)) -> n_id n = k;
  bi_par : forall i, dgets (b_parents b) i = net_par ops i;
  bi_em : forall i j, In j (emap (b_g b) i) <-> In i (net_par ops j);
  bi_edge : forall e, In e (get_edges (b_g b)) -> In (n_id (e_i e)) (net_par ops (n_id (e_j e)));
  bi_edge2 : forall i j, In i (net_par ops j) -> exists e, In e (get_edges (b_g b)) /\ n_id (e_i e) = i /\ n_id (e_j e) = j;
  bi_key : forall k e, In (k, e) (g_edges (b_g b)) -> e_t e = DIRECTED /\ k = edge_key n_id e;
  bi_ends : forall i j, In i (net_par ops j) -> In i (net_vars ops) /\ In j (net_vars ops);
  bi_enb : forall x y, In y (get_neighbors (b_g b) x) <-> In x (net_par ops y) \/ In y (net_par ops x);
  bi_pk : forall i, In i (dkeys (b_parents b)) <-> net_par ops i <> [] }.

Lemma node_of_app ops op i : node_of (ops ++ [op]) i = match node_of ops i with Some n => Some n | None => find (fun n => Z.eqb (n_id n) i) (op_nodes op) end.
Proof.
  unfold node_of, mentioned. rewrite flat_map_app. simpl. rewrite app_nil_r. generalize (flat_map op_nodes ops) as l. induction l as [|n l IH]; simpl; auto. destruct (Z.eqb (n_id n) i); auto.
Qed.
Lemma node_of_None ops i : node_of ops i = None <-> ~ In i (net_vars ops).
Proof.
  unfold node_of, net_vars. rewrite firsts_In. generalize (mentioned ops) as l. induction l as [|n l IH]; simpl; [tauto|].
  destruct (Z.eqb_spec (n_id n) i); [split; [discriminate|tauto]|]. rewrite IH. tauto.
Qed.
Lemma node_of_Some ops i n : node_of ops i = Some n -> In n (mentioned ops) /\ n_id n = i.
Proof. unfold node_of. intros H. apply find_some in H. rewrite Z.eqb_eq in H. auto. Qed.

(** one node *)
Definition vars_add (vs : list Z) (i : Z) : list Z := if mem i vs then vs else vs ++ [i].
Lemma firsts_mem l x : mem x l = mem x (firsts l).
Proof. destruct (mem_spec x l) as [H|H], (mem_spec x (firsts l)) as [H'|H']; auto; rewrite firsts_In in H'; tauto. Qed.
Lemma net_vars_snoc ops op : net_vars (ops ++ [op]) = fold_left vars_add (map n_id (op_nodes op)) (net_vars ops).
Proof.
  unfold net_vars, mentioned. rewrite flat_map_app, map_app. simpl. rewrite app_nil_r. generalize (map n_id (flat_map op_nodes ops)) as l.
  generalize (map n_id (op_nodes op)) as m. induction m as [|x m IH]; intros l; simpl. rewrite app_nil_r; auto.
  rewrite <- app_assoc_reverse with (m := [x]) || replace (l ++ x :: m) with ((l ++ [x]) ++ m) by (rewrite <- app_assoc; auto).
  rewrite IH. f_equal. rewrite firsts_snoc. unfold vars_add. rewrite <- firsts_mem. auto.
Qed.

Definition ninv (g : graph bnode) (vs : list Z) (nf : Z -> option bnode) : Prop :=
  ids g = vs /\ (forall i, dget (g_nodes g) i = nf i) /\ (forall k n, In (k, n) (g_nodes g) -> n_id n = k).

Lemma ninv_add g vs nf n : ninv g vs nf ->
  ninv (add_node n_id g n) (vars_add vs (n_id n)) (fun i => match nf i with Some m => Some m | None => if Z.eqb (n_id n) i then Some n else None end).
Proof.
  intros [H1 [H2 H3]]. unfold vars_add. rewrite <- H1. destruct (mem_spec (n_id n) (ids g)) as [Hi|Hi].
  - rewrite add_node_in by auto. split; auto. split; auto. intros i. rewrite H2. destruct (nf i) eqn:E; auto.
    destruct (Z.eqb_spec (n_id n) i) as [<-|]; auto. exfalso. apply dkeys_dget in Hi. destruct Hi as [m Em]. rewrite H2 in Em. congruence.
  - rewrite add_node_new by auto. split; [unfold ids, dkeys; simpl; rewrite map_app; auto|]. split.
    + intros i. simpl. rewrite dget_app, H2. destruct (nf i); auto. simpl. rewrite Z.eqb_sym. auto.
    + intros k m Hm. simpl in Hm. apply in_app_or in Hm. destruct Hm as [Hm|[E|[]]]; eauto. inv E; auto.
Qed.
Lemma ninv_ext g vs nf nf' : (forall i, nf i = nf' i) -> ninv g vs nf -> ninv g vs nf'.
Proof. intros E [H1 [H2 H3]]. split; auto. split; auto. intros i. rewrite H2; auto. Qed.

Lemma net_par_snoc ops op j : net_par (ops ++ [op]) j =
  match op with AddEdge a b => if Z.eqb (n_id b) j then vars_add (net_par ops j) (n_id a) else net_par ops j | AddNode _ => net_par ops j end.
Proof.
  unfold net_par. rewrite flat_map_app. simpl. rewrite app_nil_r. destruct op as [n|a b]; simpl; [rewrite app_nil_r; auto|].
  destruct (Z.eqb (n_id b) j); [|rewrite app_nil_r; auto]. rewrite firsts_snoc. unfold vars_add. rewrite <- firsts_mem. auto.
Qed.
Lemma vars_add_In vs i x : In x (vars_add vs i) <-> In x vs \/ x = i.
Proof. unfold vars_add. destruct (mem_spec i vs) as [H|H]. split; auto. intros [|E]; subst; auto. rewrite in_app_iff. simpl. intuition. Qed.

Theorem build_inv ops : binv ops (build ops).
Proof.
  induction ops as [|op ops IH] using rev_ind.
  - constructor; simpl; auto; try tauto; try (intros; tauto).
  - unfold build. rewrite fold_left_app. simpl. fold (build ops). set (b := build ops) in *.
    assert (NI : ninv (b_g b) (net_vars ops) (node_of ops)) by (split; [apply (bi_ids _ _ IH)|split; [apply (bi_get _ _ IH)|apply (bi_kid _ _ IH)]]).
    destruct op as [n|x y]; simpl.
    + destruct (ninv_add _ _ _ n NI) as [A1 [A2 A3]].
      assert (Ep : forall j, net_par (ops ++ [AddNode n]) j = net_par ops j) by (intros; rewrite net_par_snoc; auto).
      assert (Ev : net_vars (ops ++ [AddNode n]) = vars_add (net_vars ops) (n_id n)) by (rewrite net_vars_snoc; auto).
      constructor; simpl; try setoid_rewrite Ep.
      * rewrite Ev; auto.
      * intros i. rewrite A2, node_of_app. simpl. auto.
      * auto.
      * apply (bi_par _ _ IH).
      * intros i j. rewrite add_node_emap. apply (bi_em _ _ IH).
      * intros e. unfold get_edges. rewrite add_node_edges. apply (bi_edge _ _ IH).
      * intros i j Hi. unfold get_edges. rewrite add_node_edges. apply (bi_edge2 _ _ IH); auto.
      * intros k e. rewrite add_node_edges. apply (bi_key _ _ IH).
      * intros i j Hi. rewrite Ev. rewrite !vars_add_In. destruct (bi_ends _ _ IH i j Hi); auto.
      * intros u v. pose proof (add_node_adj n_id (b_g b) n u v) as E. unfold adj in E. rewrite E. apply (bi_enb _ _ IH).
      * apply (bi_pk _ _ IH).
    + pose proof (ninv_add _ _ _ y (ninv_add _ _ _ x NI)) as [A1 [A2 A3]].
      assert (Ev : net_vars (ops ++ [AddEdge x y]) = vars_add (vars_add (net_vars ops) (n_id x)) (n_id y)) by (rewrite net_vars_snoc; auto).
      assert (Ep : forall j, net_par (ops ++ [AddEdge x y]) j = if Z.eqb (n_id y) j then vars_add (net_par ops j) (n_id x) else net_par ops j) by (intros; rewrite net_par_snoc; auto).
      assert (Epi : forall i j, In i (net_par (ops ++ [AddEdge x y]) j) <-> In i (net_par ops j) \/ (i = n_id x /\ j = n_id y)).
      { intros i j. rewrite Ep. destruct (Z.eqb_spec (n_id y) j); [rewrite vars_add_In|]; intuition congruence. }
      assert (Pk : forall j, dgets (edge_added (b_parents b) (n_id x) (n_id y)) j = net_par (ops ++ [AddEdge x y]) j).
      { intros j. rewrite Ep. unfold edge_added. set (ps := if dmem (b_parents b) (n_id y) then b_parents b else dset (b_parents b) (n_id y) []).
        assert (Eps : forall k, dgets ps k = net_par ops k).
        { intros k. unfold ps. destruct (dmem (b_parents b) (n_id y)) eqn:E; [apply (bi_par _ _ IH)|]. rewrite dgets_dset. destruct (eqb_spec k (n_id y)) as [->|]; [|apply (bi_par _ _ IH)].
          apply dmem_false in E. rewrite (bi_pk _ _ IH) in E. destruct (net_par ops (n_id y)); auto. exfalso; apply E; discriminate. }
        rewrite Eps. unfold vars_add. destruct (mem_spec (n_id x) (net_par ops (n_id y))) as [Hm|Hm].
        - rewrite Eps. destruct (Z.eqb_spec (n_id y) j) as [<-|]; auto. rewrite (proj2 (mem_In _ _) Hm). auto.
        - rewrite dgets_dset. rewrite eqb_sym. change (eqb (n_id y) j) with (Z.eqb (n_id y) j). destruct (Z.eqb_spec (n_id y) j) as [<-|]; auto.
          rewrite (proj2 (mem_false _ _) Hm). auto. }
      constructor; simpl.
      * rewrite Ev. rewrite <- A1. auto.
      * intros i. change (g_nodes (add_node n_id (add_node n_id (b_g b) x) y)) with (g_nodes (add_node n_id (add_node n_id (b_g b) x) y)). rewrite A2, node_of_app. simpl.
        destruct (node_of ops i); auto. destruct (Z.eqb (n_id x) i); auto.
      * auto.
      * apply Pk.
      * intros i j. rewrite Epi. unfold emap. simpl. rewrite dsadd_gets. fold (emap (add_ends n_id (b_g b) (mkEdge x y DIRECTED)) i).
        unfold add_ends. simpl. rewrite !add_node_emap. rewrite (bi_em _ _ IH). tauto.
      * intros e He. apply dset_vals_In in He. rewrite Epi. destruct He as [->|He]; simpl; auto. left. apply (bi_edge _ _ IH).
        unfold get_edges. unfold add_ends in He. rewrite !add_node_edges in He. auto.
      * intros i j. rewrite Epi. intros [Hi|[-> ->]].
        -- destruct (bi_edge2 _ _ IH i j Hi) as [e [He [E1 E2]]]. unfold get_edges in *. simpl.
           unfold add_ends. rewrite !add_node_edges. apply in_map_iff in He. destruct He as [[k e'] [Ee He]]. simpl in Ee. subst e'.
           set (e1 := mkEdge x y DIRECTED) in *. destruct (string_dec k (edge_key n_id e1)) as [Ek|Ek].
           ++ exists e1. split; [apply dset_vals_new|]. destruct (bi_key _ _ IH k e He) as [T1 T2]. rewrite T2 in Ek. unfold edge_key in Ek. rewrite T1 in Ek. simpl in Ek.
              apply key_dir_inj in Ek. simpl. lia.
           ++ exists e. split; auto. eapply dset_vals_old; eauto.
        -- exists (mkEdge x y DIRECTED). split; auto. apply dset_vals_new.
      * intros k e He. apply dset_In in He. destruct He as [[-> ->]|He]; auto. unfold add_ends in He. rewrite !add_node_edges in He. apply (bi_key _ _ IH); auto.
      * intros i j. rewrite Epi, Ev, !vars_add_In. intros [Hi|[-> ->]]; auto. destruct (bi_ends _ _ IH i j Hi); auto.
      * intros u v. unfold get_neighbors. simpl. rewrite !dsadd_gets. fold (get_neighbors (add_ends n_id (b_g b) (mkEdge x y DIRECTED)) u).
        pose proof (add_ends_adj n_id (b_g b) (mkEdge x y DIRECTED) u v) as E. unfold adj in E. rewrite E. rewrite (bi_enb _ _ IH), !Epi. tauto.
      * intros i. rewrite <- Pk. unfold edge_added. set (ps := if dmem (b_parents b) (n_id y) then b_parents b else dset (b_parents b) (n_id y) []).
        assert (Hy : In (n_id y) (dkeys ps)). { unfold ps. destruct (dmem (b_parents b) (n_id y)) eqn:E; [apply dmem_In in E; auto|]. apply dkeys_dset_In. auto. }
        assert (Hk : forall k, k <> n_id y -> In k (dkeys ps) <-> In k (dkeys (b_parents b))). { intros k Hk. unfold ps. destruct (dmem _ _); [tauto|]. rewrite dkeys_dset_In. tauto. }
        assert (Hg : forall k, k <> n_id y -> dgets ps k = dgets (b_parents b) k). { intros k Hk'. unfold ps. destruct (dmem _ _); auto. apply dgets_dset_neq; auto. }
        destruct (Z.eq_dec i (n_id y)) as [->|Hn].
        -- destruct (mem_spec (n_id x) (dgets ps (n_id y))) as [Hm|Hm]; split; auto.
           ++ intros _ E. rewrite E in Hm. destruct Hm.
           ++ intros _ E. rewrite dgets_dset_eq in E. destruct (dgets ps (n_id y)); discriminate.
           ++ intros _. apply dkeys_dset_In. auto.
        -- destruct (mem_spec (n_id x) (dgets ps (n_id y))) as [Hm|Hm].
           ++ rewrite Hk, Hg by auto. rewrite (bi_pk _ _ IH), (bi_par _ _ IH). tauto.
           ++ rewrite dkeys_dset_In, Hk, dgets_dset_neq, Hg by auto. rewrite (bi_pk _ _ IH), (bi_par _ _ IH). tauto.
Qed.
