(** apply on the network denoted by a sequence of calls. *)
From Verif Require Import Py M_Graph M_Node M_Pptc Spec SpecNet L_Base L_PD L_Sums L_Table L_Tree L_Walk L_Forest L_Root L_Good L_Prop L_Init L_Post L_Read
  L_Ids L_Trans L_Elim L_UG L_Tri L_Moral L_Build L_Exact L_Apply.

Open Scope nat_scope.

Lemma net_shape ops : well_shaped ops -> nshape (net_of ops).
Proof.
  intros H. pose proof (build_inv ops) as B. constructor; simpl.
  - apply firsts_NoDup.
  - apply (ws_some _ H).
  - apply (ws_dom _ H).
  - apply (ws_cpt _ H).
  - apply (ws_pos _ H).
  - intros i. apply NoDup_app_intro.
    + apply firsts_NoDup.
    + constructor; [intros []|constructor].
    + intros x Hx [<-|[]]. revert Hx. apply (ws_loop _ H).
  - intros i k. apply (bi_ends _ _ B).
Qed.

Lemma build_good ops : bgood (net_of ops) (net_name ops) (build ops).
Proof.
  pose proof (build_inv ops) as B. constructor; simpl.
  - apply (bi_ids _ _ B).
  - intros k n Hn. split; [apply (bi_kid _ _ B); auto|].
    assert (E : node_of ops k = Some n).
    { rewrite <- (bi_get _ _ B). apply dget_In_NoDup; auto. unfold ids in *. change (NoDup (ids (b_g (build ops)))). rewrite (bi_ids _ _ B). apply firsts_NoDup. }
    unfold net_name, net_dom, net_cpt. rewrite E. auto.
  - apply (bi_par _ _ B).
  - apply (bi_em _ _ B).
  - apply (bi_edge _ _ B).
  - apply (bi_edge2 _ _ B).
Qed.

Lemma build_fresh ops : well_shaped ops -> forall i n, In (i, n) (g_nodes (b_g (build ops))) -> n_mclq n = None.
Proof.
  intros H i n Hn. pose proof (build_inv ops) as B.
  assert (E : node_of ops i = Some n).
  { rewrite <- (bi_get _ _ B). apply dget_In_NoDup; auto. change (NoDup (ids (b_g (build ops)))). rewrite (bi_ids _ _ B). apply firsts_NoDup. }
  apply (ws_fresh _ H). apply (node_of_Some _ _ _ E).
Qed.

(** any two variables are joined by parent links *)
Definition net_connected (N : net) : Prop := forall u v, In u (vars N) -> In v (vars N) -> path (sym (is_parent N)) u v.

Lemma tree_connected N nm b (HN : nshape N) (HB : bgood N nm b) Ks j F :
  elim (vars N) (mor N) Ks -> jt_cliques j = map mk_clique (keep [] Ks) -> jt_sepsets j = rev F ->
  greedy ends [] (get_sep_sets (h_weight (hm N b)) (map mk_clique (keep [] Ks))) F ->
  net_connected N -> jconn j.
Proof.
  intros HE Ec Es HG Hcon. set (ks := keep [] Ks) in *. set (cs := map mk_clique ks) in *.
  assert (Hcov : forall C, incl C (vars N) -> C <> [] -> complete (mor N) C -> exists K, In K ks /\ incl C K).
  { intros C H1 H2 H3. destruct (elim_cover _ _ _ HE (mor_sym N) C H1 H2 H3) as [K [HK Hi]]. destruct (kept_cover Ks K HK) as [B [HB' Hi']].
    exists B. split; auto. eapply incl_tran; eauto. }
  assert (Hshare : forall c d x, In c cs -> In d cs -> In x (cl_nodes c) -> In x (cl_nodes d) -> conn (map ends (rev F)) (cl_id c) (cl_id d)).
  { intros c d x Hc Hd Hxc Hxd.
    assert (Hcase : c = d \/ c <> d). { apply in_map_iff in Hc. apply in_map_iff in Hd. destruct Hc as [K [<- _]], Hd as [K' [<- _]]. destruct (list_eq_dec Z.eq_dec K K'); [left; congruence|right; intros E; injection E; auto]. }
    destruct Hcase as [->|Hne]; [apply conn_refl|].
    assert (Hgo : forall a c', In (a, c') (pairs cs) -> In x (cl_nodes a) -> In x (cl_nodes c') -> conn (map ends (rev F)) (cl_id a) (cl_id c')).
    { intros a c' Hp Ha Hc'. assert (Hi : inter a c' <> []). { intros E. assert (Hx : In x (inter a c')) by (apply inter_In; auto). rewrite E in Hx. destruct Hx. }
      assert (Hs : In (mk_sepset a c') (get_sep_sets (h_weight (hm N b)) cs)) by (apply sep_sets_In; exists a, c'; auto).
      assert (Hm : 1 <= ss_mass (mk_sepset a c')). { unfold ss_mass. rewrite mk_sepset_nodes. destruct (inter a c'); [congruence|simpl; lia]. }
      assert (Hg := greedy_heavy ends ss_mass 1 [] _ F HG (fun x s H => match H with end) (sep_sets_sorted cs _) _ Hs Hm).
      unfold ends in Hg at 2 3. simpl in Hg. rewrite mk_sepset_left, mk_sepset_right in Hg.
      eapply conn_mono; [|exact Hg]. intros p Hp'. apply in_map_iff in Hp'. destruct Hp' as [s [<- Hs']]. apply in_map. apply in_rev. rewrite rev_involutive. unfold heavy in Hs'. apply filter_In in Hs'. tauto. }
    destruct (pairs_all cs c d Hc Hd Hne) as [Hp|Hp]; [apply Hgo; auto|apply conn_sym, Hgo; auto]. }
  assert (Hp : forall u v, path (sym (is_parent N)) u v -> forall c d, In c cs -> In d cs -> In u (cl_nodes c) -> In v (cl_nodes d) -> conn (map ends (rev F)) (cl_id c) (cl_id d)).
  { intros u v H. induction H as [u|u w v Hs Hw IH]; intros c d Hc Hd Hu Hv; [eapply Hshare; eauto|].
    assert (Hk : exists K, In K ks /\ In u K /\ In w K).
    { assert (Hone : forall p q, is_parent N p q -> exists K, In K ks /\ In p K /\ In q K).
      { intros p q [Hq Hpq]. destruct (Hcov (par N q ++ [q])) as [K [HK Hin]].
        - intros x Hx. apply in_app_or in Hx. destruct Hx as [Hx|[<-|[]]]; auto. apply (ns_ends _ HN _ _ Hx).
        - destruct (par N q); discriminate.
        - intros x y Hx Hy Hxy. split; auto. exists q; auto.
        - exists K. split; auto. split; apply Hin, in_or_app; simpl; auto. }
      destruct Hs as [Hs|Hs]; apply Hone in Hs; destruct Hs as [K [H1 [H2 H3]]]; exists K; auto. }
    destruct Hk as [K [HK [HuK HwK]]]. assert (HKc : In (mk_clique K) cs) by (apply in_map; auto).
    eapply conn_trans; [eapply (Hshare c (mk_clique K) u); auto|apply IH; auto]. }
  intros c d Hc Hd. rewrite Ec in Hc, Hd. rewrite Es.
  assert (Hsome : forall c, In c cs -> exists u, In u (cl_nodes c) /\ In u (vars N)).
  { intros c0 Hc0. apply in_map_iff in Hc0. destruct Hc0 as [K [<- HK]]. apply kept_sub in HK. destruct (elim_sub _ _ _ HE K HK) as [H1 H2]. destruct K as [|z K]; [congruence|].
    exists z. split; [left; auto|apply H1; left; auto]. }
  destruct (Hsome c Hc) as [u [Hu Vu]]. destruct (Hsome d Hd) as [v [Hv Vv]]. apply (Hp u v); auto.
Qed.

(** changing the listener, potentials or evidence keeps a well-formed tree *)
Lemma jnet_ext N nm j j' : jt_nodes j' = jt_nodes j -> jt_nbrs j' = jt_nbrs j -> jt_heap j' = jt_heap j -> jnet N nm j -> jnet N nm j'.
Proof.
  intros E1 E2 E3 H. assert (Ec : jt_cliques j' = jt_cliques j) by (unfold jt_cliques; rewrite E1; auto).
  assert (Es : jt_sepsets j' = jt_sepsets j) by (unfold jt_sepsets; rewrite E1; auto).
  assert (Ei : jt_bbn_ids j' = jt_bbn_ids j) by (unfold jt_bbn_ids; rewrite Ec; auto).
  destruct H as [H1 H2 H3 H4 H5 H6]. constructor.
  - destruct H1. constructor; unfold jt_neighbors in *; rewrite ?E2, ?Ec, ?Es, ?E1; auto.
  - destruct H2. constructor; rewrite ?Ei, ?Ec, ?E3; auto. intros i Hi. destruct (hg_node i Hi) as [n Hn]. exists n. unfold jt_parent_ids in *. rewrite E3. auto.
  - unfold jcount. rewrite Ec, Es, Ei. auto.
  - rewrite Ei. auto.
  - rewrite E3. auto.
  - rewrite Ec. auto.
Qed.

(** a join tree that is ready for evidence: it stores the likelihoods [L] and its potentials are the result of
    propagating them *)
Record live (N : net) (nm : Z -> string) (L : likelihood) (j : jtree) : Prop := {
  lv_net : jnet N nm j;
  lv_ev : efull j (dom N) L;
  lv_lis : jt_listener j = true;
  lv_pos : forall i v, In i (vars N) -> In v (dom N i) -> (0 <= L i v)%Qc;
  lv_from : exists o L1 j0 j1 x t ts, agree N L1 L /\ jnet N nm j0 /\ outcome o (dom N) (cpt_entry N) L1 j0 j1 x t ts /\ j = set_jlistener j1 true }.

Lemma agree_refl N L : agree N L L. Proof. intros i v _ _; auto. Qed.
Lemma agree_sym N L L' : agree N L L' -> agree N L' L. Proof. intros H i v Hi Hv; symmetry; auto. Qed.
Lemma agree_trans N L L' L'' : agree N L L' -> agree N L' L'' -> agree N L L''.
Proof. intros H1 H2 i v Hi Hv. rewrite H1; auto. Qed.
Lemma weight_agree N L L' a : agree N L L' -> okon (dom N) (vars N) a -> weight N L a = weight N L' a.
Proof. intros H Ha. unfold weight. f_equal. apply qprod_map_ext. intros v Hv. apply H; auto. Qed.
Lemma posterior_agree N L L' i y : agree N L L' -> exact_posterior N L i y = exact_posterior N L' i y.
Proof.
  intros H. assert (E : total N L = total N L'). { apply sums_ext_gen. intros b _ Hb. apply weight_agree; auto. }
  assert (E2 : mass_of N L i y = mass_of N L' i y). { apply sums_ext_gen. intros b _ Hb. destruct (string_dec (b i) y); auto. apply weight_agree; auto. }
  unfold exact_posterior. rewrite E, E2. auto.
Qed.

Lemma efull_egood j dm L : efull j dm L -> egood j dm L.
Proof. intros H i Hi. right. apply H; auto. Qed.
Lemma set_listener_id j : jt_listener j = true -> set_jlistener j true = j.
Proof. destruct j; simpl. intros ->. reflexivity. Qed.
Lemma jconn_ext j j' : jt_nodes j' = jt_nodes j -> jconn j -> jconn j'.
Proof. unfold jconn, jt_cliques, jt_sepsets. intros ->; auto. Qed.

Section Live.
  Context (N : net) (nm : Z -> string) (HV : NoDup (vars N)) (Hnm : NoDup (map nm (vars N))).

  (** running initialisation and propagation on any well-formed tree with evidence [L] *)
  Theorem infer_live0 o j L : ord_ok o -> jnet N nm j -> egood j (dom N) L ->
    (forall i v, In i (vars N) -> In v (dom N i) -> 0 <= L i v)%Qc ->
    exists j2, infer o j = Ok j2 /\ live N nm L (set_jlistener j2 true) /\ same j j2.
  Proof using HV.
    intros Ho HJ HE HL. destruct (infer_net0 N nm HV o j L Ho HJ HE HL) as [j2 [x [t [ts [E [O [HJ2 HE2]]]]]]].
    exists j2. split; auto. split; [|apply O]. constructor; auto.
    - eapply jnet_ext; [| | |exact HJ2]; auto.
    - exists o, L, j, j2, x, t, ts. auto using agree_refl.
  Qed.

  Theorem infer_live o j L : ord_ok o -> jnet N nm j -> egood j (dom N) L ->
    (forall i v, In i (vars N) -> In v (dom N i) -> 0 <= L i v)%Qc ->
    exists j2, infer o j = Ok j2 /\ live N nm L (set_jlistener j2 true) /\ same j j2.
  Proof using HV Hnm. exact (infer_live0 o j L). Qed.

  Theorem live_posterior L j : live N nm L j -> jconn j ->
    forall i y, In i (vars N) -> In y (dom N i) -> posterior j (nm i) y = Ok (exact_posterior N L i y).
  Proof using HV Hnm.
    intros H Hc i y Hi Hy. destruct (lv_from _ _ _ _ H) as [o [L1 [j0 [j1 [x [t [ts [HA [H0 [O E]]]]]]]]]]. subst j.
    change (posterior (set_jlistener j1 true) (nm i) y) with (posterior j1 (nm i) y).
    rewrite (posterior_agree N L L1) by (apply agree_sym; auto). eapply posterior_net; eauto.
    - apply jconn_ext with j1; [symmetry; apply O|exact Hc].
    - intros k v Hk Hv. rewrite HA by auto. apply (lv_pos _ _ _ _ H); auto.
  Qed.

  (** the table of posteriors: names in the tree's order, each with its values in order *)
  Theorem live_table L j : live N nm L j -> jconn j ->
    get_posteriors j = Ok (map (fun i => (nm i, map (fun y => (y, exact_posterior N L i y)) (dom N i))) (jt_bbn_ids j)).
  Proof using HV Hnm.
    intros H Hc. destruct (lv_from _ _ _ _ H) as [o [L1 [j0 [j1 [x [t [ts [HA [H0 [O E]]]]]]]]]]. subst j.
    change (get_posteriors (set_jlistener j1 true)) with (get_posteriors j1). change (jt_bbn_ids (set_jlistener j1 true)) with (jt_bbn_ids j1).
    assert (HL' : forall i v, In i (jt_bbn_ids j0) -> In v (dom N i) -> (0 <= L1 i v)%Qc) by (intros k v Hk Hv; apply (jn_ids _ _ _ H0) in Hk; rewrite HA by auto; apply (lv_pos _ _ _ _ H); auto).
    destruct (get_posteriors_ok _ _ _ L1 j0 j1 (jn_JG _ _ _ H0) (jn_hg _ _ _ H0) HL' o x t ts O (names_nd N nm HV Hnm j0 H0)) as [f [E1 E2]].
    rewrite E1. rewrite (same_ids _ _ (oc_same _ _ _ _ _ _ _ _ _ O)). f_equal.
    pose proof (oc_tr _ _ _ _ _ _ _ _ _ O) as HT.
    assert (Hc0 : jconn j0) by (apply jconn_ext with j1; [symmetry; apply O|exact Hc]).
    pose proof (trees_single _ _ _ _ _ (jn_JG _ _ _ H0) Hc0 (x_clique _ _ (oc_x _ _ _ _ _ _ _ _ _ O)) HT) as Ets. subst ts.
    pose proof (vlist_perm N nm HV _ _ _ _ H0 HT) as P.
    apply map_ext_in. intros i Hi. assert (Hi' : In i (vars N)) by (apply (jn_ids _ _ _ H0); auto). f_equal. apply (jn_nm _ _ _ H0); auto.
    apply map_ext_in. intros y Hy. f_equal. rewrite (posterior_agree N L L1) by (apply agree_sym; auto). rewrite E2 by (apply (Permutation_in _ (Permutation_sym P)); auto).
    apply postv_exact; auto. apply (hg_dm _ _ _ _ (jn_hg _ _ _ H0)); auto.
  Qed.
End Live.

Theorem apply_gen0 N nm b o : nshape N -> bgood N nm b -> ord_ok o ->
  (forall j0, compile o b = Ok j0 -> mclq_ok N b j0) ->
  exists j0 j, compile o b = Ok j0 /\ jnet N nm j0 /\ jt_evid j0 = [] /\ infer o j0 = Ok j /\ same j0 j /\
    apply o b = Ok (mkBbn (set_graph_nodes (b_g b) (jt_heap j)) (b_parents b), set_jlistener j true) /\
    live N nm no_evidence (set_jlistener j true) /\ (net_connected N -> jconn (set_jlistener j true)).
Proof.
  intros HN HB Ho Hf. destruct (compile_full N nm b HN HB o Ho) as [u [Ks [j0 [F [C1 [C2 [C3 [C4 [C5 [C6 [C7 [C8 [C9 [C10 [C11 [C12 [C13 [C14 [C15 C16]]]]]]]]]]]]]]]]]]].
  assert (HJ : jnet N nm j0) by (apply C16, Hf, C1).
  destruct (infer_live0 N nm (ns_nd _ HN) o j0 no_evidence Ho HJ) as [j [E [L S]]].
  - intros i Hi. left. rewrite C8. auto.
  - intros i v _ _. unfold no_evidence. discriminate.
  - exists j0, j. split; auto. split; auto. split; auto. split; auto. split; auto. split.
    + rewrite apply_compile, C1. cbn [rbind]. rewrite E. reflexivity.
    + split; auto. intros Hc. apply jconn_ext with j0; [apply S|]. eapply (tree_connected N nm b HN HB Ks j0 F); eauto.
Qed.

Theorem apply_gen N nm b o : nshape N -> bgood N nm b -> NoDup (map nm (vars N)) -> ord_ok o ->
  (forall j0, compile o b = Ok j0 -> mclq_ok N b j0) ->
  exists j0 j, compile o b = Ok j0 /\ jnet N nm j0 /\ jt_evid j0 = [] /\ infer o j0 = Ok j /\ same j0 j /\
    apply o b = Ok (mkBbn (set_graph_nodes (b_g b) (jt_heap j)) (b_parents b), set_jlistener j true) /\
    live N nm no_evidence (set_jlistener j true) /\ (net_connected N -> jconn (set_jlistener j true)).
Proof. intros HN HB _ Ho Hf. apply apply_gen0; auto. Qed.

Theorem apply_net N nm b o : nshape N -> bgood N nm b -> NoDup (map nm (vars N)) -> ord_ok o ->
  (forall i n, In (i, n) (g_nodes (b_g b)) -> n_mclq n = None) ->
  exists j0 j, compile o b = Ok j0 /\ jnet N nm j0 /\ jt_evid j0 = [] /\ infer o j0 = Ok j /\ same j0 j /\
    apply o b = Ok (mkBbn (set_graph_nodes (b_g b) (jt_heap j)) (b_parents b), set_jlistener j true) /\
    live N nm no_evidence (set_jlistener j true) /\ (net_connected N -> jconn (set_jlistener j true)).
Proof. intros HN HB Hnm Ho Hf. apply apply_gen; auto. intros j0 _ i n k Hn E. rewrite (Hf i n Hn) in E. discriminate. Qed.

Theorem apply_build ops o : well_shaped ops -> ord_ok o -> exists b j, apply o (build ops) = Ok (b, j) /\
  live (net_of ops) (net_name ops) no_evidence j /\ (connected ops -> jconn j).
Proof.
  intros H Ho. destruct (apply_net _ _ _ o (net_shape ops H) (build_good ops) (ws_names _ H) Ho (build_fresh ops H)) as [j0 [j [A1 [A2 [A3 [A4 [A5 [A6 [A7 A8]]]]]]]]].
  eexists _, _. split; [exact A6|]. split; auto.
Qed.
