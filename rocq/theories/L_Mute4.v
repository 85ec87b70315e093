(** What network objects store about cliques, however they were obtained. *)
From Verif Require Import Py M_Graph M_Node M_Pptc Spec SpecNet SpecEv SpecRe SpecAgain SpecMute L_Base L_PD L_Sums L_Table L_Tree L_Walk L_Forest L_Root L_Good L_Prop L_Init L_Post L_Read
  L_Ids L_Trans L_Elim L_UG L_Tri L_Moral L_Build L_Exact L_Apply L_Net L_Evid L_Hist L_Claims L_Shape L_Shown L_P1 L_Reapply L_Det L_Again L_Again2 L_Mute L_Mute2 L_Mute3.
Open Scope nat_scope.

Definition hhoused (h : heap) : Prop := forall i n k, In (i, n) h -> n_mclq n = Some k -> exists K, NoDup K /\ In i K /\ k = cl_id (mk_clique K).
Definition good_cliques (j : jtree) : Prop := forall c, In c (jt_cliques j) -> NoDup (cl_nodes c) /\ c = mk_clique (cl_nodes c).

Lemma hupd_In h i f k n : In (k, n) (hupd h i f) -> In (k, n) h \/ k = i /\ exists m, In (i, m) h /\ n = f m.
Proof.
  unfold hupd. intros H. apply in_map_iff in H. destruct H as [[k' m] [E H]]. cbn [fst snd] in E. destruct (Z.eqb_spec i k') as [->|Hne]; cbn in E.
  - right. destruct (eqb k' k') eqn:Q; inversion E; subst; split; eauto.
  - destruct (eqb i k') eqn:Q; [apply eqb_true in Q; congruence|]. inversion E; subst. left; auto.
Qed.

Definition hok (j : jtree) : Prop := hhoused (jt_heap j) /\ good_cliques j.
Lemma hok_ext j j' : jt_heap j' = jt_heap j -> jt_nodes j' = jt_nodes j -> hok j -> hok j'.
Proof. intros E1 E2 [H1 H2]. split; [rewrite E1; auto|]. unfold good_cliques, jt_cliques in *. rewrite E2; auto. Qed.

Lemma hok_get_clique j i c j' : hok j -> get_clique j i = Ok (c, j') -> hok j'.
Proof.
  intros [H1 H2]. unfold get_clique, dgetE. destruct (dget (jt_heap j) i) as [n|] eqn:En; cbn [rbind]; [|discriminate]. destruct (n_mclq n) as [k|] eqn:Ek.
  { intros Q. inversion Q; subst. split; auto. }
  destruct (isort cl_leb (find_cliques j i)) as [|d ds] eqn:Ef; [discriminate|]. intros Q. inversion Q; subst. split; [|exact H2].
  intros x m k. cbn [set_jheap jt_heap]. intros Hx Hk. apply hupd_In in Hx. destruct Hx as [Hx|[-> [m' [Hm ->]]]]; [eapply H1; eauto|]. simpl in Hk. inversion Hk; subst.
  assert (Hd : In d (find_cliques j i)). { apply (Permutation_in _ (isort_perm cl_leb _)). rewrite Ef. left; auto. }
  apply filter_In in Hd. destruct Hd as [D1 D2]. rewrite subset_spec in D2. destruct (H2 d D1) as [G1 G2]. exists (cl_nodes d). split; auto. split; [apply D2; apply in_app_iff; right; left; auto|congruence].
Qed.
Lemma hok_foldM {X} (f : jtree -> X -> res jtree) l : (forall j x j', hok j -> f j x = Ok j' -> hok j') -> forall j j', hok j -> foldM f l j = Ok j' -> hok j'.
Proof.
  intros Hf. induction l as [|x l IH]; intros j j' H E; cbn [foldM] in E; [inversion E; subst; auto|]. destruct (f j x) as [j1|] eqn:E1; cbn [rbind] in E; [|discriminate]. eauto.
Qed.
Lemma hok_initialize j j' : hok j -> initialize j = Ok j' -> hok j'.
Proof.
  intros H. unfold initialize. destruct (init_pots_nodes j) as [N1 N2]. assert (H0 : hok (init_pots j)) by (eapply hok_ext; eauto).
  destruct (foldM init_node _ _) as [j1|] eqn:E1; cbn [rbind]; [|discriminate]. intros E2. eapply hok_foldM; [|eapply hok_foldM; [|exact H0|exact E1]|exact E2].
  - intros a i a' Ha E. destruct (muted_init_evid (fun _ => []) (fun _ => false) a i) as [_ Q]. destruct (Q a' E) as [Q1 Q2]. eapply hok_ext; eauto.
  - intros a i a' Ha E. unfold init_node in E. destruct (get_clique a i) as [[c a1]|] eqn:G; cbn [rbind] in E; [|discriminate]. pose proof (hok_get_clique a i c a1 Ha G) as H1.
    destruct (dgetE (jt_pots a1) c); cbn [rbind] in E; [|discriminate]. destruct (dgetE (jt_heap a1) i) as [n|]; cbn [rbind] in E; [|discriminate]. destruct (n_pot n); [|discriminate]. inversion E; subst. eapply hok_ext; [| |exact H1]; auto.
Qed.
Lemma hok_propagate o j j' : hok j -> propagate o j = Ok j' -> hok j'.
Proof. intros H E. destruct (muted_propagate (fun _ => []) (fun _ => false) o j) as [_ Q]. destruct (Q j' E) as [Q1 Q2]. eapply hok_ext; eauto. Qed.
Lemma hok_infer o j j' : hok j -> infer o j = Ok j' -> hok j'.
Proof. unfold infer. intros H. destruct (initialize j) as [j1|] eqn:E; cbn [rbind]; [|discriminate]. apply hok_propagate. eapply hok_initialize; eauto. Qed.

Lemma hok_notify o j c : hok j -> hok (fst (notify o j c)).
Proof.
  intros H. unfold notify. destruct (jt_listener j); auto. destruct c; auto.
  - destruct (propagate o j) as [j'|] eqn:E; auto. eapply hok_propagate; eauto.
  - destruct (j0 <- initialize j;; propagate o j0) as [j'|] eqn:E; auto. eapply (hok_infer o); eauto.
Qed.
Lemma hok_update o j es : hok j -> hok (fst (update_evidences o j es)).
Proof.
  intros H. unfold update_evidences. destruct (mapM validate es) as [es'|]; auto. destruct (get_change_type j es') as [c|]; auto.
  destruct (muted_store (fun _ => []) (fun _ => false) es' j) as [_ [S2 S3]]. destruct (store_evidences j es') as [j' [x|]]; cbn [fst] in *; [|apply hok_notify]; eapply hok_ext; eauto.
Qed.
Lemma hok_call o j c : hok j -> hok (fst (do_call o j c)).
Proof.
  intros H. destruct c as [es|ns| |e]; cbn [do_call]; try (apply hok_update; auto; fail).
  - unfold unobserve_all. destruct (mapM _ _); auto. apply hok_update; auto.
  - unfold set_observation. destruct (dget (jt_evid j) (ev_node e)) as [m|]; auto. destruct (convert m) as [pv|]; auto.
    destruct (map fst (filter _ pv)) as [|y [|z l]]; try (apply hok_update; auto; fail). destruct (map fst (filter _ (ev_values e))) as [|k r]; auto. destruct (eqb y k); apply hok_update; auto.
Qed.
Lemma hok_calls h : forall j, hok j -> hok (fst (do_calls j h)).
Proof.
  induction h as [|[o c] h IH]; intros j H; cbn [do_calls]; auto. pose proof (hok_call o j c H) as H1. destruct (do_call o j c) as [j1 [x|]]; cbn [fst] in *; auto.
Qed.

Lemma hok_compile N nm b o j : nshape N -> bgood N nm b -> ord_ok o -> housed b -> compile o b = Ok j -> hok j.
Proof.
  intros HN HB Ho HH C. destruct (compile_full _ _ b HN HB o Ho) as [u [Ks [j' [F [C1 [C2 [C3 [C4 [C5 [C6 [C7 _]]]]]]]]]]]. rewrite C in C1. inversion C1; subst j'.
  destruct (compile_edges _ _ b HN HB o Ho j C) as [_ [_ [G2 _]]]. split.
  - rewrite C7. intros i n k Hi Hk. unfold hm, moralize_meta, hp in Hi. rewrite map_map in Hi. apply in_map_iff in Hi. destruct Hi as [[k' m] [Q Hm]]. simpl in Q. inversion Q; subst. simpl in Hk. eapply HH; eauto.
  - intros c Hc. destruct (G2 c Hc) as [[G3 _] G4]. auto.
Qed.

Lemma housed_apply ops o b b' j h : well_shaped ops -> cleared b = cleared (build ops) -> ord_ok o -> housed b -> apply o b = Ok (b', j) -> housed (shared b' (fst (do_calls j h))).
Proof.
  intros HW E Ho HH A. pose proof (net_shape ops HW) as HN. pose proof (good_cleared _ _ _ _ (build_good ops) E) as HB. rewrite apply_compile in A.
  destruct (compile o b) as [j0|] eqn:C; cbn [rbind] in A; [|discriminate]. destruct (infer o j0) as [j1|] eqn:I; cbn [rbind] in A; [|discriminate]. inversion A; subst.
  assert (H : hok (set_jlistener j1 true)). { eapply hok_ext; [| |eapply hok_infer; [eapply hok_compile; eauto|exact I]]; auto. }
  apply (hok_calls h) in H. destruct H as [H _]. exact H.
Qed.
Lemma housed_change b c : housed b -> plain_change c -> housed (do_change b c).
Proof.
  intros H. assert (Hadd : forall b n, housed b -> n_mclq n = None -> housed (bbn_add_node b n)).
  { clear. intros b n H Hn i m k. unfold bbn_add_node, add_node. destruct (dmem (g_nodes (b_g b)) (n_id n)) eqn:Ed; [apply H|]. simpl. intros Hi Hk. apply dset_In in Hi. destruct Hi as [[-> ->]|Hi]; [congruence|eapply H; eauto]. }
  destruct c as [[n|x y]|cpts]; cbn [plain_change do_change bstep].
  - intros Hn. apply Hadd; auto.
  - intros [Hx Hy]. unfold bbn_add_edge. cbn [e_i e_j]. change (add_ends n_id (b_g b) (mkEdge x y DIRECTED)) with (b_g (bbn_add_node (bbn_add_node b x) y)).
    pose proof (Hadd _ y (Hadd b x H Hx) Hy) as Q. intros i n k Hi. apply (Q i n k). exact Hi.
  - intros _ i n k Hi Hk. unfold assign in Hi. simpl in Hi. apply in_map_iff in Hi. destruct Hi as [[k' m] [Q Hm]]. simpl in Q. destruct (dget cpts k'); inversion Q; subst; eapply H; eauto.
Qed.
Theorem obtained_housed b : obtained b -> housed b.
Proof.
  induction 1 as [ops HW|b c Hb IH Hc|b ops o h b' j j' x Hb IH HW E Ho A C].
  - intros i n k Hi Hk. rewrite (build_fresh ops HW i n Hi) in Hk. discriminate.
  - apply housed_change; auto.
  - replace j' with (fst (do_calls j h)) by (rewrite C; reflexivity). eapply housed_apply; eauto.
Qed.

Lemma present_dec b j : present b j \/ exists i n k, In (i, n) (g_nodes (b_g b)) /\ n_mclq n = Some k /\ ~ In k (map cl_id (jt_cliques j)).
Proof.
  unfold present. induction (g_nodes (b_g b)) as [|[i n] l IH]; [left; intros i n k []|]. destruct IH as [IH|[i' [n' [k' [H1 [H2 H3]]]]]].
  2:{ right. exists i', n', k'. split; [right|]; auto. }
  destruct (n_mclq n) as [k|] eqn:Ek.
  - destruct (in_dec string_dec k (map cl_id (jt_cliques j))) as [Hk|Hk].
    + left. intros x m q [Q|Hx] Hq; [inversion Q; subst; congruence|eapply IH; eauto].
    + right. exists i, n, k. split; [left|]; auto.
  - left. intros x m q [Q|Hx] Hq; [inversion Q; subst; congruence|eapply IH; eauto].
Qed.

Theorem c42_whole ops o o1 bf jf b h : obtained b -> well_shaped ops -> connected ops -> ord_ok o -> ord_ok o1 -> cleared b = cleared (build ops) ->
  apply o1 (build ops) = Ok (bf, jf) -> valid_history (net_of ops) h ->
  (present b jf /\ exists b' j j' t, apply o b = Ok (b', j) /\ do_calls j h = (j', None) /\ get_posteriors j' = Ok t /\
     exact_table (ignoring (displaced ops b jf) (net_of ops)) (net_name ops) (shown (net_of ops) (calls h)) t) \/
  (~ present b jf /\ apply o b = Err KeyError).
Proof.
  intros Hb HW Hc Ho Ho1 E A Hh. pose proof (obtained_housed b Hb) as HH. destruct (present_dec b jf) as [HP|[i [n [k [H1 [H2 H3]]]]]].
  - left. split; auto. eapply displaced_exact; eauto.
  - right. split. { intros HP. apply H3. eapply HP; eauto. } destruct (HH i n k H1 H2) as [K [K1 [K2 ->]]]. eapply c42_raises; eauto.
Qed.
