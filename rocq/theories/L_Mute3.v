(** apply on a network object whose nodes store cliques of the tree that lack some of their parents: the result. *)
From Verif Require Import Py M_Graph M_Node M_Pptc Spec SpecNet SpecEv SpecRe SpecAgain SpecMute L_Base L_PD L_Sums L_Table L_Tree L_Walk L_Forest L_Root L_Good L_Prop L_Init L_Post L_Read
  L_Ids L_Trans L_Elim L_UG L_Tri L_Moral L_Build L_Exact L_Apply L_Net L_Evid L_Hist L_Claims L_Shape L_Shown L_P1 L_Reapply L_Det L_Again L_Again2 L_Mute L_Mute2.
Open Scope nat_scope.

Lemma ignoring_shape D N : nshape N -> nshape (ignoring D N).
Proof.
  intros H. constructor; cbn [ignoring vars dom par cpt]; try apply H.
  - intros i Hi. destruct (D i); [|apply (ns_cpt _ H); auto]. cbn [app]. rewrite map_length. cbn [size fold_right map]. simpl. lia.
  - intros i q Hi. destruct (D i); [|apply (ns_pos _ H); auto]. intros Hq. apply in_map_iff in Hq. destruct Hq as [x [<- _]]. discriminate.
  - intros i. destruct (D i); [|apply (ns_par _ H)]. constructor; [intros []|constructor].
  - intros i k. destruct (D k); [intros []|apply (ns_ends _ H)].
Qed.
Lemma ignoring_one D N i a : D i = true -> In (a i) (dom N i) -> cpt_entry (ignoring D N) i a = 1%Qc.
Proof.
  intros Hd Ha. unfold cpt_entry. cbn [ignoring dom par cpt]. rewrite Hd. cbn [app row_index].
  assert (Hl : pos (a i) (dom N i) < List.length (dom N i)) by (apply pos_lt; auto).
  rewrite (nth_indep _ 0%Qc 1%Qc). 2:{ rewrite map_length. simpl. lia. }
  replace (pos (a i) (dom N i) * size (dom N) [] + 0) with (pos (a i) (dom N i)) by (simpl; lia). apply (map_nth (fun _ : string => 1%Qc) (dom N i) EmptyString).
Qed.

Lemma tab_misses dm B f A b : In b B -> ~ In b A -> misses (tab dm B f) A.
Proof.
  intros Hb Ha e He. exists b. split; auto. unfold tab in He. apply in_map_iff in He. destruct He as [vs [<- Hv]]. simpl. unfold dkeys.
  rewrite map_fst_combine; auto. apply cart_In in Hv. apply Hv.
Qed.

Section Displaced.
  Context (ops : list bop) (HW : well_shaped ops) (b : bbn) (bf : bbn) (jf : jtree) (o o1 : Ord) (Ho : ord_ok o) (Ho1 : ord_ok o1) (A : apply o1 (build ops) = Ok (bf, jf))
    (E : cleared b = cleared (build ops)) (HH : housed b) (HP : present b jf).
  Notation nm := (net_name ops).
  Notation N := (net_of ops).
  Notation D := (displaced ops b jf).
  Notation N' := (ignoring D N).

  Lemma homes_sim j : compile o b = Ok j -> Forall2 clsim (jt_cliques jf) (jt_cliques j).
  Proof using HW A E Ho Ho1.
    intros C. destruct (compile_ref ops HW) as [jr Hr].
    destruct (apply_together ops HW jr Hr N (build ops) o1) as [bf' [jf' [F1 F2]]]; auto using net_shape, build_good.
    { intros x m k Hm Em. rewrite (build_fresh ops HW x m Hm) in Em. discriminate. }
    rewrite A in F1. inversion F1; subst bf' jf'.
    pose proof (compiled_sim ops HW jr Hr N b o j eq_refl eq_refl eq_refl (net_shape ops HW) (good_cleared _ _ _ _ (build_good ops) E) Ho C) as S.
    exact (sims_trans _ _ _ (sims_sym _ _ (tg_cl _ _ _ _ _ F2)) S).
  Qed.

  (** the clique a node stores *)
  Lemma home j i n k : compile o b = Ok j -> In (i, n) (g_nodes (b_g b)) -> n_mclq n = Some k ->
    exists c, In c (jt_cliques j) /\ k = cl_id c /\ In i (cl_nodes c) /\ (D i = false -> incl (net_par ops i) (cl_nodes c)) /\ (D i = true -> exists p, In p (net_par ops i) /\ ~ In p (cl_nodes c)).
  Proof using HW A E HH HP Ho Ho1.
    intros C Hn Ek. pose proof (homes_sim j C) as S. pose proof (net_shape ops HW) as HN. pose proof (good_cleared _ _ _ _ (build_good ops) E) as HB.
    pose proof (HP i n k Hn Ek) as Hk. apply in_map_iff in Hk. destruct Hk as [c0 [<- Hc0]].
    assert (Hd : dget (g_nodes (b_g b)) i = Some n). { apply dget_In_NoDup; auto. pose proof (bg_ids _ _ _ HB) as B. unfold L_UG.ids in B. rewrite B. apply (ns_nd _ HN). }
    destruct (sim_find _ _ c0 S Hc0) as [c [C1 [C2 C3]]]. destruct (sim_find _ _ c (sims_sym _ _ S) C1) as [c0' [C1' [C2' C3']]].
    destruct (compile_edges _ _ b HN HB o Ho j C) as [_ [_ [G2 _]]].
    assert (Hok : forall d, In d (jt_cliques jf) -> cl_id d = cl_id c -> forall x, In x (cl_nodes d) <-> In x (cl_nodes c)).
    { intros d Hd1 Ed x. destruct (sim_find _ _ d S Hd1) as [e [E1 [E2 E3]]]. destruct (sim_find _ _ e (sims_sym _ _ S) E1) as [d' [D1 [D2 D3]]].
      assert (P : Permutation (cl_nodes e) (cl_nodes c)). { apply cl_id_inj; [apply G2; auto|apply G2; auto|congruence]. }
      split; intros Hx. { apply (Permutation_in _ P), E3; auto. } apply (Permutation_in _ (Permutation_sym P)) in Hx.
      clear - S Hd1 E1 E2 Hx Ed G2. revert E1 E2 Hx.
      assert (Q : exists e', In e' (jt_cliques j) /\ clsim d e'). { clear - S Hd1. induction S as [|a b' l m Hs S IH]; [destruct Hd1|]. destruct Hd1 as [->|Hd1]; [exists b'; split; [left|]; auto|]. destruct (IH Hd1) as [e' [Q1 Q2]]. exists e'. split; [right|]; auto. }
      destruct Q as [e' [Q1 [Q2 Q3]]]. intros E1 E2 Hx. apply (Permutation_in _ (Permutation_sym Q3)).
      assert (P : Permutation (cl_nodes e) (cl_nodes e')). { apply cl_id_inj; [apply G2; auto|apply G2; auto|congruence]. }
      apply (Permutation_in _ P); auto. }
    exists c. split; auto. split; auto. split; [|split].
    - destruct (HH i n _ Hn Ek) as [K [K1 [K2 K3]]]. assert (P : Permutation (cl_nodes (mk_clique K)) (cl_nodes c)). { apply cl_id_inj; [split; auto|apply G2; auto|congruence]. }
      apply (Permutation_in _ P). exact K2.
    - intros Df p Hp. unfold displaced in Df. rewrite Hd, Ek in Df. apply not_true_iff_false in Df. destruct (in_dec Z.eq_dec p (cl_nodes c)) as [|Hno]; auto. exfalso. apply Df. apply existsb_exists. exists c0. split; auto.
      rewrite String.eqb_refl. cbn [andb]. apply negb_true_iff. apply not_true_iff_false. intros F. rewrite forallb_forall in F. specialize (F p Hp). apply mem_In in F. apply Hno, (Hok c0 Hc0 (eq_sym C2)); auto.
    - intros Dt. unfold displaced in Dt. rewrite Hd, Ek in Dt. apply existsb_exists in Dt. destruct Dt as [d [D1 D2]]. apply andb_true_iff in D2. destruct D2 as [D2 D3]. apply String.eqb_eq in D2. apply negb_true_iff in D3.
      assert (X : exists p, In p (net_par ops i) /\ mem p (cl_nodes d) = false). { clear - D3. induction (net_par ops i) as [|p l IH]; [discriminate|]. cbn [forallb] in D3. destruct (mem p (cl_nodes d)) eqn:Em; [|exists p; split; [left|]; auto]. destruct (IH D3) as [q [Q1 Q2]]. exists q. split; [right|]; auto. }
      destruct X as [p [P1 P2]]. exists p. split; auto. intros Hc. apply not_true_iff_false in P2. apply P2, mem_In. apply (Hok d D1 (eq_trans D2 (eq_sym C2))). auto.
  Qed.

  Lemma displaced_net j : compile o b = Ok j -> away D j /\ jnet N' nm (muted (dom N) D j).
  Proof using HW A E HH HP Ho Ho1.
    intros C. pose proof (net_shape ops HW) as HN. pose proof (good_cleared _ _ _ _ (build_good ops) E) as HB. pose proof (ignoring_shape D N HN) as HN'.
    destruct (compile_full _ _ b HN HB o Ho) as [u [Ks [j' [F [C1 [C2 [C3 [C4 [C5 [C6 [C7 [C8 [C9 [C10 [C11 [C12 [C13 [C14 [C15 C16]]]]]]]]]]]]]]]]]]].
    rewrite C in C1. inversion C1; subst j'. clear C1.
    assert (Hids : forall i n, dget (jt_heap j) i = Some n -> In i (vars N)).
    { intros i n Hn. assert (Ek : dkeys (hm N b) = vars N). { rewrite <- (bg_ids _ _ _ HB). unfold hm, moralize_meta, hp, L_UG.ids, dkeys. rewrite !map_map. simpl. apply map_ext. auto. }
      rewrite <- Ek, <- C7. eapply dget_Some_key; eauto. }
    split.
    - intros i n Hn Hd. pose proof (Hids i n Hn) as Hi. destruct (hm_get N nm b HB i Hi) as [m [Hm Em]]. rewrite C7, Em in Hn. inversion Hn; subst n. simpl.
      assert (Hk : exists k, n_mclq m = Some k). { assert (Hg : dget (g_nodes (b_g b)) i = Some m). { apply dget_In_NoDup; auto. pose proof (bg_ids _ _ _ HB) as B. unfold L_UG.ids in B. rewrite B. apply (ns_nd _ HN). }
        unfold displaced in Hd. rewrite Hg in Hd. destruct (n_mclq m); [eauto|discriminate]. }
      destruct Hk as [k Ek]. destruct (home j i m k C Hm Ek) as [c [H1 [H2 [H3 [H4 H5]]]]]. destruct (H5 Hd) as [p [P1 P2]].
      exists c, (tab (dom N) (par N i ++ [i]) (cpt_entry N i)). split; auto. split; [congruence|]. split; auto. apply tab_misses with p; auto. apply in_app_iff. left. exact P1.
    - assert (Hcov : forall i, In i (vars N) -> exists c, In c (jt_cliques j) /\ incl (par N i ++ [i]) (cl_nodes c)).
      { intros i Hi. destruct (compile_ref ops HW) as [jr Hr]. destruct (compile_full _ _ (build ops) HN (build_good ops) ord_id ord_id_ok) as [u' [Ks' [j' [F' [D1 [D2 [D3 [D4 [D5 [D6 [D7 [D8 [D9 [D10 [D11 [D12 [D13 [D14 [D15 D16]]]]]]]]]]]]]]]]]]].
        rewrite Hr in D1. inversion D1; subst j'. assert (HJ : jnet N nm jr). { apply D16. intros x m k Hm Em. rewrite (build_fresh ops HW x m Hm) in Em. discriminate. }
        pose proof (compiled_sim ops HW jr Hr N b o j eq_refl eq_refl eq_refl HN HB Ho C) as S. apply (jn_ids _ _ _ HJ) in Hi. destruct (hg_fam _ _ _ _ (jn_hg _ _ _ HJ) i Hi) as [c [Hc Hi']].
        destruct (sim_find _ _ c S Hc) as [d [E1 [E2 E3]]]. exists d. split; auto. eapply incl_tran; eauto. }
      assert (Hpar : forall i, incl (par N' i ++ [i]) (par N i ++ [i])). { intros i. cbn [ignoring par]. destruct (D i); [|apply incl_refl]. intros x Hx. apply in_app_iff; right; auto. }
      constructor.
      + destruct C12. constructor; assumption.
      + constructor; change (jt_bbn_ids (muted (dom N) D j)) with (jt_bbn_ids j); change (jt_cliques (muted (dom N) D j)) with (jt_cliques j).
        * intros i Hi. apply C14 in Hi. destruct (hm_get N nm b HB i Hi) as [n [Hn En]]. destruct (bg_node _ _ _ HB i n Hn) as [E1 [E2 [E3 E4]]].
          eexists. split. { change (jt_heap (muted (dom N) D j)) with (hmute (dom N) D (jt_heap j)). rewrite hmute_dget, C7, En. reflexivity. }
          split; [rewrite mute_id; exact E1|]. split; [rewrite mute_values; exact E3|]. split; [|split].
          -- unfold mute. cbn [ignoring dom par]. destruct (D i) eqn:Ed; [|simpl; f_equal; apply tab_ext; intros a _; unfold cpt_entry; cbn [ignoring dom par cpt]; rewrite Ed; reflexivity].
             cbn [n_pot app]. f_equal. apply tab_ext. intros a Ha. symmetry. apply ignoring_one; auto. apply Ha; left; auto.
          -- intros p. unfold jt_parent_ids. change (jt_heap (muted (dom N) D j)) with (hmute (dom N) D (jt_heap j)). rewrite hmute_dget, C7, En. cbn [option_map]. unfold mute. cbn [ignoring par].
             destruct (D i); cbn [n_mpar]; [reflexivity|]. simpl. apply parents_gp with nm. exact HB.
          -- intros k. rewrite mute_mclq. cbn [set_mpar with_pot snd set_pot n_mclq]. intros Ek. destruct (home j i n k C Hn Ek) as [c [H1 [H2 [H3 [H4 H5]]]]]. exists c. split; auto. split; auto.
             cbn [ignoring par]. destruct (D i) eqn:Ed; intros x Hx; apply in_app_iff in Hx; destruct Hx as [Hx|[<-|[]]]; auto. destruct Hx. apply H4; auto.
        * intros i Hi. apply (ns_dom _ HN), C14; auto.
        * intros i _. apply (ns_par _ HN').
        * intros i _. apply cpt_entry_dep.
        * intros i a Hi Ha. unfold cpt_entry. apply C14 in Hi. apply (ns_pos _ HN' i); auto. apply nth_In. eapply Nat.lt_le_trans; [|apply (ns_cpt _ HN'); auto]. apply row_index_lt. auto.
        * intros i Hi. apply C14 in Hi. destruct (Hcov i Hi) as [c [H1 H2]]. exists c. split; auto. eapply incl_tran; eauto.
      + exact C13.
      + exact C14.
      + intros i Hi. change (jt_heap (muted (dom N) D j)) with (hmute (dom N) D (jt_heap j)). rewrite hmute_name. unfold h_name. rewrite C7. destruct (hm_get N nm b HB i Hi) as [n [Hn En]]. rewrite En. simpl. apply (bg_node _ _ _ HB i n Hn).
      + exact C15.
  Qed.

  Theorem displaced_exact h : connected ops -> valid_history N h -> exists b' j j' t, apply o b = Ok (b', j) /\ do_calls j h = (j', None) /\ get_posteriors j' = Ok t /\
    exact_table N' nm (shown N (calls h)) t.
  Proof using HW A E HH HP Ho Ho1.
    intros Hc [H1 H2]. pose proof (net_shape ops HW) as HN. pose proof (good_cleared _ _ _ _ (build_good ops) E) as HB. pose proof (ws_names _ HW) as Hnm.
    destruct (compile_full _ _ b HN HB o Ho) as [u [Ks [j0 [F [C1 [C2 [C3 [C4 [C5 [C6 [C7 [C8 [C9 [C10 [C11 [C12 [C13 [C14 [C15 C16]]]]]]]]]]]]]]]]]]].
    destruct (displaced_net j0 C1) as [HA HJ].
    destruct (infer_live N' nm (ns_nd _ HN) Hnm o (muted (dom N) D j0) no_evidence Ho HJ) as [j1 [I1 [I2 I3]]].
    { intros i Hi. left. change (jt_evid (muted (dom N) D j0)) with (jt_evid j0). rewrite C8. auto. } { intros i v _ _. unfold no_evidence. discriminate. }
    destruct (muted_infer (dom N) D o j0 HA (jnet_keyed N' nm D j0 HJ)) as [M1 M2]. rewrite M1 in I1. destruct (infer o j0) as [j|] eqn:I; cbn [rmap] in I1; [|discriminate]. inversion I1; subst j1. destruct (M2 j eq_refl) as [K1 K2].
    destruct (muted_calls N' nm D (ns_nd _ HN) Hnm (ns_dom _ (ignoring_shape D N HN)) h H1 (no_evidence, no_evidence) (set_jlistener j true)) as [j' [B1 [B2 [B3 B4]]]].
    { exact K1. } { apply live_shows; auto. apply unit_none. } { exact H2. }
    destruct (sw_live _ _ _ _ _ B3) as [ev Hl]. destruct (live_exact_table N' nm _ _ (ns_nd _ HN) Hnm Hl) as [t [T1 T2]].
    { apply jconn_ext with j0. { cbn. rewrite B4. exact K2. } eapply (tree_connected N nm b HN HB Ks j0 F); eauto. }
    exists (shared b j), (set_jlistener j true), j', t. split. { rewrite apply_compile, C1. cbn [rbind]. rewrite I. reflexivity. }
    split; auto. split; [|exact T2]. rewrite <- (muted_posteriors (dom N) D j'). exact T1.
  Qed.
End Displaced.
