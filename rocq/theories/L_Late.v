(** Reapplying a tree after edges have been added to the network it was made from: the result. *)
From Verif Require Import Py M_Graph M_Node M_Pptc Spec SpecNet SpecEv SpecRe SpecAgain SpecMute SpecPart SpecMany L_Base L_PD L_Sums L_Table L_Tree L_Walk L_Forest L_Root L_Good L_Prop L_Init L_Post L_Read
  L_Ids L_Trans L_Elim L_UG L_Tri L_Moral L_Build L_Exact L_Apply L_Net L_Evid L_Hist L_Claims L_Shape L_Shown L_P1 L_P2 L_Reapply L_Det L_Again L_Again2 L_Again3 L_Mute L_Mute2 L_Mute3 L_Part L_Part2 L_Part4 L_Part5 L_Alias.
Open Scope nat_scope.

(** a tree that goes by the parents of [N]; some of the cliques stored do not hold them *)
Record seeing (N : net) (nm : Z -> string) (D : Z -> bool) (j : jtree) : Prop := {
  se_JG : JG j;
  se_cnt : jcount j;
  se_ids : forall i, In i (jt_bbn_ids j) <-> In i (vars N);
  se_ne : jt_cliques j <> [];
  se_par : forall i, In i (vars N) -> dgets (jt_pinfo j) i = par N i;
  se_node : forall i, In i (vars N) -> exists n, dget (jt_heap j) i = Some n /\ n_id n = i /\ n_name n = nm i /\ n_values n = dom N i /\ n_probs n = cpt N i /\
     exists c, In c (jt_cliques j) /\ n_mclq n = Some (cl_id c) /\ In i (cl_nodes c) /\
       (D i = false -> incl (par N i) (cl_nodes c)) /\ (D i = true -> exists p, In p (par N i) /\ ~ In p (cl_nodes c)) }.

Lemma update_seeing N nm D j cpts : NoDup (dkeys cpts) -> seeing N nm D j -> seeing (replaced N cpts) nm D (update_bbn_cpts j cpts).
Proof.
  intros F R. unfold update_bbn_cpts. set (h := fold_left _ cpts (jt_heap j)).
  assert (Hh : forall i, In i (vars N) -> exists n, dget h i = Some n /\ n_id n = i /\ n_name n = nm i /\ n_values n = dom N i /\ n_probs n = cpt (replaced N cpts) i /\
     exists c, In c (jt_cliques j) /\ n_mclq n = Some (cl_id c) /\ In i (cl_nodes c) /\
       (D i = false -> incl (par N i) (cl_nodes c)) /\ (D i = true -> exists p, In p (par N i) /\ ~ In p (cl_nodes c))).
  { intros i Hi. destruct (se_node _ _ _ _ R i Hi) as [n [E1 [E2 [E3 [E4 [E5 E6]]]]]]. unfold h. rewrite upd_fold by auto.
    assert (Hm : mem i (jt_bbn_ids j) = true). { apply mem_In. apply (se_ids _ _ _ _ R); auto. }
    rewrite Hm, E1. simpl. destruct (dget cpts i); simpl; eexists; split; try reflexivity; simpl; auto 10. }
  destruct R as [R1 R2 R3 R4 R5 R6]. constructor; auto. destruct R1; constructor; auto.
Qed.
Lemma listen_seeing N nm D j : seeing N nm D j -> seeing N nm D (set_jevid (set_jlistener j false) []).
Proof. intros [R1 R2 R3 R4 R5 R6]. constructor; auto. destruct R1; constructor; auto. Qed.

Section Seen.
  Context (N : net) (nm : Z -> string) (D : Z -> bool) (j : jtree) (R : seeing N nm D j).

  Lemma seen_nodes l : incl l (vars N) ->
    exists ns, mapM (fun p => if mem p (jt_bbn_ids j) then dgetE (jt_heap j) p else Err KeyError) l = Ok ns /\ map nv ns = map (fun i => (i, dom N i)) l /\ map n_id ns = l.
  Proof using R.
    induction l as [|i l IH]; intros Hl. { exists []; auto. }
    destruct IH as [ns [A1 [A2 A3]]]. { intros y Hy; apply Hl; right; auto. }
    assert (Hi : In i (vars N)) by (apply Hl; left; auto). destruct (se_node _ _ _ _ R i Hi) as [n [E1 [E2 [E3 [E4 _]]]]].
    assert (Hm : mem i (jt_bbn_ids j) = true). { apply mem_In. apply (se_ids _ _ _ _ R); auto. }
    exists (n :: ns). cbn [mapM]. rewrite Hm. unfold dgetE at 1. rewrite E1. cbn [rbind]. rewrite A1. cbn [rbind]. split; auto. simpl. rewrite A2, A3. unfold nv. rewrite E2, E4. auto.
  Qed.

  (** the CPT of a variable is too short for the parents seen: IndexError *)
  Lemma seen_short : (forall i, In i (vars N) -> NoDup (dom N i)) -> (forall i, NoDup (par N i ++ [i])) -> (forall i, In i (vars N) -> incl (par N i) (vars N)) ->
    (exists i, In i (vars N) /\ List.length (cpt N i) < size (dom N) (par N i ++ [i])) -> pot_reinit j = Err IndexError.
  Proof using R.
    intros Hdm Hnd Hin [x [Hx Hs]]. unfold pot_reinit, bbn_node_and_parents.
    assert (E : forall l, incl l (vars N) -> exists nps, mapM (fun i => n <- dgetE (jt_heap j) i ;; pa <- mapM (fun p => if mem p (jt_bbn_ids j) then dgetE (jt_heap j) p else Err KeyError) (dgets (jt_pinfo j) i) ;; Ok (i, (n, pa))) l = Ok nps /\
      (In x l -> mapM (fun x => let (n, pa) := (snd x : bnode * list bnode) in q <- get_potential n pa ;; Ok (fst x, (q, map n_id pa))) nps = Err IndexError) /\
      ((exists r, mapM (fun x => let (n, pa) := (snd x : bnode * list bnode) in q <- get_potential n pa ;; Ok (fst x, (q, map n_id pa))) nps = Ok r) \/
        mapM (fun x => let (n, pa) := (snd x : bnode * list bnode) in q <- get_potential n pa ;; Ok (fst x, (q, map n_id pa))) nps = Err IndexError)).
    { induction l as [|i l IH]; intros Hl. { exists []. cbn [mapM]. split; auto. split; [intros []|left; eauto]. }
      destruct IH as [nps [A1 [A2 A3]]]. { intros y Hy; apply Hl; right; auto. }
      assert (Hi : In i (vars N)) by (apply Hl; left; auto). destruct (se_node _ _ _ _ R i Hi) as [n [E1 [E2 [E3 [E4 [E5 _]]]]]].
      destruct (seen_nodes (par N i) (Hin i Hi)) as [ns [B1 [B2 B3]]]. exists ((i, (n, ns)) :: nps).
      assert (G : get_potential n ns = fill_probs (tab (dom N) (par N i ++ [i]) (fun _ => 1%Qc)) (cpt N i)).
      { unfold get_potential. rewrite map_app, B2. simpl. unfold nv. rewrite E2, E4, E5. change [(i, dom N i)] with (map (fun i => (i, dom N i)) [i]).
        rewrite <- map_app, potential_from_nodes_tab by apply Hnd. reflexivity. }
      assert (Hlen : List.length (tab (dom N) (par N i ++ [i]) (fun _ : asg => 1%Qc)) = size (dom N) (par N i ++ [i])).
      { unfold tab. rewrite map_length, cartesian_len, <- size_vsize. auto. }
      split; [|split].
      - cbn [mapM]. unfold dgetE at 1. rewrite E1. cbn [rbind]. rewrite (se_par _ _ _ _ R) by auto. rewrite B1. cbn [rbind]. rewrite A1. reflexivity.
      - intros Hxl. cbn [mapM snd fst]. destruct (Z.eq_dec x i) as [->|Hne].
        + rewrite G, fill_probs_short; [reflexivity|]. rewrite Hlen. auto.
        + destruct Hxl as [Hxl|Hxl]; [congruence|]. rewrite (A2 Hxl).
          destruct (Nat.lt_ge_cases (List.length (cpt N i)) (size (dom N) (par N i ++ [i]))) as [Hlt|Hge].
          * rewrite G, fill_probs_short; [reflexivity|]. rewrite Hlen. auto.
          * rewrite G, fill_probs_tab; [reflexivity|apply Hnd| |auto]. intros v Hv. apply Hdm. apply in_app_or in Hv. destruct Hv as [Hv|[<-|[]]]; auto. apply (Hin i Hi); auto.
      - cbn [mapM snd fst]. destruct (Nat.lt_ge_cases (List.length (cpt N i)) (size (dom N) (par N i ++ [i]))) as [Hlt|Hge].
        + right. rewrite G, fill_probs_short; [reflexivity|]. rewrite Hlen. auto.
        + rewrite G, fill_probs_tab; [|apply Hnd| |auto]. 2:{ intros v Hv. apply Hdm. apply in_app_or in Hv. destruct Hv as [Hv|[<-|[]]]; auto. apply (Hin i Hi); auto. }
          cbn [rbind]. destruct A3 as [[r ->]| ->]; cbn [rbind]; [left; eauto|auto]. }
    destruct (E (jt_bbn_ids j)) as [nps [A1 [A2 _]]]. { intros i Hi. apply (se_ids _ _ _ _ R); auto. }
    rewrite A1. cbn [rbind]. rewrite A2; [reflexivity|]. apply (se_ids _ _ _ _ R). auto.
  Qed.

  Context (HN : nshape N) (HDin : forall i, D i = true -> In i (vars N)).
  Notation N' := (ignoring D N).

  Lemma seen_net_ok : exists j', pot_reinit j = Ok j' /\ away D j' /\ jnet N' nm (muted (dom N) D j') /\ jt_evid j' = jt_evid j /\ jt_nodes j' = jt_nodes j /\ jt_listener j' = jt_listener j.
  Proof using R HN HDin.
    unfold pot_reinit, bbn_node_and_parents. pose proof (ignoring_shape D N HN) as HN'.
    set (fam := fun i => (i, (tab (dom N) (par N i ++ [i]) (cpt_entry N i), par N i)) : Z * (potential * list Z)).
    assert (E : mapM (fun i => n <- dgetE (jt_heap j) i ;; pa <- mapM (fun p => if mem p (jt_bbn_ids j) then dgetE (jt_heap j) p else Err KeyError) (dgets (jt_pinfo j) i) ;;
       q <- get_potential n pa ;; Ok (i, (q, map n_id pa))) (jt_bbn_ids j) = Ok (map fam (jt_bbn_ids j))).
    { apply mapM_all. intros i Hi. apply (se_ids _ _ _ _ R) in Hi. destruct (se_node _ _ _ _ R i Hi) as [n [E1 [E2 [E3 [E4 [E5 _]]]]]].
      unfold dgetE at 1. rewrite E1. cbn [rbind]. rewrite (se_par _ _ _ _ R) by auto. destruct (seen_nodes (par N i)) as [ns [A1 [A2 A3]]].
      { intros y Hy. apply (ns_ends _ HN y i Hy). }
      rewrite A1. cbn [rbind].
      assert (Hq : get_potential n ns = Ok (tab (dom N) (par N i ++ [i]) (cpt_entry N i))).
      { unfold get_potential. rewrite map_app, A2. simpl. unfold nv. rewrite E2, E4, E5. change [(i, dom N i)] with (map (fun i => (i, dom N i)) [i]).
        rewrite <- map_app, potential_from_nodes_tab by apply (ns_par _ HN). rewrite fill_probs_tab; [reflexivity|apply (ns_par _ HN)| |apply (ns_cpt _ HN); auto].
        intros v Hv. apply in_app_or in Hv. apply (ns_dom _ HN). destruct Hv as [Hv|[<-|[]]]; auto. apply (ns_ends _ HN v i Hv). }
      rewrite Hq. cbn [rbind]. rewrite A3. reflexivity. }
    rewrite (mapM_two (fun i => n <- dgetE (jt_heap j) i ;; pa <- mapM (fun p => if mem p (jt_bbn_ids j) then dgetE (jt_heap j) p else Err KeyError) (dgets (jt_pinfo j) i) ;; Ok (i, (n, pa)))
      (fun x => let (n, pa) := (snd x : bnode * list bnode) in q <- get_potential n pa ;; Ok (fst x, (q, map n_id pa))) _ (map fam (jt_bbn_ids j))).
    2:{ rewrite <- E. apply mapM_ext. intros i Hi. destruct (dgetE (jt_heap j) i); cbn [rbind]; auto. destruct (mapM _ (dgets (jt_pinfo j) i)); cbn [rbind]; auto. }
    eexists. split; [reflexivity|].
    set (h := fold_left _ (map fam (jt_bbn_ids j)) (jt_heap j)).
    assert (Hk : map fst (map fam (jt_bbn_ids j)) = jt_bbn_ids j) by (rewrite map_map; apply map_id).
    assert (Hh : forall i, In i (vars N) -> exists n, dget (jt_heap j) i = Some n /\ dget h i = Some (set_mpar (set_pot n (Some (tab (dom N) (par N i ++ [i]) (cpt_entry N i)))) (par N i))).
    { intros i Hi. destruct (se_node _ _ _ _ R i Hi) as [n [E1 _]]. exists n. split; auto. unfold h. rewrite re_fold.
      - assert (Ed : dget (map fam (jt_bbn_ids j)) i = Some (snd (fam i))).
        { apply dget_In_NoDup. unfold dkeys. rewrite Hk. apply bbn_ids_NoDup. apply in_map_iff. exists i. split; [reflexivity|]. apply (se_ids _ _ _ _ R); auto. }
        rewrite Ed, E1. reflexivity.
      - rewrite Hk. apply bbn_ids_NoDup. }
    set (j' := set_jheap j h). split; [|split; [|auto]].
    - intros i n Hn Hd. pose proof (HDin i Hd) as Hi. destruct (Hh i Hi) as [m [E1 E2]]. change (dget h i = Some n) in Hn. rewrite E2 in Hn. inversion Hn; subst n. clear Hn.
      destruct (se_node _ _ _ _ R i Hi) as [m' [F1 [_ [_ [_ [_ [c [C1 [C2 [_ [_ C5]]]]]]]]]]]. rewrite E1 in F1. inversion F1; subst m'. destruct (C5 Hd) as [p [P1 P2]].
      exists c, (tab (dom N) (par N i ++ [i]) (cpt_entry N i)). split; auto. split; auto. split; auto. apply tab_misses with p; auto. apply in_app_iff; auto.
    - constructor.
      + destruct (se_JG _ _ _ _ R). constructor; auto.
      + constructor; change (jt_bbn_ids (muted (dom N) D j')) with (jt_bbn_ids j); change (jt_cliques (muted (dom N) D j')) with (jt_cliques j); cbn [ignoring dom];
          try (intros i Hi; apply (se_ids _ _ _ _ R) in Hi).
        * destruct (Hh i Hi) as [n [E1 E2]]. destruct (se_node _ _ _ _ R i Hi) as [n' [F1 [F2 [F3 [F4 [F5 [c [C1 [C2 [C3 [C4 C5]]]]]]]]]]]. rewrite E1 in F1. inversion F1; subst n'.
          eexists. split. { change (jt_heap (muted (dom N) D j')) with (hmute (dom N) D h). rewrite hmute_dget, E2. reflexivity. }
          split; [rewrite mute_id; exact F2|]. split; [rewrite mute_values; exact F4|]. split; [|split].
          -- unfold mute. cbn [ignoring dom par]. destruct (D i) eqn:Ed; [|simpl; f_equal; apply tab_ext; intros a _; unfold cpt_entry; cbn [ignoring dom par cpt]; rewrite Ed; reflexivity].
             cbn [n_pot app]. f_equal. apply tab_ext. intros a Ha. symmetry. apply ignoring_one; auto. apply Ha; left; auto.
          -- intros p. unfold jt_parent_ids. change (jt_heap (muted (dom N) D j')) with (hmute (dom N) D h). rewrite hmute_dget, E2. cbn [option_map]. unfold mute. cbn [ignoring par].
             destruct (D i); cbn [n_mpar]; [reflexivity|]. simpl. reflexivity.
          -- intros k. rewrite mute_mclq. cbn [set_mpar set_pot n_mclq]. intros Ek. exists c. split; auto. split; [congruence|].
             cbn [ignoring par]. destruct (D i) eqn:Ed; intros x Hx; apply in_app_iff in Hx; destruct Hx as [Hx|[<-|[]]]; auto. destruct Hx. apply C4; auto.
        * apply (ns_dom _ HN); auto.
        * apply (ns_par _ HN').
        * apply cpt_entry_dep.
        * intros i a Hi Ha. unfold cpt_entry. apply (se_ids _ _ _ _ R) in Hi. apply (ns_pos _ HN' i); auto. apply nth_In. eapply Nat.lt_le_trans; [|apply (ns_cpt _ HN'); auto]. apply row_index_lt. auto.
        * destruct (se_node _ _ _ _ R i Hi) as [n' [F1 [F2 [F3 [F4 [F5 [c [C1 [C2 [C3 [C4 C5]]]]]]]]]]]. exists c. split; auto. cbn [ignoring par].
          destruct (D i) eqn:Ed; intros x Hx; apply in_app_iff in Hx; destruct Hx as [Hx|[<-|[]]]; auto. destruct Hx. apply C4; auto.
      + apply (se_cnt _ _ _ _ R).
      + apply (se_ids _ _ _ _ R).
      + intros i Hi. change (jt_heap (muted (dom N) D j')) with (hmute (dom N) D h). rewrite hmute_name. unfold h_name. destruct (Hh i Hi) as [n [E1 E2]]. rewrite E2. simpl. destruct (se_node _ _ _ _ R i Hi) as [n' [F1 [F2 [F3 _]]]]. congruence.
      + apply (se_ne _ _ _ _ R).
  Qed.
End Seen.

Section LateNet.
  Context (ops : list bop) (HW : well_shaped ops).
  Notation nm := (net_name ops).

  (** the tree of a network after evidence calls, with the parents it sees once the network is changed *)
  Lemma late_tree o h new : ord_ok o -> valid_history (net_of ops) h ->
    exists b j j1, apply o (build ops) = Ok (b, j) /\ do_calls j h = (j1, None) /\ (connected ops -> jconn j1) /\
      seeing (seen_net ops new) nm (lacking ops new j1) (aliased (fold_left bstep new (shared b j1)) j1).
  Proof using HW.
    intros Ho Hh. destruct (old_tree ops HW o h new Ho Hh) as [b [j [j1 [A1 [A2 [A3 [A4 [A5 A6]]]]]]]]. exists b, j, j1. split; auto. split; auto. split; auto.
    destruct (session_shows ops o h HW Ho Hh) as [b' [j' [j1' [B1 [B2 [B3 _]]]]]]. rewrite A1 in B1. inversion B1; subst b' j'. rewrite A2 in B2. inversion B2; subst j1'.
    set (j2 := aliased (fold_left bstep new (shared b j1)) j1) in *.
    assert (Hm : forall i, In i (net_vars ops) -> exists n k, dget (jt_heap j1) i = Some n /\ n_mclq n = Some k).
    { intros i Hi. destruct (sw_live _ _ _ _ _ B3) as [ev Hl]. destruct (lv_from _ _ _ _ Hl) as [o0 [L1 [j0 [j3 [x [t [ts [_ [HJ [O E]]]]]]]]]].
      assert (Eh : jt_heap j1 = jt_heap j3). { change (jt_heap j1) with (jt_heap (set_jevid j1 ev)). rewrite E. reflexivity. }
      destruct (oc_fill _ _ _ _ _ _ _ _ _ O) as [_ F]. specialize (F i). rewrite <- Eh in F. destruct (rd_node _ _ _ A4 i Hi) as [n [E1 _]]. rewrite E1 in F.
      assert (Hmi : mem i (jt_bbn_ids j0) = true). { apply mem_In. apply (jn_ids _ _ _ HJ). exact Hi. }
      rewrite Hmi in F. destruct (dget (jt_heap j0) i) as [n0|]; [|discriminate]. simpl in F. inversion F as [F']. eexists _, _. split; [exact E1|]. rewrite F'. reflexivity. }
    destruct A4 as [R1 R2 R3 R4 R5 R6 R7]. constructor; auto.
    - destruct R1; constructor; auto.
    - intros i Hi. cbn [seen_net vars] in Hi. destruct (R6 i Hi) as [n [E1 [E2 [E3 [E4 [E5 E6]]]]]]. exists n. split; auto. split; auto. split; auto. split; auto. split; auto.
      destruct (Hm i Hi) as [n' [k [E1' Ek]]]. rewrite E1 in E1'. inversion E1'; subst n'. destruct (E6 k Ek) as [c [C1 [-> C2]]]. exists c. split; auto. split; auto. split; [apply C2, in_app_iff; right; left; auto|].
      cbn [seen_net par]. unfold lacking. rewrite E1, Ek.
      assert (Hu : forall d, In d (jt_cliques j1) -> cl_id d = cl_id c -> forall x, In x (cl_nodes d) <-> In x (cl_nodes c)).
      { intros d Hd Ed x. assert (Q : d = c); [|subst; tauto]. apply (id_inj (jt_cliques j1)); auto. pose proof (jg_ids_NoDup _ R1) as Q. apply NoDup_app_iff in Q. apply Q. }
      split.
      + intros Df p Hp. destruct (in_dec Z.eq_dec p (cl_nodes c)) as [|Hno]; auto. exfalso. apply not_true_iff_false in Df. apply Df. apply existsb_exists. exists c. split; auto. rewrite String.eqb_refl. cbn [andb].
        apply negb_true_iff, not_true_iff_false. intros F. rewrite forallb_forall in F. specialize (F p Hp). apply mem_In in F. auto.
      + intros Dt. apply existsb_exists in Dt. destruct Dt as [d [D1 D2]]. apply andb_true_iff in D2. destruct D2 as [D2 D3]. apply String.eqb_eq in D2. apply negb_true_iff in D3.
        assert (X : exists p, In p (seen_par ops new i) /\ mem p (cl_nodes d) = false). { clear - D3. induction (seen_par ops new i) as [|p l IH]; [discriminate|]. cbn [forallb] in D3. destruct (mem p (cl_nodes d)) eqn:Em; [|exists p; split; [left|]; auto]. destruct (IH D3) as [q [Q1 Q2]]. exists q. split; [right|]; auto. }
        destruct X as [p [P1 P2]]. exists p. split; auto. intros Hc. apply not_true_iff_false in P2. apply P2, mem_In. apply (Hu d D1 D2). auto.
  Qed.

  Lemma seen_shape new cpts : known_par ops new -> fitting (seen_net ops new) cpts ->
    (forall i, In i (net_vars ops) -> size (net_dom ops) (seen_par ops new i ++ [i]) <= List.length (cpt (replaced (seen_net ops new) cpts) i)) -> nshape (replaced (seen_net ops new) cpts).
  Proof using HW.
    intros HK [F1 F2] HS. pose proof (net_shape ops HW) as HN.
    assert (Hs : forall i, seen_par ops new i <> [] -> In i (net_vars ops)).
    { intros i Hne. unfold seen_par in Hne. destruct (net_par ops i) as [|p l] eqn:E; [congruence|]. apply (ns_ends _ HN p i). cbn [net_of par]. rewrite E. left; auto. }
    constructor; cbn [replaced seen_net vars dom par cpt]; try apply HN.
    - exact HS.
    - intros i q Hi. destruct (dget cpts i) as [c|] eqn:E; [|apply (ns_pos _ HN); auto]. intros Hq. apply dget_In in E. destruct (F2 i c E Hi) as [_ F]. rewrite Forall_forall in F. auto.
    - intros i. destruct (in_dec Z.eq_dec i (net_vars ops)) as [Hi|Hi].
      + apply NoDup_app_intro; [unfold seen_par; destruct (net_par ops i); [constructor|apply firsts_NoDup]|constructor; [intros []|constructor]|]. intros x Hx [<-|[]]. apply (HK i Hi); auto.
      + destruct (seen_par ops new i) as [|p l] eqn:E; [constructor; [intros []|constructor]|]. exfalso. apply Hi, Hs. congruence.
    - intros i k Hik. assert (Hk : In k (net_vars ops)). { apply Hs. intros E. rewrite E in Hik. destruct Hik. } split; auto. apply (HK k Hk); auto.
  Qed.

  Theorem c60_whole o h o' cpts new h' : connected ops -> ord_ok o -> ord_ok o' -> valid_history (net_of ops) h -> valid_history (net_of ops) h' -> known_par ops new -> fitting (seen_net ops new) cpts ->
    (forall i, In i (net_vars ops) -> size (net_dom ops) (seen_par ops new i ++ [i]) <= List.length (cpt (replaced (seen_net ops new) cpts) i)) ->
    exists b j j1 j2 j3 t, apply o (build ops) = Ok (b, j) /\ do_calls j h = (j1, None) /\
      reapply o' (aliased (fold_left bstep new (shared b j1)) j1) cpts = Ok j2 /\ do_calls j2 h' = (j3, None) /\ get_posteriors j3 = Ok t /\
      exact_table (ignoring (lacking ops new j1) (replaced (seen_net ops new) cpts)) nm (shown (net_of ops) (calls h')) t.
  Proof using HW.
    intros Hc Ho Ho' Hh [H1 H2] HK HF HS. pose proof (net_shape ops HW) as HN. pose proof (ws_names _ HW) as Hnm. pose proof (seen_shape new cpts HK HF HS) as HN2.
    destruct (late_tree o h new Ho Hh) as [b [j [j1 [A1 [A2 [A3 A4]]]]]]. set (D := lacking ops new j1) in *. set (j0 := aliased (fold_left bstep new (shared b j1)) j1) in *.
    set (N := replaced (seen_net ops new) cpts) in *.
    assert (HDin : forall i, D i = true -> In i (vars N)).
    { intros i Hd. unfold D, lacking in Hd. destruct (dget (jt_heap j1) i) as [n|]; [|discriminate]. destruct (n_mclq n); [|discriminate]. apply existsb_exists in Hd. destruct Hd as [c [_ Hd]]. apply andb_true_iff in Hd. destruct Hd as [_ Hd].
      destruct (seen_par ops new i) as [|p l] eqn:E; [discriminate|]. apply (ns_ends _ HN2 p i). cbn [N replaced seen_net par]. rewrite E. left; auto. }
    pose proof (listen_seeing _ _ _ _ (update_seeing _ _ _ _ cpts (proj1 HF) A4)) as HSe. set (j4 := set_jevid (set_jlistener (update_bbn_cpts j0 cpts) false) []) in *. fold N in HSe.
    destruct (seen_net_ok N nm D j4 HSe HN2 HDin) as [j5 [E1 [E2 [E3 [E4 [E5 E6]]]]]].
    destruct (infer_live (ignoring D N) nm (ns_nd _ HN) Hnm o' (muted (dom N) D j5) no_evidence Ho' E3) as [j6 [I1 [I2 I3]]].
    { intros i Hi. left. change (jt_evid (muted (dom N) D j5)) with (jt_evid j5). rewrite E4. auto. } { intros i v _ _. unfold no_evidence. discriminate. }
    destruct (muted_infer (dom N) D o' j5 E2 (jnet_keyed (ignoring D N) nm D j5 E3)) as [M1 M2]. rewrite M1 in I1. destruct (infer o' j5) as [j7|] eqn:I; cbn [rmap] in I1; [|discriminate]. inversion I1; subst j6. destruct (M2 j7 eq_refl) as [K1 K2].
    destruct (muted_calls (ignoring D N) nm D (ns_nd _ HN) Hnm (ns_dom _ (ignoring_shape D N HN2)) h' H1 (no_evidence, no_evidence) (set_jlistener j7 true)) as [j8 [B1 [B2 [B3 B4]]]].
    { exact K1. } { apply live_shows; auto. apply unit_none. } { exact H2. }
    destruct (sw_live _ _ _ _ _ B3) as [ev Hl]. destruct (live_exact_table (ignoring D N) nm _ _ (ns_nd _ HN) Hnm Hl) as [t [T1 T2]].
    { apply jconn_ext with j1; auto. cbn. rewrite B4. cbn. rewrite K2, E5. reflexivity. }
    exists b, j, j1, (set_jlistener j7 true), j8, t. split; auto. split; auto. split.
    { unfold reapply, apply_from_serde. cbv zeta. fold j0. change (set_jevid (set_jlistener (update_bbn_cpts j0 cpts) false) []) with j4. rewrite E1. cbn [rbind]. unfold infer in I. destruct (initialize j5) as [j5'|]; cbn [rbind] in *; [|discriminate]. rewrite I. reflexivity. }
    split; auto. split; [|exact T2]. rewrite <- (muted_posteriors (dom N) D j8). exact T1.
  Qed.

  Theorem c60_short o h o' cpts new : ord_ok o -> valid_history (net_of ops) h -> known_par ops new -> NoDup (dkeys cpts) ->
    (exists i, In i (net_vars ops) /\ List.length (cpt (replaced (seen_net ops new) cpts) i) < size (net_dom ops) (seen_par ops new i ++ [i])) ->
    exists b j j1, apply o (build ops) = Ok (b, j) /\ do_calls j h = (j1, None) /\ reapply o' (aliased (fold_left bstep new (shared b j1)) j1) cpts = Err IndexError.
  Proof using HW.
    intros Ho Hh HK HF HS. pose proof (net_shape ops HW) as HN. destruct (late_tree o h new Ho Hh) as [b [j [j1 [A1 [A2 [A3 A4]]]]]]. exists b, j, j1. split; auto. split; auto.
    unfold reapply, apply_from_serde. cbv zeta. pose proof (listen_seeing _ _ _ _ (update_seeing _ _ _ _ cpts HF A4)) as HSe.
    rewrite (seen_short _ _ _ _ HSe); [reflexivity| | | |exact HS].
    - intros i Hi. apply (ns_dom _ HN i Hi).
    - intros i. cbn [replaced seen_net par]. destruct (in_dec Z.eq_dec i (net_vars ops)) as [Hi|Hi].
      + apply NoDup_app_intro; [unfold seen_par; destruct (net_par ops i); [constructor|apply firsts_NoDup]|constructor; [intros []|constructor]|]. intros x Hx [<-|[]]. apply (HK i Hi); auto.
      + destruct (seen_par ops new i) as [|p l] eqn:E; [constructor; [intros []|constructor]|]. exfalso. apply Hi. unfold seen_par in E. destruct (net_par ops i) as [|p' l'] eqn:E'; [congruence|]. apply (ns_ends _ HN p' i). cbn [net_of par]. rewrite E'. left; auto.
    - intros i Hi. apply (HK i Hi).
  Qed.
End LateNet.
