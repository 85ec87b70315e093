(** apply on a network object whose nodes store cliques of the tree that lack some of their parents. *)
From Verif Require Import Py M_Graph M_Node M_Pptc Spec SpecNet SpecEv SpecRe SpecAgain SpecMute L_Base L_PD L_Sums L_Table L_Tree L_Walk L_Forest L_Root L_Good L_Prop L_Init L_Post L_Read
  L_Ids L_Trans L_Elim L_UG L_Tri L_Moral L_Build L_Exact L_Apply L_Net L_Evid L_Hist L_Claims L_Shape L_Shown L_P1 L_Reapply L_Det L_Again L_Again2 L_Mute.
Open Scope nat_scope.

Section Calls.
  Context (N : net) (nm : Z -> string) (D : Z -> bool) (HV : NoDup (vars N)) (Hnm : NoDup (map nm (vars N))) (HD : forall i, In i (vars N) -> NoDup (dom N i) /\ dom N i <> []).
  Notation muted := (muted (dom N) D).
  Notation away := (away D).

  Lemma jnet_keyed j : jnet N nm (muted j) -> keyed (init_pots j).
  Proof using.
    intros H. destruct (init_pots_ok _ _ _ (muted j) (jn_JG _ _ _ H) (jn_hg _ _ _ H)) as [_ [_ [_ [P _]]]].
    rewrite muted_init_pots in P. destruct (init_pots_nodes j) as [E _]. intros c p Hc Hp. unfold jt_cliques in Hc. rewrite E in Hc. specialize (P c Hc). change (jt_pots (muted (init_pots j))) with (jt_pots (init_pots j)) in P.
    rewrite P in Hp. inversion Hp; subst. intros e He. unfold tab in He. apply in_map_iff in He. destruct He as [vs [<- _]]. simpl. intros x Hx.
    unfold dkeys in Hx. apply in_map_iff in Hx. destruct Hx as [[k v] [<- Hx]]. eapply in_combine_l; eauto.
  Qed.

  Lemma muted_notify o j c : away j -> jnet N nm (muted j) -> notify o (muted j) c = rpair (dom N) D (notify o j c) /\ away (fst (notify o j c)).
  Proof using.
    intros HA HJ. pose proof (jnet_keyed j HJ) as HK. unfold notify, rpair. change (jt_listener (muted j)) with (jt_listener j). destruct (jt_listener j); [|auto].
    destruct c; auto.
    - destruct (muted_propagate (dom N) D o j) as [E1 E2]. rewrite E1. destruct (propagate o j) as [j'|x]; cbn [rmap fst snd]; split; auto. destruct (E2 j' eq_refl). eapply away_ext; eauto.
    - destruct (muted_infer (dom N) D o j HA HK) as [E1 E2]. unfold infer in E1, E2. rewrite E1. destruct (j0 <- initialize j;; propagate o j0) as [j'|x]; cbn [rmap fst snd]; split; auto. apply (E2 j' eq_refl).
  Qed.
  Lemma muted_update o j es : away j -> jnet N nm (muted j) -> update_evidences o (muted j) es = rpair (dom N) D (update_evidences o j es) /\ away (fst (update_evidences o j es)).
  Proof using.
    intros HA HJ. unfold update_evidences. destruct (mapM validate es) as [es'|x]; [|auto]. change (get_change_type (muted j) es') with (get_change_type j es').
    destruct (get_change_type j es') as [c|x]; [|auto]. destruct (muted_store (dom N) D es' j) as [S1 [S2 S3]]. rewrite S1. destruct (store_evidences j es') as [j' [x|]] eqn:E; unfold rpair; cbn [fst snd] in *.
    - split; auto. eapply away_ext; eauto.
    - assert (HA' : away j') by (eapply away_ext; eauto). apply (muted_notify o j' c HA'). eapply jnet_ext; [| | |exact HJ]; cbn; try congruence.
      assert (En : jt_nbrs j' = jt_nbrs j). { clear - E. revert j E. induction es' as [|e es' IH]; intros j E; cbn [store_evidences] in E; [congruence|]. destruct (dget (jt_evid j) (ev_node e)) as [m|]; [|discriminate].
        destruct (store_values m (ev_values e)) as [m' [x|]]; [discriminate|]. rewrite (IH _ E). reflexivity. }
      exact En.
  Qed.
  Lemma unobserved_mute i n : unobserved_evidence (mute (dom N) D i n) = unobserved_evidence n.
  Proof using. unfold unobserved_evidence. rewrite mute_id, mute_values. reflexivity. Qed.
  Lemma muted_call o j c : away j -> jnet N nm (muted j) -> do_call o (muted j) c = rpair (dom N) D (do_call o j c) /\ away (fst (do_call o j c)).
  Proof using.
    intros HA HJ. destruct c as [es|ns| |e]; cbn [do_call].
    - apply muted_update; auto.
    - apply muted_update; auto.
    - unfold unobserve_all. change (jt_bbn_ids (muted j)) with (jt_bbn_ids j). change (jt_heap (muted j)) with (hmute (dom N) D (jt_heap j)).
      assert (M : forall l, match mapM (dgetE (hmute (dom N) D (jt_heap j))) l, mapM (dgetE (jt_heap j)) l with
                            | Ok a, Ok b => map unobserved_evidence a = map unobserved_evidence b | Err x, Err y => x = y | _, _ => False end).
      { induction l as [|i l IH]; cbn [mapM]; auto. assert (G1 : dgetE (hmute (dom N) D (jt_heap j)) i = match dget (jt_heap j) i with Some n => Ok (mute (dom N) D i n) | None => Err KeyError end) by (unfold dgetE; rewrite hmute_dget; destruct (dget (jt_heap j) i); reflexivity). rewrite G1.
        change (dgetE (jt_heap j) i) with (match dget (jt_heap j) i with Some n => Ok n | None => Err KeyError end). destruct (dget (jt_heap j) i) as [n|]; cbn [rbind]; auto.
        destruct (mapM (dgetE (hmute (dom N) D (jt_heap j))) l), (mapM (dgetE (jt_heap j)) l); cbn [rbind]; auto; try contradiction. cbn [map]. rewrite unobserved_mute, IH. reflexivity. }
      specialize (M (jt_bbn_ids j)). destruct (mapM (dgetE (hmute (dom N) D (jt_heap j))) (jt_bbn_ids j)), (mapM (dgetE (jt_heap j)) (jt_bbn_ids j)); try contradiction.
      + unfold unobserve. rewrite M. apply muted_update; auto.
      + subst. auto.
    - unfold set_observation. change (jt_evid (muted j)) with (jt_evid j). destruct (dget (jt_evid j) (ev_node e)) as [m|]; [|auto]. destruct (convert m) as [pv|x]; [|auto].
      destruct (map fst (filter (fun p => qeqb 1 (snd p)) pv)) as [|y [|z l]]; try (apply muted_update; auto).
      destruct (map fst (filter (fun p => qeqb 1 (snd p)) (ev_values e))) as [|k r]; [auto|]. destruct (eqb y k); apply muted_update; auto.
  Qed.

  Theorem muted_calls h : Forall (fun p => ord_ok (fst p)) h -> forall s j, away j -> shows N nm (fst s) (snd s) (muted j) -> Forall (valid_call N) (map snd h) ->
    exists j', do_calls j h = (j', None) /\ away j' /\ shows N nm (fst (fold_left (step N) (map snd h) s)) (snd (fold_left (step N) (map snd h) s)) (muted j') /\ jt_nodes j' = jt_nodes j.
  Proof using HV Hnm HD.
    induction 1 as [|[o c] h Ho Hh IH]; intros [L S] j HA HW Hv; simpl in *. { exists j; auto. }
    inversion Hv as [|? ? V1 V2]; subst. destruct (call_shows N nm HV Hnm HD o L S (muted j) c Ho HW V1) as [j1 [J1 [J2 J3]]].
    destruct (muted_call o j c HA (st_net _ _ _ _ (sw_st _ _ _ _ _ HW))) as [M1 M2]. rewrite M1 in J1. destruct (do_call o j c) as [j2 x]. unfold rpair in J1. cbn [fst snd] in *. inversion J1; subst j1 x.
    destruct (IH (step N (L, S) c) j2 M2 J2 V2) as [j' [K1 [K2 [K3 K4]]]]. exists j'. split; auto. split; auto. split; auto. change (jt_nodes (muted j2)) with (jt_nodes j2) in J3. change (jt_nodes (muted j)) with (jt_nodes j) in J3. congruence.
  Qed.
End Calls.
