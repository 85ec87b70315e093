(** Evidence histories with rejected calls. *)
From Verif Require Import Py M_Graph M_Node M_Pptc Spec SpecNet SpecEv SpecTry L_Base L_PD L_Sums L_Table L_Tree L_Walk L_Forest L_Root L_Good L_Prop L_Init L_Post L_Read
  L_Ids L_Trans L_Elim L_UG L_Tri L_Moral L_Build L_Exact L_Apply L_Net L_Evid L_Hist L_Claims L_Shown L_P1 L_P2.
Open Scope Qc_scope.

Lemma before_In d l v : In v (before d l) -> In v d /\ In v l.
Proof. induction l as [|x l IH]; simpl; [tauto|]. destruct (mem_spec x d); simpl; [|tauto]. intros [<-|H]; [auto|]. apply IH in H. tauto. Qed.

Lemma store_values_before i d : NoDup d -> forall vs L, NoDup (dkeys vs) ->
  store_values (evmap i d L) vs = (evmap i d (fun j v => if Z.eqb j i && mem v (before d (dkeys vs)) then match dget vs v with Some q => q | None => 0 end else L j v),
    if forallb (fun v => mem v d) (dkeys vs) then None else Some KeyError).
Proof.
  intros Hd. induction vs as [|[k q] vs IH]; intros L HN.
  - simpl. f_equal. apply evmap_ext. intros v _. rewrite andb_false_r. auto.
  - simpl in HN. inversion HN as [|? ? N1 N2]; subst. cbn [store_values dkeys map fst before forallb]. change (map fst vs) with (dkeys vs) in *. destruct (mem_spec k d) as [Hk|Hk].
    + rewrite dget_evmap by auto. cbn [pe_map]. rewrite dset_evmap by auto. rewrite IH by auto. cbn [andb]. f_equal. apply evmap_ext. intros v Hv. rewrite !Z.eqb_refl. cbn [andb]. unfold mem at 2. cbn [existsb].
      change (@eqb string EqB_string v k) with (String.eqb v k). cbn [dget]. change (@eqb string EqB_string v k) with (String.eqb v k). destruct (String.eqb_spec v k) as [->|Hn]; cbn [orb].
      * destruct (mem_spec k (before d (dkeys vs))) as [Hb|Hb]; auto. apply before_In in Hb. tauto.
      * reflexivity.
    + assert (E : dget (evmap i d L) k = None). { apply dget_None. unfold evmap, dkeys. rewrite map_map. simpl. rewrite map_id. auto. }
      rewrite E. cbn [andb]. f_equal. apply evmap_ext. intros v _. unfold mem. simpl. rewrite andb_false_r. auto.
Qed.

Section Try.
  Context (N : net) (nm : Z -> string) (HV : NoDup (vars N)) (Hnm : NoDup (map nm (vars N))).
  Context (HD : forall i, In i (vars N) -> NoDup (dom N i) /\ dom N i <> []).
  Notation stored := (stored N nm).
  Notation shows := (shows N nm).

  Definition checked (e e' : evidence) : Prop := ev_node e' = ev_node e /\ dkeys (ev_values e') = considered e /\
    (forall v, In v (dom N (ev_node e)) -> dget (ev_values e') v = Some (like_any e v)) /\
    (inside N e = true -> forall v, In v (dom N (ev_node e)) -> like_any e v = like_of e v).

  Lemma inside_known e : plausible N e -> has_var N e = true -> inside N e = true -> known N e.
  Proof.
    clear. intros [_ H] H1 H2. apply mem_In in H1. destruct (H H1) as [A B]. split; auto. split; auto. split; auto. rewrite A. intros v Hv. unfold inside in H2. rewrite forallb_forall in H2. apply mem_In. auto.
  Qed.
  Lemma check_one e : plausible N e -> has_var N e = true -> exists e', validate e = Ok e' /\ checked e e'.
  Proof using HD.
    clear Hnm HV. intros HP Hp. pose proof HP as [_ H]. pose proof (proj1 (mem_In _ _) Hp) as Hi. destruct (H Hi) as [A B]. destruct (HD _ Hi) as [D1 D2]. rewrite <- A in D1, D2.
    destruct (validate_ok e D1 D2 B) as [m [E1 [E2 [E3 E4]]]]. eexists. split; [exact E1|]. split; [reflexivity|]. split; [exact E2|]. cbn [ev_values].
    assert (G : forall v, In v (dom N (ev_node e)) -> dget m v = Some (like_any e v)). { intros v Hv. rewrite <- A in Hv. rewrite E3 by auto. reflexivity. }
    split; auto. intros Hin v Hv. destruct (validate_known N e HD (inside_known e HP Hp Hin)) as [m' [F1 [_ [_ F4]]]]. rewrite E1 in F1. injection F1 as <-.
    specialize (F4 v Hv). rewrite G in F4 by auto. congruence.
  Qed.
  Lemma check_all es : Forall (plausible N) es -> forallb (has_var N) es = true -> exists es', mapM validate es = Ok es' /\ Forall2 checked es es'.
  Proof using HD.
    clear Hnm HV. induction 1 as [|e es H1 H2 IH]; intros Hp. { exists []; auto. } cbn [forallb] in Hp. apply andb_true_iff in Hp. destruct Hp as [P1 P2].
    destruct (check_one e H1 P1) as [e' [E1 E2]]. destruct (IH P2) as [es' [F1 F2]]. exists (e' :: es'). cbn [mapM]. rewrite E1. cbn [rbind]. rewrite F1. auto.
  Qed.

  Lemma like_any_range e v : 0 <= like_any e v /\ like_any e v <= 1.
  Proof.
    clear. unfold like_any. destruct (ev_type e); try apply like_range. assert (A2 : 0 <= 1) by (unfold Qcle, Qle, Z.le; simpl; discriminate).
    destruct (qeqb _ _); [split; auto; apply Qcle_refl|]. destruct (qltb _ _); split; auto; apply Qcle_refl.
  Qed.
  Lemma unit_partly L e : unitL N L -> unitL N (partly N L e).
  Proof. clear. intros H i v Hi Hv. unfold partly. destruct (_ && _); [apply like_any_range|apply H; auto]. Qed.

  Lemma inside_considered e : ev_dom e = dom N (ev_node e) -> forallb (fun v => mem v (dom N (ev_node e))) (considered e) = inside N e.
  Proof.
    clear. intros A. unfold considered, inside. rewrite forallb_app, A. rewrite (proj2 (forallb_forall _ (filter _ _))). apply andb_true_r. intros v Hv. apply filter_In in Hv. apply mem_In. tauto.
  Qed.
  Lemma before_all (d l : list string) : forallb (fun v => mem v d) l = true -> before d l = l.
  Proof. clear. induction l as [|x l IH]; simpl; auto. intros H. apply andb_true_iff in H. destruct H as [-> H]. rewrite IH; auto. Qed.

  Lemma store_checked L j e e' : stored L j -> plausible N e -> has_var N e = true -> checked e e' ->
    let L' := if inside N e then assimilate L e else partly N L e in
    store_values (evmap (ev_node e) (dom N (ev_node e)) L) (ev_values e') = (evmap (ev_node e) (dom N (ev_node e)) L', if inside N e then None else Some KeyError) /\
    stored L' (set_jevid j (dset (jt_evid j) (ev_node e) (evmap (ev_node e) (dom N (ev_node e)) L'))).
  Proof using HD.
    clear Hnm HV. intros HS HP Hp [V1 [V2 [V3 V4]]] L'. pose proof (proj1 (mem_In _ _) Hp) as Hi. destruct HP as [_ HP]. destruct (HP Hi) as [A B]. destruct (HD _ Hi) as [D1 _]. split.
    - rewrite store_values_before by (auto; rewrite V2; apply considered_NoDup; rewrite ?A; auto). rewrite V2, inside_considered by auto. f_equal. apply evmap_ext. intros v Hv. rewrite V3 by auto. rewrite Z.eqb_refl. cbn [andb]. unfold L'.
      destruct (inside N e) eqn:Ei.
      + rewrite before_all by (rewrite inside_considered; auto). rewrite (proj2 (mem_In v (considered e))) by (apply considered_In; right; rewrite A; auto). unfold assimilate. rewrite Z.eqb_refl. auto.
      + unfold partly. rewrite Z.eqb_refl. auto.
    - assert (O : forall i v, i <> ev_node e -> L' i v = L i v). { intros i v Hn. unfold L'. destruct (inside N e); unfold assimilate, partly; destruct (Z.eqb_spec i (ev_node e)); auto; congruence. }
      apply (stored_ext N nm L); auto. { unfold L'. destruct (inside N e); [apply unit_assim|apply unit_partly]; apply (st_unit _ _ _ _ HS). }
      intros i Hi'. rewrite dget_dset. destruct (eqb_spec i (ev_node e)) as [->|Hn]; auto. rewrite (stored_get N nm L j) by auto. f_equal. apply evmap_ext. intros v _. symmetry. auto.
  Qed.
  Lemma store_until es es' : Forall2 checked es es' -> forall L j, stored L j -> Forall (plausible N) es -> forallb (has_var N) es = true ->
    exists ev, store_evidences j es' = (set_jevid j ev, if forallb (inside N) es then None else Some KeyError) /\ stored (until N L es) (set_jevid j ev).
  Proof using HD.
    clear Hnm HV. induction 1 as [|e e' es es' V F IH]; intros L j HS HK Hp. { exists (jt_evid j). simpl. rewrite set_jevid_id. auto. }
    inversion HK as [|? ? K1 K2]; subst. cbn [forallb] in Hp. apply andb_true_iff in Hp. destruct Hp as [P1 P2]. destruct (store_checked L j e e' HS K1 P1 V) as [S1 S2].
    cbn [store_evidences until forallb]. destruct V as [V1 V2]. rewrite V1. rewrite (stored_get N nm L j) by (auto; apply mem_In; exact P1). rewrite S1. destruct (inside N e); cbn [andb].
    - destruct (IH _ _ S2 K2 P2) as [ev [J1 J2]]. exists ev. split; auto.
    - eexists. split; [reflexivity|exact S2].
  Qed.

  Record tried (s : situation) (j : jtree) : Prop := { td_shows : shows (fst s) (snd s) j; td_only : forall i, ~ In i (vars N) -> dget (jt_evid j) i = None }.

  Lemma only_kept j j' : (forall i, ~ In i (vars N) -> dget (jt_evid j) i = None) -> jnet N nm j -> evgrow (jt_bbn_ids j) j j' -> forall i, ~ In i (vars N) -> dget (jt_evid j') i = None.
  Proof.
    clear. intros H HJ [_ G] i Hi. apply dget_None. intros Hk. destruct (G i Hk) as [K|K].
    - apply dget_None in K; auto.
    - apply Hi. apply (jn_ids _ _ _ HJ). auto.
  Qed.

  Lemma update_tried o s j es : ord_ok o -> tried s j -> Forall (plausible N) es ->
    exists j', update_evidences o j es = (j', snd (try_update N s es)) /\ tried (fst (try_update N s es)) j' /\ jt_nodes j' = jt_nodes j.
  Proof using HV Hnm HD.
    intros Ho [HW Hev] HK. destruct s as [L S]. cbn [fst snd] in *. pose proof (sw_st _ _ _ _ _ HW) as HS.
    assert (Fin : forall j' x s', update_evidences o j es = (j', x) -> shows (fst s') (snd s') j' -> tried s' j').
    { intros j' x s' E Hs. constructor; auto. eapply only_kept; [exact Hev|apply (st_net _ _ _ _ HS)|]. eapply evgrow_update; eauto. }
    unfold try_update. destruct (forallb (has_var N) es) eqn:Ep; cbn [negb].
    - destruct (forallb (inside N) es) eqn:Ei; cbn [negb].
      + assert (HK' : Forall (known N) es). { rewrite forallb_forall in Ep, Ei. rewrite Forall_forall in HK. apply Forall_forall. intros e He. apply inside_known; auto. }
        destruct (update_shows N nm HV Hnm HD o L S j es Ho HW HK') as [j' [J1 [J2 J3]]]. exists j'. split; auto. split; auto. eapply Fin; eauto.
      + destruct (check_all es HK Ep) as [es' [E1 E2]]. destruct (store_until es es' E2 L j HS HK Ep) as [ev [J1 J2]]. rewrite Ei in J1.
        assert (Hc : exists c, get_change_type j es' = Ok c).
        { unfold get_change_type. destruct (mapM_total (fun e => pot <- dgetE (jt_evid j) (ev_node e) ;; compare_ev e pot) es') as [cs ->].
          - intros x Hx. assert (Hn : In (ev_node x) (vars N)).
            { clear - E2 Ep Hx. induction E2 as [|a b l l' [V _] F IH]; [destruct Hx|]. cbn [forallb] in Ep. apply andb_true_iff in Ep. destruct Ep as [P1 P2]. destruct Hx as [<-|Hx]; auto. rewrite V. apply mem_In; auto. }
            unfold dgetE. rewrite (stored_get _ _ _ _ _ HS Hn). cbn [rbind]. apply compare_total.
          - cbn [rbind]. destruct (existsb _ cs); [eauto|]. destruct (existsb _ cs); eauto. }
        destruct Hc as [c Hc]. assert (E : update_evidences o j es = (set_jevid j ev, Some KeyError)). { unfold update_evidences. rewrite E1, Hc, J1. auto. }
        exists (set_jevid j ev). split; auto. split; auto. eapply Fin; eauto. cbn [fst snd]. constructor; auto.
        * destruct (sw_live _ _ _ _ _ HW) as [ev' Hl]. exists ev'. exact Hl.
        * apply (sw_unit _ _ _ _ _ HW).
    - exists j. split; [|split; auto; constructor; auto]. cbn [snd fst].
      destruct (validate_list es) as [es' [E1 E2]]. { eapply Forall_impl; [|exact HK]. intros e [H _]. exact H. }
      unfold update_evidences. rewrite E1. unfold get_change_type. rewrite mapM_KeyError; auto.
      + intros x _. unfold dgetE. destruct (in_dec Z.eq_dec (ev_node x) (vars N)) as [Hi|Hi].
        * rewrite (stored_get _ _ _ _ _ HS Hi). cbn [rbind]. left. apply compare_total.
        * rewrite Hev by auto. right. reflexivity.
      + assert (G : exists x, In x es' /\ ~ In (ev_node x) (vars N)).
        { clear - E2 Ep. induction E2 as [|a b l l' [V _] F IH]; [discriminate|]. cbn [forallb] in Ep. apply andb_false_iff in Ep. destruct Ep as [Ep|Ep].
          - exists b. split; [left; auto|]. rewrite V. apply mem_false. exact Ep.
          - destruct (IH Ep) as [x [X1 X2]]. exists x; split; [right|]; auto. }
        destruct G as [x [Hx Ex]]. exists x. split; auto. unfold dgetE. rewrite Hev by auto. reflexivity.
  Qed.

  Theorem call_tried o s j c : ord_ok o -> tried s j -> plausible_call N c ->
    exists j', do_call o j c = (j', snd (attempt N s c)) /\ tried (fst (attempt N s c)) j' /\ jt_nodes j' = jt_nodes j.
  Proof using HV Hnm HD.
    intros Ho HT Hc. pose proof (td_shows _ _ HT) as HW. pose proof (sw_st _ _ _ _ _ HW) as HS.
    assert (Fin : forall j' x s', do_call o j c = (j', x) -> shows (fst s') (snd s') j' -> tried s' j').
    { intros j' x s' E Hs. constructor; auto. eapply only_kept; [apply (td_only _ _ HT)|apply (st_net _ _ _ _ HS)|]. eapply evgrow_call; eauto. }
    assert (Val : valid_call N c -> exists j', do_call o j c = (j', None) /\ tried (step N s c) j' /\ jt_nodes j' = jt_nodes j).
    { intros Hv. destruct s as [L S]. destruct (call_shows N nm HV Hnm HD o L S j c Ho HW Hv) as [j' [J1 [J2 J3]]]. exists j'. split; auto. split; auto. eapply Fin; eauto. }
    destruct c as [es|ns| |e]; cbn [attempt plausible_call] in *.
    - apply update_tried; auto.
    - destruct (forallb (fun n => mem (n_id n) (vars N)) ns) eqn:En.
      + apply Val. simpl. rewrite forallb_forall in En. rewrite Forall_forall in *. intros n Hn. specialize (En n Hn). apply mem_In in En. split; auto.
      + exists j. split; [|split; auto]. cbn [do_call snd]. unfold unobserve.
        destruct (validate_list (map unobserved_evidence ns)) as [es' [E1 E2]]. { apply Forall_forall. intros e He. apply in_map_iff in He. destruct He as [n [<- _]]. intros E. discriminate. }
        unfold update_evidences. rewrite E1. unfold get_change_type. rewrite mapM_KeyError; auto.
        * intros x _. unfold dgetE. destruct (in_dec Z.eq_dec (ev_node x) (vars N)) as [Hi|Hi].
          -- rewrite (stored_get _ _ _ _ _ HS Hi). cbn [rbind]. left. apply compare_total.
          -- rewrite (td_only _ _ HT) by auto. right. reflexivity.
        * assert (G : exists x, In x es' /\ ~ In (ev_node x) (vars N)).
          { clear - E2 En. remember (map unobserved_evidence ns) as es. revert ns Heqes En. induction E2 as [|a b l l' [V _] F IH]; intros [|n ns] Heq En; try discriminate.
            injection Heq as -> ->. cbn [forallb] in En. apply andb_false_iff in En. destruct En as [En|En].
            - exists b. split; [left; auto|]. rewrite V. apply mem_false. exact En.
            - destruct (IH ns eq_refl En) as [x [X1 X2]]. exists x; split; [right|]; auto. }
          destruct G as [x [Hx Ex]]. exists x. split; auto. unfold dgetE. rewrite (td_only _ _ HT) by auto. reflexivity.
    - apply Val. exact I.
    - cbn [do_call] in *. unfold set_observation in *. unfold has_var. destruct (mem_spec (ev_node e) (vars N)) as [Hi|Hi]; cbn [negb].
      2:{ rewrite (td_only _ _ HT) by auto. exists j. auto. }
      destruct (HD _ Hi) as [D1 D2]. destruct s as [L S]. cbn [fst snd] in *.
      rewrite (stored_get N nm L j) in * by auto. rewrite convert_evmap in *. cbv zeta in *.
      assert (Ep : map fst (filter (fun p : string * Qc => qeqb 1 (snd p)) (map (fun v => (v, L (ev_node e) v)) (dom N (ev_node e)))) = ones (L (ev_node e)) (dom N (ev_node e))).
      { unfold ones. clear. induction (dom N (ev_node e)) as [|x l IH]; simpl; auto. destruct (qeqb 1 (L (ev_node e) x)); simpl; congruence. }
      rewrite Ep in *.
      assert (Hup : toggles N L e = false -> exists j', update_evidences o j [e] = (j', snd (if toggles N L e then (step N (L, S) (SetObservation e), None) else try_update N (L, S) [e])) /\
         tried (fst (if toggles N L e then (step N (L, S) (SetObservation e), None) else try_update N (L, S) [e])) j' /\ jt_nodes j' = jt_nodes j).
      { intros ->. apply update_tried; auto. }
      assert (Hun : toggles N L e = true -> exists j', update_evidences o j [mkEv (ev_node e) (ev_dom e) UNOBSERVE (fold_left (fun m v => dset m v 1) (ev_dom e) [])] = (j', None) /\
         shows (fst (step N (L, S) (SetObservation e))) (snd (step N (L, S) (SetObservation e))) j' /\ jt_nodes j' = jt_nodes j).
      { intros Et. unfold step. cbn [fst snd effect about]. rewrite Et. destruct Hc as [_ Hc]. destruct (Hc Hi) as [Kd _]. rewrite Kd. destruct (update_shows N nm HV Hnm HD o L S j [unobs (ev_node e) (dom N (ev_node e))] Ho HW) as [j' [J1 [J2 J3]]].
        - constructor; auto. apply unobs_known; auto.
        - exists j'. split; auto. split; auto.
          assert (A : agree N (withdraw L [ev_node e]) (fold_left assimilate [unobs (ev_node e) (dom N (ev_node e))] L)).
          { intros i v _ _. simpl. unfold assimilate, withdraw, mem. simpl. rewrite orb_false_r. auto. }
          eapply shows_agree; [exact J2|exact A|].
          change (forallb (quiet N L) [nothing N (ev_node e)]) with (forallb (quiet N L) [unobs (ev_node e) (dom N (ev_node e))]).
          destruct (forallb (quiet N L) [unobs (ev_node e) (dom N (ev_node e))]); [apply agree_refl|exact A]. }
      clear Val Ep. unfold sole. unfold toggles in Hup at 1. unfold toggles in Hun. fold (ones (L (ev_node e)) (dom N (ev_node e))) in *. unfold first_one in *.
      destruct (ones (L (ev_node e)) (dom N (ev_node e))) as [|y [|z l]] eqn:Eo; try (apply Hup; reflexivity).
      destruct (filter (fun p : string * Qc => qeqb 1 (snd p)) (ev_values e)) as [|[k q] r] eqn:Ef. { exists j. auto. }
      cbn [map fst] in *. change (@eqb string EqB_string y k) with (String.eqb y k) in *. destruct (String.eqb y k) eqn:Ek; auto.
      destruct (Hun eq_refl) as [j' [J1 [J2 J3]]]. assert (Et : toggles N L e = true). { unfold toggles, first_one. fold (ones (L (ev_node e)) (dom N (ev_node e))). rewrite Eo, Ef. auto. }
      rewrite Et. exists j'. split; auto. split; auto. eapply Fin; eauto.
  Qed.

  Theorem tries_tried h : Forall (fun p => ord_ok (fst p)) h -> forall s j, tried s j -> Forall (plausible_call N) (map snd h) ->
    exists j', do_tries j h = (j', snd (attempts N s (map snd h))) /\ tried (fst (attempts N s (map snd h))) j' /\ jt_nodes j' = jt_nodes j.
  Proof using HV Hnm HD.
    induction 1 as [|[o c] h Ho Hh IH]; intros s j HT Hv; cbn [map snd do_tries attempts fst] in *. { exists j; auto. }
    inversion Hv as [|? ? V1 V2]; subst. destruct (call_tried o s j c Ho HT V1) as [j1 [J1 [J2 J3]]]. rewrite J1. destruct (attempt N s c) as [s1 x]. cbn [fst snd] in *.
    destruct (IH s1 j1 J2 V2) as [j' [K1 [K2 K3]]]. rewrite K1. destruct (attempts N s1 (map snd h)) as [s2 xs]. cbn [fst snd] in *. exists j'. split; auto. split; auto. congruence.
  Qed.
End Try.
