(** Several join trees of one network object. *)
From Verif Require Import Py M_Graph M_Node M_Pptc Spec SpecNet SpecEv SpecRe SpecAgain SpecPart SpecMany L_Base L_PD L_Sums L_Table L_Tree L_Walk L_Forest L_Root L_Good L_Prop L_Init L_Post L_Read
  L_Ids L_Trans L_Elim L_UG L_Tri L_Moral L_Build L_Exact L_Apply L_Net L_Evid L_Hist L_Claims L_Shape L_Shown L_P1 L_Reapply L_Det L_Again L_Part L_Part2 L_Part3 L_Part4 L_Part5.
Open Scope nat_scope.

(** ** an evidence call on a tree whose evidence is known, whatever its potentials are *)
Section Kept.
  Context (N : net) (nm : Z -> string) (HV : NoDup (vars N)) (Hnm : NoDup (map nm (vars N))).
  Context (HD : forall i, In i (vars N) -> NoDup (dom N i) /\ dom N i <> []).
  Notation stored := (stored N nm).

  Definition kept (q : bool) (L' : likelihood) (j j' : jtree) : Prop :=
    stored L' j' /\ if q then exists ev, j' = set_jevid j ev else live N nm L' j'.

  Lemma kept_agree q L L' j j' : kept q L j j' -> agree N L' L -> kept q L' j j'.
  Proof.
    clear. intros [[S1 S2 S3 S4] H] A. split.
    - constructor; auto.
      + intros i Hi. rewrite (S2 i Hi). f_equal. apply evmap_ext. intros v Hv. symmetry. apply A; auto. apply (jn_ids _ _ _ S1); auto.
      + intros i v Hi Hv. rewrite A by auto. auto.
    - destruct q; auto. eapply live_agree; eauto.
  Qed.

  Lemma update_kept o L j es : ord_ok o -> stored L j -> Forall (known N) es ->
    exists j', update_evidences o j es = (j', None) /\ kept (forallb (quiet N L) es) (fold_left assimilate es L) j j'.
  Proof using HV Hnm HD.
    intros Ho HS HK. destruct (validate_all N HD es HK) as [es' [E1 E2]].
    destruct (store_all N nm HD es es' E2 L j HS HK) as [j' [J1 [J2 J3]]].
    unfold update_evidences. rewrite E1, (change_exact N nm HD L j es es' HS HK E2), J1. unfold notify. rewrite (st_lis _ _ _ _ J2). destruct (forallb (quiet N L) es) eqn:Eq.
    - exists j'. split; auto. split; auto. eapply store_only_evid; eauto.
    - destruct (infer_live N nm HV Hnm o j' (fold_left assimilate es L) Ho (st_net _ _ _ _ J2)) as [j2 [I1 [I2 I3]]].
      + apply efull_egood. apply J2.
      + intros i v Hi Hv. apply (st_unit _ _ _ _ J2); auto.
      + change (j0 <- initialize j' ;; propagate o j0) with (infer o j'). rewrite I1.
        assert (El : jt_listener j2 = true) by (rewrite (sm_l _ _ I3); apply J2). rewrite set_listener_id in I2 by auto.
        exists j2. split; auto. split; auto. apply live_stored; auto. apply J2.
  Qed.

  Lemma unobserve_kept o L j ns : ord_ok o -> stored L j -> Forall (node_in N) ns ->
    exists j', unobserve o j ns = (j', None) /\ kept (forallb (quiet N L) (map (fun n => nothing N (n_id n)) ns)) (withdraw L (map n_id ns)) j j'.
  Proof using HV Hnm HD.
    intros Ho HS HF. pose proof HF as HF'. unfold unobserve. rewrite Forall_forall in HF.
    destruct (update_kept o L j (map unobserved_evidence ns) Ho HS) as [j' [J1 J2]].
    - apply Forall_forall. intros e He. apply in_map_iff in He. destruct He as [n [<- Hn]]. destruct (HF n Hn) as [H1 H2]. unfold unobserved_evidence. rewrite H2. apply (unobs_known N HD (n_id n) H1).
    - exists j'. split; auto.
      assert (Eq : forallb (quiet N L) (map (fun n => nothing N (n_id n)) ns) = forallb (quiet N L) (map unobserved_evidence ns)).
      { clear. induction ns as [|n ns IH]; auto. cbn [map forallb]. rewrite IH. reflexivity. }
      rewrite Eq. eapply kept_agree; [exact J2|]. apply agree_sym, unobs_assims; auto.
  Qed.

  Theorem call_kept o L j c : ord_ok o -> stored L j -> valid_call N c ->
    exists j', do_call o j c = (j', None) /\ kept (forallb (quiet N L) (about N L c)) (effect N L c) j j'.
  Proof using HV Hnm HD.
    intros Ho HS Hv. destruct c as [es|ns| |e]; cbn [fst snd effect about do_call valid_call] in *.
    - apply update_kept; auto.
    - apply unobserve_kept; auto.
    - unfold unobserve_all. destruct (nodes_jnet N nm j (st_net _ _ _ _ HS) (jt_bbn_ids j)) as [ns [E1 [E2 E3]]]. { intros i Hi. apply (jn_ids _ _ _ (st_net _ _ _ _ HS)); auto. }
      rewrite E1. destruct (unobserve_kept o L j ns Ho HS E2) as [j' [J1 J2]]. exists j'. split; auto.
      rewrite (forallb_same (quiet N L) (quiet N L) (map (nothing N) (vars N)) (map (fun n => nothing N (n_id n)) ns)).
      + eapply kept_agree; [exact J2|]. intros i v Hi _. unfold withdraw. rewrite E3. rewrite (proj2 (mem_In _ _)); auto. apply (jn_ids _ _ _ (st_net _ _ _ _ HS)); auto.
      + intros x Hx. exists x. split; auto. apply in_map_iff in Hx. destruct Hx as [i [<- Hi]]. rewrite <- map_map. rewrite E3. apply in_map. apply (jn_ids _ _ _ (st_net _ _ _ _ HS)); auto.
      + intros x Hx. exists x. split; auto. rewrite <- map_map in Hx. rewrite E3 in Hx. apply in_map_iff in Hx. destruct Hx as [i [<- Hi]]. apply in_map. apply (jn_ids _ _ _ (st_net _ _ _ _ HS)); auto.
    - destruct Hv as [Hk Ho1]. pose proof Hk as Hk'. destruct Hk' as [Ki [Kd _]]. destruct (HD _ Ki) as [D1 D2].
      unfold set_observation. rewrite (stored_get N nm L j) by auto. rewrite convert_evmap. cbv zeta.
      assert (Ep : map fst (filter (fun p : string * Qc => qeqb 1%Qc (snd p)) (map (fun v => (v, L (ev_node e) v)) (dom N (ev_node e)))) = ones (L (ev_node e)) (dom N (ev_node e))).
      { unfold ones. clear. induction (dom N (ev_node e)) as [|x l IH]; simpl; auto. destruct (qeqb 1%Qc (L (ev_node e) x)); simpl; congruence. }
      rewrite Ep.
      assert (Hup : toggles N L e = false -> exists j', update_evidences o j [e] = (j', None) /\
         kept (forallb (quiet N L) (if toggles N L e then [nothing N (ev_node e)] else [e])) (if toggles N L e then withdraw L [ev_node e] else assimilate L e) j j').
      { intros Et. rewrite Et. apply (update_kept o L j [e] Ho HS). constructor; auto. }
      assert (Hun : toggles N L e = true -> exists j', update_evidences o j [mkEv (ev_node e) (ev_dom e) UNOBSERVE (fold_left (fun m v => dset m v 1%Qc) (ev_dom e) [])] = (j', None) /\
         kept (forallb (quiet N L) (if toggles N L e then [nothing N (ev_node e)] else [e])) (if toggles N L e then withdraw L [ev_node e] else assimilate L e) j j').
      { intros Et. rewrite Et, Kd. destruct (update_kept o L j [unobs (ev_node e) (dom N (ev_node e))] Ho HS) as [j' [J1 J2]].
        - constructor; auto. apply unobs_known; auto.
        - exists j'. split; auto.
          change (forallb (quiet N L) [nothing N (ev_node e)]) with (forallb (quiet N L) [unobs (ev_node e) (dom N (ev_node e))]).
          eapply kept_agree; [exact J2|]. intros i v _ _. simpl. unfold assimilate, withdraw, mem. simpl. rewrite orb_false_r. auto. }
      unfold toggles in Hup at 1. unfold toggles in Hun at 1. fold (ones (L (ev_node e)) (dom N (ev_node e))) in *. unfold first_one in *.
      destruct (ones (L (ev_node e)) (dom N (ev_node e))) as [|y [|z l]]; try (apply Hup; reflexivity).
      destruct (filter (fun p : string * Qc => qeqb 1%Qc (snd p)) (ev_values e)) as [|[k q] r]; [congruence|]. cbn [map fst].
      change (@eqb string EqB_string y k) with (String.eqb y k). destruct (String.eqb y k); auto.
  Qed.
End Kept.

(** ** once every node has a clique, calls leave the node objects alone *)
Definition settled (j : jtree) : Prop := forall i, In i (jt_bbn_ids j) -> exists k, option_map n_mclq (dget (jt_heap j) i) = Some (Some k).

Lemma init_pots_heap j : jt_heap (init_pots j) = jt_heap j /\ jt_bbn_ids (init_pots j) = jt_bbn_ids j.
Proof.
  unfold init_pots. assert (F : forall A (f : jtree -> A -> jtree) l, (forall j a, jt_heap (f j a) = jt_heap j /\ jt_bbn_ids (f j a) = jt_bbn_ids j) -> forall j, jt_heap (fold_left f l j) = jt_heap j /\ jt_bbn_ids (fold_left f l j) = jt_bbn_ids j).
  { intros A f l H. induction l as [|a l IH]; intros j0; simpl; auto. destruct (IH (f j0 a)) as [-> ->]. apply H. }
  match goal with |- jt_heap (fold_left ?f ?l ?x) = _ /\ _ => destruct (F _ f l (fun j a => conj eq_refl eq_refl) x) as [-> ->] end.
  apply F. auto.
Qed.
Lemma init_heap j j' : settled j -> initialize j = Ok j' -> jt_heap j' = jt_heap j.
Proof.
  unfold initialize. intros HS E. destruct (init_pots_heap j) as [P1 P2]. set (j0 := init_pots j) in *. rewrite P2 in E.
  assert (H1 : forall l a a', incl l (jt_bbn_ids j) -> jt_heap a = jt_heap j -> foldM init_node l a = Ok a' -> jt_heap a' = jt_heap j).
  { induction l as [|i l IH]; intros a a' Hl Ha F; simpl in F. { injection F as <-. auto. }
    destruct (init_node a i) as [b|] eqn:Eb; cbn [rbind] in F; [|discriminate]. apply (IH b a'); auto. { intros x Hx; apply Hl; right; auto. }
    unfold init_node, get_clique in Eb. destruct (HS i (Hl i (or_introl eq_refl))) as [k Hk]. rewrite <- Ha in Hk. unfold dgetE in Eb. destruct (dget (jt_heap a) i) as [n|] eqn:En; [|discriminate].
    cbn [rbind] in Eb. simpl in Hk. injection Hk as Hk. rewrite Hk in Eb. cbn [rbind] in Eb. destruct (dget (jt_pots a) k); cbn [rbind] in Eb; [|discriminate]. rewrite En in Eb. cbn [rbind] in Eb.
    destruct (n_pot n); [|discriminate]. injection Eb as <-. exact Ha. }
  assert (H2 : forall l a a', foldM init_evid l a = Ok a' -> jt_heap a' = jt_heap a).
  { induction l as [|i l IH]; intros a a' F; simpl in F. { injection F as <-. auto. }
    destruct (init_evid a i) as [b|] eqn:Eb; cbn [rbind] in F; [|discriminate]. rewrite (IH b a' F). clear F IH.
    unfold init_evid in Eb. destruct (dgetE (jt_heap a) i) as [n|]; cbn [rbind] in Eb; [|discriminate].
    revert a Eb. generalize (n_values n). induction l0 as [|v vs IH]; intros a F; simpl in F. { injection F as <-. auto. }
    destruct (n_mclq n); [|discriminate]. destruct (dgetE (jt_pots a) s); cbn [rbind] in F; [|discriminate].
    unfold get_evidence in F. destruct (dget (dgets (jt_evid a) i) v); cbn [rbind] in F; apply IH in F; exact F. }
  destruct (foldM init_node (jt_bbn_ids j) j0) as [j1|] eqn:E1; cbn [rbind] in E; [|discriminate]. rewrite (H2 _ _ _ E). apply (H1 _ _ _ (incl_refl _) P1 E1).
Qed.
Lemma propagate_heap o j j' : propagate o j = Ok j' -> jt_heap j' = jt_heap j.
Proof.
  unfold propagate. destruct (isort cl_leb (jt_cliques j)); [discriminate|]. intros E.
  destruct (collect _ _ _ _); cbn [rbind] in E; [|discriminate]. destruct (distribute _ _ _ _); cbn [rbind] in E; [|discriminate]. injection E as <-. auto.
Qed.
Lemma notify_heap o j c j' x : settled j -> notify o j c = (j', x) -> jt_heap j' = jt_heap j.
Proof.
  unfold notify. destruct (jt_listener j). 2:{ intros _ E; injection E as <- _; auto. }
  intros HS E. destruct c.
  - injection E as <- _; auto.
  - destruct (propagate o j) eqn:Ep; injection E as <- _; auto. eapply propagate_heap; eauto.
  - destruct (j0 <- initialize j ;; propagate o j0) eqn:Ep; injection E as <- _; auto.
    destruct (initialize j) as [j1|] eqn:E1; cbn [rbind] in Ep; [|discriminate]. rewrite (propagate_heap _ _ _ Ep). apply init_heap; auto.
Qed.
Lemma store_heap es : forall j j' x, store_evidences j es = (j', x) -> jt_heap j' = jt_heap j /\ jt_bbn_ids j' = jt_bbn_ids j.
Proof.
  induction es as [|e es IH]; intros j j' x E; simpl in E. { injection E as <- _; auto. }
  destruct (dget (jt_evid j) (ev_node e)) as [m|]; [|injection E as <- _; auto].
  destruct (store_values m (ev_values e)) as [m' [y|]]. { injection E as <- _; auto. }
  apply IH in E. exact E.
Qed.
Lemma update_heap o j es j' x : settled j -> update_evidences o j es = (j', x) -> jt_heap j' = jt_heap j.
Proof.
  unfold update_evidences. intros HS E. destruct (mapM validate es) as [es'|]; [|injection E as <- _; auto].
  destruct (get_change_type j es') as [c|]; [|injection E as <- _; auto].
  destruct (store_evidences j es') as [j1 [y|]] eqn:Es; destruct (store_heap _ _ _ _ Es) as [A B]. { injection E as <- _; auto. }
  rewrite <- A. eapply notify_heap; [|exact E]. unfold settled. rewrite A, B. exact HS.
Qed.
Lemma call_heap o j c j' x : settled j -> do_call o j c = (j', x) -> jt_heap j' = jt_heap j.
Proof.
  intros HS. destruct c; simpl; intros E.
  - eapply update_heap; eauto.
  - eapply update_heap; eauto.
  - unfold unobserve_all in E. destruct (mapM _ _); [eapply update_heap; eauto|injection E as <- _; auto].
  - unfold set_observation in E. destruct (dget (jt_evid j) (ev_node e)) as [m|]; [|injection E as <- _; auto].
    destruct (convert m) as [pv|]; [|injection E as <- _; auto].
    destruct (map fst (filter (fun p => qeqb 1%Qc (snd p)) pv)) as [|l [|]]; try (eapply update_heap; eauto; fail).
    destruct (map fst _); [injection E as <- _; auto|]. destruct (eqb l s); eapply update_heap; eauto.
Qed.

(** ** what get_posteriors looks at *)
Definition face (n : bnode) := (n_id n, n_name n, n_values n, n_mclq n).
Definition faces (h h' : heap) : Prop := forall i, option_map face (dget h i) = option_map face (dget h' i).
Lemma posteriors_face j h : faces (jt_heap j) h -> get_posteriors (set_jheap j h) = get_posteriors j.
Proof.
  intros F. unfold get_posteriors. change (jt_bbn_ids (set_jheap j h)) with (jt_bbn_ids j). generalize (@nil (string * list (string * Qc))). induction (jt_bbn_ids j) as [|i l IH]; intros d; simpl; auto.
  assert (E : (p <- get_bbn_potential (set_jheap j h) i;; Ok (dset d (h_name h i) (pot_to_map p))) = (p <- get_bbn_potential j i;; Ok (dset d (h_name (jt_heap j) i) (pot_to_map p)))).
  { specialize (F i). unfold get_bbn_potential, h_name, dgetE. cbn [jt_heap set_jheap jt_pots]. destruct (dget (jt_heap j) i) as [n|], (dget h i) as [m|]; simpl in F; try discriminate; auto.
    unfold face in F. injection F as F1 F2 F3 F4. cbn [rbind]. unfold nv. rewrite F1, F2, F3, F4. reflexivity. }
  rewrite E. destruct (get_bbn_potential j i) as [p|]; cbn [rbind]; auto.
Qed.
