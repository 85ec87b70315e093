(** Enough depth for whole sessions; how deep the walks go. *)
From Verif Require Import Py M_Graph M_Node M_Pptc M_Depth Spec SpecNet SpecEv SpecGraph L_Base L_PD L_Sums L_Table L_Tree L_Walk L_Forest L_Root L_Good L_Prop L_Init L_Post L_Ids L_Trans L_Elim L_UG L_Build L_Exact L_Apply L_Net L_Evid L_Hist L_Claims L_Shape L_Shown L_P1 L_Reapply L_Part L_Part2 L_Size L_Depth.
Open Scope nat_scope.

(** ** evidence *)
Section Calls.
  Context (d : nat).
  Lemma notify_more o j c j' : walk_fuel j <= d -> notify o j c = (j', None) -> notify_d d o j c = (j', None).
  Proof using.
    intros Hd. unfold notify, notify_d. destruct (jt_listener j); auto. destruct c; auto.
    - destruct (propagate o j) as [j1|x] eqn:E; [|discriminate]. rewrite (cut_ok _ _ _ (propagate_more d o j Hd) E). auto.
    - destruct (initialize j) as [j0|x] eqn:E0; cbn [rbind]; [|discriminate]. destruct (propagate o j0) as [j1|x] eqn:E; [|discriminate].
      assert (Hd0 : walk_fuel j0 <= d) by (unfold walk_fuel; rewrite (kp_n _ _ (keeps_init _ _ E0)); exact Hd). rewrite (cut_ok _ _ _ (propagate_more d o j0 Hd0) E). auto.
  Qed.
  Lemma update_more o j es j' : walk_fuel j <= d -> update_evidences o j es = (j', None) -> update_evidences_d d o j es = (j', None).
  Proof using.
    intros Hd. unfold update_evidences, update_evidences_d. destruct (mapM validate es) as [es'|x]; auto. destruct (get_change_type j es') as [c|x]; auto.
    destruct (store_evidences j es') as [j1 [x|]] eqn:E; auto. apply notify_more. unfold walk_fuel. rewrite (kp_n _ _ (keeps_store _ _ _ _ E)). exact Hd.
  Qed.
  Lemma call_more o j c j' : walk_fuel j <= d -> do_call o j c = (j', None) -> do_call_d d o j c = (j', None).
  Proof using.
    intros Hd. destruct c as [es|ns| |e]; simpl.
    - apply update_more; auto.
    - apply update_more; auto.
    - unfold unobserve_all, unobserve_all_d. destruct (mapM _ _); auto. apply update_more; auto.
    - unfold set_observation, set_observation_d. destruct (dget _ _) as [m|]; auto. destruct (convert m) as [pv|]; auto. destruct (map fst (filter _ pv)) as [|v [|w l]]; try (apply update_more; auto).
      destruct (map fst (filter _ (ev_values e))) as [|w l]; auto. destruct (eqb v w); apply update_more; auto.
  Qed.
  Lemma calls_more h : forall j j', walk_fuel j <= d -> do_calls j h = (j', None) -> do_calls_d d j h = (j', None).
  Proof using.
    induction h as [|[o c] h IH]; intros j j' Hd E; simpl in *; auto. destruct (do_call o j c) as [j1 [x|]] eqn:E1; [discriminate|]. rewrite (call_more _ _ _ _ Hd E1). apply IH; auto.
    unfold walk_fuel. rewrite (kp_n _ _ (keeps_call _ _ _ _ _ E1)). exact Hd.
  Qed.
End Calls.

(** ** building the tree *)
Definition compile_d (d : nat) (o : Ord) (b : bbn) : res jtree :=
  h <- pot_init b ;;
  ug <- moralize (set_graph_nodes (b_g b) h) ;;
  mc <- triangulate o ug ;;
  j <- transform_d d o (moralize_meta (set_graph_nodes (b_g b) h) h) (snd mc) ;;
  Ok (set_jpinfo j (pinfo_of b (get_nodes (set_graph_nodes (b_g b) h)))).
Lemma apply_compile_d d o b : apply_d d o b = (j <- compile_d d o b ;; j <- (j <- initialize j ;; propagate_d d o j) ;;
  Ok (mkBbn (set_graph_nodes (b_g b) (jt_heap j)) (b_parents b), set_jlistener j true)).
Proof.
  unfold apply_d, compile_d. destruct (pot_init b) as [h|e]; cbn [rbind]; auto. destruct (moralize _) as [u|e]; cbn [rbind]; auto.
  destruct (triangulate o u) as [mc|e]; cbn [rbind]; auto. destruct (transform_d _ _ _ _) as [j|e]; cbn [rbind]; auto.
  fold (pinfo_of b (get_nodes (set_graph_nodes (b_g b) h))). destruct (initialize _) as [j1|e]; cbn [rbind]; auto.
Qed.
Lemma compile_more d o b j : compile o b = Ok j -> 2 + List.length (jt_nodes j) <= d -> compile_d d o b = Ok j.
Proof.
  unfold compile, compile_d. intros E Hd. destruct (pot_init b) as [h|e]; cbn [rbind] in *; [|discriminate]. destruct (moralize _) as [u|e]; cbn [rbind] in *; [|discriminate].
  destruct (triangulate o u) as [mc|e]; cbn [rbind] in *; [|discriminate]. apply rbind_Ok in E. destruct E as [j1 [E1 E2]]. inversion E2; subst j. cbn in Hd. rewrite (transform_more d _ _ _ _ E1 Hd). reflexivity.
Qed.
Lemma compile_less d o b j : compile o b = Ok j -> cut (compile_d d o b) (Ok j).
Proof.
  unfold compile, compile_d. intros E. destruct (pot_init b) as [h|e]; cbn [rbind] in *; [|discriminate]. destruct (moralize _) as [u|e]; cbn [rbind] in *; [|discriminate].
  destruct (triangulate o u) as [mc|e]; cbn [rbind] in *; [|discriminate]. apply rbind_Ok in E. destruct E as [j1 [E1 E2]]. rewrite <- E2. destruct (transform_less d _ _ _ _ E1) as [Q|Q]; rewrite Q; [left|right]; auto.
Qed.

Theorem session_more ops o h d : well_shaped ops -> ord_ok o -> valid_history (net_of ops) h -> 2 + 2 * List.length (vars (net_of ops)) <= d -> session_d d o ops h = session o ops h.
Proof.
  intros HW Ho Hh Hd. destruct (session_shows ops o h HW Ho Hh) as [b [j [j' [A1 [A2 [A3 [A4 [A5 A6]]]]]]]]. rewrite (session_eq _ _ _ _ _ _ A1 A2).
  destruct (apply_net _ _ _ o (net_shape ops HW) (build_good ops) (ws_names _ HW) Ho (build_fresh ops HW)) as [j0 [j1 [B1 [B2 [_ [B4 [B5 [B6 _]]]]]]]]. rewrite A1 in B6. injection B6 as Eb Ej.
  destruct (compile_len _ _ _ o j0 (net_shape ops HW) (build_good ops) Ho B1) as [L1 L2]. pose proof (seps_fewer _ L2) as L3. pose proof (nodes_len j0) as L4.
  assert (Ln : 2 + List.length (jt_nodes j0) <= d) by lia.
  unfold session_d. rewrite apply_compile_d, (compile_more d o _ _ B1 Ln). cbn [rbind]. unfold infer in B4. apply rbind_Ok in B4. destruct B4 as [ji [I1 I2]]. rewrite I1. cbn [rbind].
  assert (Hw : walk_fuel ji <= d) by (unfold walk_fuel; rewrite (kp_n _ _ (keeps_init _ _ I1)); lia). rewrite (cut_ok _ _ _ (propagate_more d o ji Hw) I2). cbn [rbind snd]. rewrite <- Ej.
  assert (Hj : walk_fuel j <= d). { rewrite Ej. unfold walk_fuel. cbn. rewrite (kp_n _ _ (keeps_propagate _ _ _ I2)), (kp_n _ _ (keeps_init _ _ I1)). lia. }
  rewrite (calls_more d h _ _ Hj A2). reflexivity.
Qed.

(** ** how deep the walks go *)
Fixpoint height (t : rt) : nat := match t with RN c kids => S (fold_right (fun p m => Nat.max (height (snd p)) m) 0 kids) end.
Lemma height_kid c kids s t : In (s, t) kids -> S (height t) <= height (RN c kids).
Proof. intros H. simpl. apply le_n_S. induction kids as [|p kids IH]; [destruct H|]. simpl. destruct H as [->|H]; [simpl; lia|]. specialize (IH H). lia. Qed.
Lemma height_le c kids f : (forall s t, In (s, t) kids -> height t <= f) -> height (RN c kids) <= S f.
Proof. intros H. simpl. apply le_n_S. induction kids as [|[s t] kids IH]; simpl; [lia|]. pose proof (H s t (or_introl eq_refl)). specialize (IH (fun s t Hi => H s t (or_intror Hi))). lia. Qed.

Section Deep.
  Context (o : Ord) (j : jtree).
  Lemma deep_foldM f y kids :
    (forall s t, In (s, t) kids -> forall ps m r, NoDup (cids t) -> In (cl_id y) m -> In (cl_id (root t)) m -> (forall i, In i (cids t) -> i <> cl_id (root t) -> ~ In i m) ->
        collect_walk o j f (ps, m) y s (root t) = Ok r -> height t <= f /\ (forall i, In i (snd r) -> In i m \/ In i (cids t)) /\ incl m (snd r)) ->
    forall l ps m1 r, incl l kids -> NoDup (cidsL l) -> In (cl_id y) m1 -> incl (roots l) m1 -> (forall i, In i (cidsL l) -> ~ In i (roots l) -> ~ In i m1) ->
      foldM (fun st p => collect_walk o j f st y (fst p) (snd p)) (map krt l) (ps, m1) = Ok r ->
      (forall s t, In (s, t) l -> height t <= f) /\ (forall i, In i (snd r) -> In i m1 \/ In i (cidsL l)) /\ incl m1 (snd r).
  Proof using.
    intros IH. induction l as [|[s t] l IHl]; intros ps m1 r Hincl HN Hy Hr Hm1 E.
    - simpl in E. inversion E; subst. split; [intros s t []|]. split; auto using incl_refl.
    - simpl in E. apply rbind_Ok in E. destruct E as [[psa ma] [Ea Eb]].
      rewrite cidsL_cons in HN, Hm1. apply NoDup_app_iff in HN. destruct HN as [N1 [N2 N3]].
      assert (Hin : In (s, t) kids) by (apply Hincl; left; auto).
      destruct (IH s t Hin ps m1 (psa, ma)) as [A1 [A2 A3]]; auto.
      { apply Hr. left; auto. }
      { intros i Hi Hne. apply Hm1. apply in_or_app; auto. simpl. intros [Hc|Hc]; [congruence|]. apply roots_in in Hc. apply (N3 i); auto. }
      cbn [snd] in A2, A3. destruct (IHl psa ma r) as [B1 [B2 B3]]; auto.
      { intros p Hp; apply Hincl; right; auto. }
      { intros i Hi. apply A3, Hr. right; auto. }
      { intros i Hi Hri Hc. destruct (A2 i Hc) as [Hc'|Hc'].
        - revert Hc'. apply Hm1. apply in_or_app; auto. simpl. intros [Hc''|Hc'']; auto. apply (N3 i); auto. rewrite <- Hc''. apply cids_root.
        - apply (N3 i); auto. }
      split; [|split].
      + intros s' t' [Hx|Hx]; [inversion Hx; subst; auto|eauto].
      + intros i Hi. rewrite cidsL_cons, in_app_iff. destruct (B2 i Hi) as [Hi'|Hi']; auto. destruct (A2 i Hi'); auto.
      + eapply incl_tran; eauto.
  Qed.
  Lemma deep_walk t : forall f ps m x s r, wT o j [cl_id x] t -> NoDup (cids t) -> In (cl_id x) m -> In (cl_id (root t)) m -> (forall i, In i (cids t) -> i <> cl_id (root t) -> ~ In i m) ->
    collect_walk o j f (ps, m) x s (root t) = Ok r -> height t <= f /\ (forall i, In i (snd r) -> In i m \/ In i (cids t)) /\ incl m (snd r).
  Proof using.
    induction t as [y kids IH] using rt_ind'. intros f ps m x s r Hw HN Hx Hr Hm E. destruct f as [|f]; [discriminate|].
    apply wT_inv in Hw. destruct Hw as [nb [E1 [E2 Hk]]]. rewrite cids_eq in *. inversion HN as [|? ? HN1 HN2]; subst. simpl root in *. simpl collect_walk in E. rewrite E1 in E. cbn [rbind] in E.
    destruct (mark_new_spec _ _ _ m E2) as [m1 [F1 F2]].
    { intros i [<-|[]]; auto. }
    { intros i Hi. apply roots_in in Hi. apply Hm; simpl; auto. intros ->. auto. }
    { apply roots_NoDup; auto. }
    cbn [snd fst] in E. rewrite F1 in E. apply rbind_Ok in E. destruct E as [[ps' m2] [Ef Ep]]. apply rbind_Ok in Ep. destruct Ep as [ps2 [_ Ep]]. inversion Ep; subst r. cbn [snd] in *.
    destruct (deep_foldM f y kids) with (l := kids) (ps := ps) (m1 := m1) (r := (ps', m2)) as [B1 [B2 B3]]; auto using incl_refl.
    { intros s' t' Hin ps3 m' r H1 H2 H3 H4 H5. apply (IH s' t' Hin f ps3 m' y s' r); auto. apply (Hk s' t' Hin). }
    { apply F2; auto. }
    { intros i Hi. apply F2; auto. }
    { intros i Hi Hri Hc. apply F2 in Hc. destruct Hc as [Hc|Hc]; auto. revert Hc. apply Hm; simpl; auto. intros ->; auto. }
    cbn [snd] in *. split; [apply height_le; auto|]. split.
    + intros i Hi. destruct (B2 i Hi) as [Hi'|Hi']; [|simpl; auto]. apply F2 in Hi'. destruct Hi' as [Hi'|Hi']; auto. right. right. apply roots_in; auto.
    + intros i Hi. apply B3, F2; auto.
  Qed.
  Lemma deep_collect d t ps r : wT o j [] t -> NoDup (cids t) -> collect_d d o j (ps, []) (root t) = Ok r -> height t <= S d.
  Proof using.
    destruct t as [x kids]. simpl root. intros Hw HN E. apply wT_inv in Hw. destruct Hw as [nb [E1 [E2 Hk]]]. rewrite cids_eq in *. inversion HN as [|? ? HN1 HN2]; subst.
    rewrite filter_all in E2 by auto. subst nb. unfold collect_d in E. rewrite E1 in E. cbn [rbind fst snd] in E.
    destruct (deep_foldM d x kids) with (l := kids) (ps := ps) (m1 := mark_all [cl_id x] (map krt kids)) (r := r) as [B1 _]; auto using incl_refl.
    - intros s' t' Hin ps2 m' r' H1 H2 H3 H4 H5. eapply deep_walk; eauto.
    - apply mark_all_In; left; left; auto.
    - intros i Hi. apply mark_all_In. right. rewrite roots_krt. auto.
    - intros i Hi Hr Hc. apply mark_all_In in Hc. rewrite roots_krt in Hc. destruct Hc as [[<-|[]]|Hc]; auto.
    - apply height_le; auto.
  Qed.
End Deep.
