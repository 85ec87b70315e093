(** Reapply and repeated apply on networks in any number of parts. *)
From Verif Require Import Py M_Graph M_Node M_Pptc Spec SpecNet SpecEv SpecRe SpecAgain SpecPart L_Base L_PD L_Sums L_Table L_Tree L_Walk L_Forest L_Root L_Good L_Prop L_Init L_Post L_Read
  L_Ids L_Trans L_Elim L_UG L_Tri L_Moral L_Build L_Exact L_Apply L_Net L_Evid L_Hist L_Claims L_Shape L_Shown L_P1 L_Reapply L_Det L_Again L_Part L_Part2 L_Part3 L_Part4.
Open Scope nat_scope.

(** the cliques stay, and so does the clique a node has been assigned *)
Record stays (j j' : jtree) : Prop := {
  sy_n : jt_nodes j' = jt_nodes j;
  sy_m : forall i k, option_map n_mclq (dget (jt_heap j) i) = Some (Some k) -> option_map n_mclq (dget (jt_heap j') i) = Some (Some k) }.
Lemma keeps_stays j j' : keeps j j' -> stays j j'. Proof. intros K. constructor. apply (kp_n _ _ K). apply (kp_m _ _ K). Qed.
Lemma stays_trans j1 j2 j3 : stays j1 j2 -> stays j2 j3 -> stays j1 j3.
Proof. intros [A1 A2] [B1 B2]. constructor; [congruence|auto]. Qed.
Lemma placed_stays N j j' : stays j j' -> placed N j -> placed N j'.
Proof.
  intros K H i Hi. destruct (H i Hi) as [c [H1 H2]]. exists c. split. { unfold jt_cliques. rewrite (sy_n _ _ K). exact H1. }
  apply homed_id. apply (sy_m _ _ K). apply homed_id; auto.
Qed.

Lemma hupd_mclq h k f : (forall n, n_mclq (f n) = n_mclq n) -> forall i, option_map n_mclq (dget (hupd h k f) i) = option_map n_mclq (dget h i).
Proof. intros Hf i. rewrite hupd_dget. destruct (Z.eqb_spec k i) as [->|]; auto. destruct (dget h i); simpl; auto. rewrite Hf; auto. Qed.
Lemma fold_mclq {A} (f : heap -> A -> heap) l : (forall h a i, option_map n_mclq (dget (f h a) i) = option_map n_mclq (dget h i)) ->
  forall h i, option_map n_mclq (dget (fold_left f l h) i) = option_map n_mclq (dget h i).
Proof. intros Hf. induction l as [|a l IH]; intros h i; simpl; auto. rewrite IH; auto. Qed.

Lemma update_stays j cpts : stays j (update_bbn_cpts j cpts).
Proof.
  constructor; auto. intros i k H. unfold update_bbn_cpts. cbn [jt_heap set_jheap]. rewrite fold_mclq; auto. intros h a i'. destruct (mem (fst a) (jt_bbn_ids j)); auto. apply hupd_mclq; auto.
Qed.
Lemma reinit_stays j j' : pot_reinit j = Ok j' -> stays j j'.
Proof.
  unfold pot_reinit. intros E. destruct (bbn_node_and_parents j) as [nps|]; cbn [rbind] in E; [|discriminate]. destruct (mapM _ nps) as [ps|]; cbn [rbind] in E; [|discriminate]. injection E as <-. constructor; auto. intros i k H.
  cbn [jt_heap set_jheap]. rewrite fold_mclq; auto. intros h a i'. apply hupd_mclq; auto.
Qed.
Lemma reapply_stays o j cpts j' : reapply o j cpts = Ok j' -> stays j j'.
Proof.
  unfold reapply, apply_from_serde. intros E. destruct (pot_reinit _) as [j1|] eqn:E1; cbn [rbind] in E; [|discriminate].
  destruct (initialize j1) as [j2|] eqn:E2; cbn [rbind] in E; [|discriminate]. destruct (propagate o j2) as [j3|] eqn:E3; cbn [rbind] in E; [|discriminate]. injection E as <-.
  apply stays_trans with (update_bbn_cpts j cpts); [apply update_stays|]. apply stays_trans with j1. { destruct (reinit_stays _ _ E1) as [A1 A2]. constructor; auto. }
  apply stays_trans with j2; [apply keeps_stays; eapply keeps_init; eauto|]. apply stays_trans with j3; [apply keeps_stays; eapply keeps_propagate; eauto|].
  constructor; auto.
Qed.
Lemma deed_stays j d j' : do_deed j d = Ok j' -> stays j j'.
Proof.
  destruct d as [o c|o cpts]; simpl; [|apply reapply_stays]. destruct (do_call o j c) as [j1 [x|]] eqn:E; [discriminate|]. intros Q; injection Q as <-. apply keeps_stays. eapply keeps_call; eauto.
Qed.
Lemma deeds_stays ds : forall j j', foldM do_deed ds j = Ok j' -> stays j j'.
Proof.
  induction ds as [|d ds IH]; intros j j' E; simpl in E. { injection E as <-. constructor; auto. }
  destruct (do_deed j d) as [j1|] eqn:E1; cbn [rbind] in E; [|discriminate]. eapply stays_trans; [eapply deed_stays; eauto|eapply IH; eauto].
Qed.

(** ** the network with other CPTs *)
Lemma tight_net N N' j : vars N' = vars N -> par N' = par N -> tight N j -> tight N' j.
Proof. intros E1 E2 H. unfold tight, is_parent in *. rewrite E1, E2. exact H. Qed.
Lemma placed_net N N' j : vars N' = vars N -> par N' = par N -> placed N j -> placed N' j.
Proof. intros E1 E2 H. unfold placed, first_holding in *. rewrite E1, E2. exact H. Qed.
Lemma after_net ds : forall s, vars (fst (fold_left after ds s)) = vars (fst s) /\ par (fst (fold_left after ds s)) = par (fst s).
Proof. induction ds as [|d ds IH]; intros s; simpl; auto. destruct (IH (after s d)) as [-> ->]. destruct d; auto. Qed.

Theorem c18_described ops o ds : well_shaped ops -> ord_ok o -> deeds_ok (start ops) ds -> let s := fold_left after ds (start ops) in
  exists b0 j0 j t, apply o (build ops) = Ok (b0, j0) /\ adventure o ops ds = Ok j /\ get_posteriors j = Ok t /\ jt_cliques j = jt_cliques j0 /\
    described (fst s) (net_name ops) (snd (snd s)) (jt_cliques j) t.
Proof.
  intros HW Ho Hd s. destruct (apply_situated ops o HW Ho) as [b [j [A1 [A2 A3]]]]. destruct (situated_all ops ds HW _ _ A2 Hd) as [j' [B1 [B2 [B3 _]]]]. fold s in B2.
  destruct (apply_placed (net_of ops) (net_name ops) (net_shape ops HW) (ws_names _ HW) (build ops) o (build_good ops) Ho (build_fresh ops HW)) as [j0 [b' [j1 [C1 [C2 [C3 [C4 [C5 C6]]]]]]]].
  rewrite A1 in C2. injection C2 as <- <-. destruct (after_net ds (start ops)) as [V P]. fold s in V, P. simpl in V, P.
  assert (S : situ (fst s) (net_name ops) (snd (snd s)) j').
  { constructor; [apply (sw_live _ _ _ _ _ (L_Reapply.si_shows _ _ _ B2))| |].
    - apply (tight_net (net_of ops)); [exact V|exact P|]. apply tight_ext with j; auto.
    - apply (placed_net (net_of ops)); [exact V|exact P|]. eapply placed_stays; [eapply deeds_stays; eauto|auto]. }
  destruct (situ_described _ (net_name ops) (snd (snd s)) j' (si_shape _ _ _ B2)) with (2 := S) as [t [T1 T2]]. { rewrite V. apply (ws_names _ HW). }
  exists b, j, j', t. split; auto. split. { unfold adventure. rewrite A1. cbn [rbind snd]. exact B1. } split; auto. split; auto. apply nodes_cl; auto.
Qed.

(** ** repeated apply *)
Lemma first_sim N cs ds i c d : Forall2 clsim cs ds -> first_holding N cs i c -> In d ds -> cl_id d = cl_id c -> incl (cl_nodes c) (cl_nodes d) -> first_holding N ds i d.
Proof.
  intros S [H1 [H2 H3]] Hd E Hi. split; auto. split. { eapply incl_tran; eauto. } intros e He Hf.
  destruct (sim_find _ _ e (sims_sym _ _ S) He) as [e' [E1 [E2 E3]]]. rewrite E, <- E2. apply H3; auto. eapply incl_tran; eauto.
Qed.

Section Turns.
  Context (ops : list bop) (HW : well_shaped ops) (jr : jtree) (Hr : compile ord_id (build ops) = Ok jr).
  Let nm := net_name ops.

  Lemma apply_places N b o : vars N = vars (net_of ops) -> dom N = dom (net_of ops) -> par N = par (net_of ops) -> nshape N -> bgood N nm b -> ord_ok o ->
    (forall i n k, In (i, n) (g_nodes (b_g b)) -> n_mclq n = Some k -> exists c, first_holding N (jt_cliques jr) i c /\ k = cl_id c) ->
    forall b' j, apply o b = Ok (b', j) -> tight N j /\ placed N j.
  Proof using HW Hr.
    intros E1 E2 E3 HN HB Ho HF b' j EA. pose proof (ws_names _ HW) as Hnm. change (net_vars ops) with (vars (net_of ops)) in Hnm. rewrite <- E1 in Hnm.
    assert (HS : forall j0, compile o b = Ok j0 -> Forall2 clsim (jt_cliques jr) (jt_cliques j0)). { intros j0 C. exact (compiled_sim ops HW jr Hr N b o j0 E1 E2 E3 HN HB Ho C). }
    destruct (apply_gen N nm b o HN HB Hnm Ho) as [j0 [j1 [A1 [A2 [A3 [A4 [A5 [A6 [A7 A8]]]]]]]]].
    { intros j0 C i n k Hn Ek. destruct (HF i n k Hn Ek) as [c [H1 H2]].
      destruct (sim_find _ _ c (HS j0 C) (proj1 H1)) as [d [D1 [D2 D3]]]. exists d. split; auto. split; [congruence|]. eapply incl_tran; [apply H1|auto]. }
    rewrite A6 in EA. injection EA as _ <-. assert (En : jt_nodes (set_jlistener j1 true) = jt_nodes j0) by apply (sm_n _ _ A5).
    split. { apply tight_ext with j0; auto. eapply compile_tight; eauto. }
    destruct (infer_net N nm (ns_nd _ HN) Hnm o j0 no_evidence Ho A2) as [j2 [x [t [ts [E [O _]]]]]].
    { intros i Hi. left. rewrite A3. auto. } { intros i v _ _. unfold no_evidence. discriminate. }
    rewrite A4 in E. injection E as <-. destruct (oc_fill _ _ _ _ _ _ _ _ _ O) as [_ Fi].
    intros i Hi. assert (Q : exists c, first_holding N (jt_cliques j0) i c /\ assigned j0 i = cl_id c).
    { destruct (hg_node _ _ _ _ (jn_hg _ _ _ A2) i (proj2 (jn_ids _ _ _ A2 i) Hi)) as [n [En' _]]. destruct (n_mclq n) as [k|] eqn:Ek.
      - destruct (compile_full N nm b HN HB o Ho) as [u [Ks [j0' [F [C1 [C2 [C3 [C4 [C5 [C6 [C7 _]]]]]]]]]]]. rewrite C1 in A1. injection A1 as ->.
        pose proof En' as Q. rewrite C7 in Q. apply dget_In in Q. unfold hm, moralize_meta, hp in Q. rewrite map_map in Q.
        apply in_map_iff in Q. destruct Q as [[k' m] [Em Hm]]. simpl in Em. pose proof (f_equal fst Em) as Q1. simpl in Q1. subst k'. pose proof (f_equal (fun p => n_mclq (snd p)) Em) as Q. simpl in Q.
        assert (Em' : n_mclq m = Some k) by (rewrite <- Ek, <- Q; reflexivity).
        destruct (HF i m k Hm Em') as [c [H1 H2]]. destruct (sim_find _ _ c (HS j0 C1) (proj1 H1)) as [d [D1 [D2 D3]]].
        exists d. split. { eapply first_sim; eauto. } unfold assigned. rewrite En', Ek. congruence.
      - apply (assigned_first N nm j0 i A2 Hi). intros n' Hn'. congruence. }
    destruct Q as [c [H1 H2]]. exists c. split. { unfold jt_cliques. rewrite En. exact H1. }
    apply (jn_ids _ _ _ A2) in Hi. unfold homed. change (jt_heap (set_jlistener j1 true)) with (jt_heap j1). rewrite Fi, (proj2 (mem_In _ _) Hi).
    destruct (hg_node _ _ _ _ (jn_hg _ _ _ A2) i Hi) as [n [En' _]]. rewrite En'. simpl. rewrite H2. apply String.eqb_refl.
  Qed.

  Lemma turn_places s b j d : together ops jr s b j -> tight (fst s) j -> placed (fst s) j -> deed_ok (fst s) d ->
    exists b' j', do_turn (b, j) d = Ok (b', j') /\ together ops jr (after s d) b' j' /\ tight (fst (after s d)) j' /\ placed (fst (after s d)) j'.
  Proof using HW Hr.
    intros T HT HP Hd. destruct (turn_together ops HW jr Hr s b j d T Hd) as [b' [j' [E T']]]. exists b', j'. split; auto. split; auto.
    destruct T as [S1 S2 S3 S4 S5 S6 S7 S8 S9]. destruct s as [N [L S]]. simpl in *.
    destruct d as [o c|o cpts]; simpl in *; destruct Hd as [Ho Hd].
    - destruct (do_call o j c) as [j1 [x|]] eqn:E1; [discriminate|]. injection E as _ <-. pose proof (keeps_call _ _ _ _ _ E1) as K.
      split. { apply tight_ext with j; auto. apply (kp_n _ _ K). } apply placed_keeps with j; auto.
    - apply (apply_places (replaced N cpts) (assign b cpts) o) with (b' := b'); auto.
      + apply replaced_shape; auto.
      + apply good_assign; auto.
      + intros i n k Hn Ek. destruct (assign_mclq b cpts i n Hn) as [m [Hm Em]]. rewrite <- Em in Ek. pose proof Hm as Hm'. rewrite S7 in Hm'.
        assert (Hi : In i (vars N)). { rewrite <- (bg_ids _ _ _ S6). unfold ids, dkeys. apply in_map_iff. exists (i, m); auto. }
        destruct (HP i Hi) as [c [C1 C2]]. apply homed_id in C2.
        assert (G : dget (jt_heap j) i = Some m). { apply dget_In_NoDup; auto. rewrite <- S7. pose proof (bg_ids _ _ _ S6) as B. unfold ids in B. rewrite B. apply (ns_nd _ S1). }
        rewrite G in C2. simpl in C2. assert (Ec : k = cl_id c) by congruence.
        destruct (sim_find _ _ c (sims_sym _ _ S8) (proj1 C1)) as [d [D1 [D2 D3]]]. exists d. split; [|congruence].
        exact (first_sim (replaced N cpts) _ _ i c d (sims_sym _ _ S8) C1 D1 D2 D3).
  Qed.

  Lemma turns_place ds : forall s b j, together ops jr s b j -> tight (fst s) j -> placed (fst s) j -> deeds_ok s ds ->
    exists b' j', foldM do_turn ds (b, j) = Ok (b', j') /\ together ops jr (fold_left after ds s) b' j' /\ tight (fst (fold_left after ds s)) j' /\ placed (fst (fold_left after ds s)) j'.
  Proof using HW Hr.
    induction ds as [|d ds IH]; intros s b j H HT HP Hd; simpl in *. { exists b, j; auto. }
    destruct Hd as [D1 D2]. destruct (turn_places s b j d H HT HP D1) as [b1 [j1 [E1 [H1 [T1 P1]]]]]. rewrite E1. cbn [rbind]. apply IH; auto.
  Qed.
End Turns.

Lemma sims_ids cs ds : Forall2 clsim cs ds -> map cl_id cs = map cl_id ds.
Proof. induction 1 as [|c d cs ds [E _] H IH]; simpl; congruence. Qed.

Theorem c42_described ops o ds : well_shaped ops -> ord_ok o -> deeds_ok (start ops) ds -> let s := fold_left after ds (start ops) in
  exists b0 j0 b j t, apply o (build ops) = Ok (b0, j0) /\ turns o ops ds = Ok (b, j) /\ get_posteriors j = Ok t /\ map cl_id (jt_cliques j) = map cl_id (jt_cliques j0) /\
    described (fst s) (net_name ops) (snd (snd s)) (jt_cliques j) t.
Proof.
  intros HW Ho Hd s. destruct (compile_ref ops HW) as [jr Hr].
  assert (F : forall i n k, In (i, n) (g_nodes (b_g (build ops))) -> n_mclq n = Some k -> False). { intros i n k Hn Ek. rewrite (build_fresh ops HW i n Hn) in Ek. discriminate. }
  destruct (apply_together ops HW jr Hr (net_of ops) (build ops) o) as [b [j [A1 A2]]]; auto using net_shape, build_good. { intros i n k Hn Ek. destruct (F i n k Hn Ek). }
  destruct (apply_places ops HW jr Hr (net_of ops) (build ops) o eq_refl eq_refl eq_refl (net_shape ops HW) (build_good ops) Ho) with (b' := b) (j := j) as [T P]; auto. { intros i n k Hn Ek. destruct (F i n k Hn Ek). }
  destruct (turns_place ops HW jr Hr ds _ b j A2 T P Hd) as [b' [j' [B1 [B2 [B3 B4]]]]]. fold s in B2, B3, B4.
  assert (S : situ (fst s) (net_name ops) (snd (snd s)) j') by (constructor; auto; apply (sw_live _ _ _ _ _ (tg_shows _ _ _ _ _ B2))).
  destruct (situ_described _ (net_name ops) (snd (snd s)) j' (tg_shape _ _ _ _ _ B2)) with (2 := S) as [t [T1 T2]]. { rewrite (tg_vars _ _ _ _ _ B2). apply (ws_names _ HW). }
  exists b, j, b', j', t. split; auto. split. { unfold turns. rewrite A1. cbn [rbind]. exact B1. } split; auto. split; auto.
  apply sims_ids. eapply sims_trans; [apply sims_sym; exact (tg_cl _ _ _ _ _ B2)|exact (tg_cl _ _ _ _ _ A2)].
Qed.
