(** Rounded journeys: evidence, new CPTs, saving and restoring. *)
From Verif Require Import Py M_Graph M_Node M_Pptc M_Serde M_Round M_Round2 Spec SpecNet SpecEv SpecRe SpecSer SpecPart SpecLost SpecRound
  L_Base L_Init L_Table L_Post L_Build L_Exact L_Apply L_Net L_Evid L_Hist L_Shape L_Shown L_P1 L_Door L_Reapply L_Serde L_P8 L_Again L_Lost L_Lost2 L_Lost3 L_Lost4 L_Round L_Round2 L_Round3 L_Round4 L_Size L_Steady L_Round5 L_Range.
Open Scope nat_scope.
Open Scope Qc_scope.

Lemma reinit_pots j ps : pot_reinit (set_jpots j ps) = (j1 <- pot_reinit j ;; Ok (set_jpots j1 ps)).
Proof.
  unfold pot_reinit, bbn_node_and_parents. change (jt_bbn_ids (set_jpots j ps)) with (jt_bbn_ids j). cbn [set_jpots jt_heap jt_pinfo].
  destruct (mapM _ (jt_bbn_ids j)) as [nps|]; cbn [rbind]; auto. destruct (mapM _ nps) as [qs|]; cbn [rbind]; auto.
Qed.
Lemma reinit_keeps j j1 : pot_reinit j = Ok j1 -> jt_pots j1 = jt_pots j.
Proof.
  unfold pot_reinit. destruct (bbn_node_and_parents j) as [nps|]; cbn [rbind]; [|discriminate]. destruct (mapM _ nps) as [qs|]; cbn [rbind]; [|discriminate]. intros E; inversion E; subst. reflexivity.
Qed.
Lemma follows_twice B f fr j : follows (fun k => gcall B (gcall B k)) jsim jsim f fr j -> follows (gcall B) jsim jsim f fr j.
Proof. intros H j1 E k. rewrite <- (gcall_twice B k). exact (H j1 E k). Qed.
(** from a tree that is ready: the same in rounded arithmetic *)
Lemma serde_follows B N nm o j : nshape N -> room B N -> ord_ok o -> ready N nm j -> (walk_fuel j <= B)%nat -> small B (jkeys j) (jt_pots j) ->
  follows (fun _ => ginfer B) jsim jsim (apply_from_serde o) (fun a => apply_from_serde_r a o) j /\ (forall j1, apply_from_serde o j = Ok j1 -> tpos B j1).
Proof.
  intros HN HM Ho R HF HS. set (j0 := set_jevid (set_jlistener j false) []). destruct (reinit_net N nm HN j0 (listen_ready _ _ _ R)) as [ji [E1 [J1 [_ [V1 [D1 _]]]]]].
  assert (Hi : tpos B ji). { apply (jnet_tpos B N nm); auto. { unfold walk_fuel. rewrite D1. exact HF. } unfold jkeys, jt_cliques, jt_sepsets. rewrite D1, (reinit_keeps _ _ E1). exact HS. }
  destruct (infer_follows B o ji Ho Hi) as [F1 F2].
  assert (X : apply_from_serde o j = (j2 <- infer o ji ;; Ok (set_jlistener j2 true))). { unfold apply_from_serde. fold j0. rewrite E1. cbn [rbind]. unfold infer. destruct (initialize ji); cbn [rbind]; auto. }
  split.
  - intros j1 E k. rewrite X in E. destruct (infer o ji) as [j2|] eqn:E2; cbn [rbind] in E; [|discriminate]. inversion E; subst j1. eapply near_1; [exact (F1 j2 E2 k)|]. intros r a _ N1 j' [S1 S2]. unfold apply_from_serde_r.
    assert (Q : pot_reinit (set_jevid (set_jlistener j' false) []) = Ok (set_jpots ji (jt_pots j'))). { set (ps := jt_pots j') in *. rewrite S1. change (set_jevid (set_jlistener (set_jpots j ps) false) []) with (set_jpots j0 ps). rewrite reinit_pots, E1. reflexivity. }
    rewrite Q. cbn [rbind]. destruct (N1 (set_jpots ji (jt_pots j'))) as [j2' [A1 A2]]. { split; auto. rewrite (reinit_keeps _ _ E1). exact S2. }
    unfold infer_r in A1. destruct (initialize_r a (set_jpots ji (jt_pots j'))) as [j3'|]; cbn [rbind] in A1 |- *; [|discriminate]. rewrite A1. cbn [rbind]. eexists. split; [reflexivity|]. apply jsim_listens; auto.
  - intros j1 E. rewrite X in E. destruct (infer o ji) as [j2|] eqn:E2; cbn [rbind] in E; [|discriminate]. inversion E; subst j1. apply tpos_listens. auto.
Qed.

Section Deeds.
  Context (B : nat) (N : net) (nm : Z -> string) (HN : nshape N) (HM : room B N).
  Lemma deed_follows L S j d : shows N nm L S j -> carries N j -> tpos B j -> deed_ok N d -> follows (gcall B) jsim jsim (fun j => do_deed j d) (fun a j => do_deed_r a j d) j /\ (forall j1, do_deed j d = Ok j1 -> tpos B j1).
  Proof using HN HM.
    intros HS HC HP Hd. destruct d as [o c|o cpts]; destruct Hd as [Ho Hd]; cbn [do_deed do_deed_r].
    - exact (call_trails B N (ns_dom _ HN) o c j Ho Hd HP).
    - pose proof (jnet_ready _ _ _ (st_net _ _ _ _ (sw_st _ _ _ _ _ HS)) HC) as R. destruct (serde_follows B (replaced N cpts) nm o (update_bbn_cpts j cpts) (replaced_shape _ _ HN Hd)) as [F1 F2]; auto.
      { destruct HM. constructor; auto. } { apply (update_ready _ _ _ _ R Hd). } { apply (tp_fuel _ _ HP). } { apply (tp_pots _ _ HP). }
      split; [|exact F2]. intros j1 E k. eapply near_1; [exact (F1 j1 E k)|]. intros r a Hr N1 j' [S1 S2]. unfold reapply_r. destruct (N1 (update_bbn_cpts j' cpts)) as [j1' [A1 A2]]. { set (ps := jt_pots j') in *. rewrite S1. split; auto. }
      exists j1'. split; auto. eapply jsim_climbs; [exact Hr| |exact A2]. unfold gcall. lia.
  Qed.
End Deeds.

Lemma foldM_pots o l : forall j j1, foldM (jt_add_edge o) l j = Ok j1 -> jt_pots j1 = jt_pots j.
Proof.
  induction l as [|s l IH]; intros j j1 E; cbn [foldM] in E. { inversion E; auto. } destruct (jt_add_edge o j s) as [j2|] eqn:E2; cbn [rbind] in E; [|discriminate]. rewrite (IH _ _ E). clear - E2.
  unfold jt_add_edge in E2. destruct (jt_shouldadd o j s) as [[|]|]; cbn [rbind] in E2; inversion E2; subst; auto. cbn [jt_pots]. unfold jt_add_node. repeat (match goal with |- context [dmem ?d ?k] => destruct (dmem d k) end; cbn); auto.
Qed.
Lemma from_dict_pots o d j : jt_from_dict o d = Ok j -> jt_pots j = [].
Proof.
  unfold jt_from_dict. cbv zeta.
  match goal with |- rbind ?m _ = _ -> _ => destruct m as [cl|] end; cbn [rbind]; [|discriminate]. match goal with |- rbind ?m _ = _ -> _ => destruct m as [ss|] end; cbn [rbind]; [|discriminate].
  match goal with |- rbind ?m _ = _ -> _ => destruct m as [es|] end; cbn [rbind]; [|discriminate]. match goal with |- rbind ?m _ = _ -> _ => destruct m as [j0|] eqn:E0 end; cbn [rbind]; [|discriminate].
  match goal with |- rbind ?m _ = _ -> _ => destruct m as [pi|] end; cbn [rbind]; [|discriminate]. intros E; inversion E; subst. cbn [set_jpinfo jt_pots].
  destruct es as [|e es]. { inversion E0; subst. reflexivity. } rewrite (foldM_pots _ _ _ _ E0). reflexivity.
Qed.
(** a restored tree does not depend on the potentials of the one saved *)
Lemma reload_follows B N nm b j o o' (w : bool) d j1 : nshape N -> room B N -> ord_ok o' -> (walk_fuel j1 <= B)%nat -> jt_to_dict o j b = Ok d -> jt_from_dict o' (if w then json_jt d else d) = Ok j1 -> ready N nm j1 ->
  follows (gcall B) jsim jsim (reload o o' w b) (fun a => reload_r a o o' w b) j /\ (forall j2, reload o o' w b j = Ok j2 -> tpos B j2).
Proof.
  intros HN HM Ho HF E1 E2 R. destruct (serde_follows B N nm o' j1 HN HM Ho R HF) as [F1 F2]. { rewrite (from_dict_pots _ _ _ E2). constructor; [discriminate|intros x []|constructor]. } unfold reload. rewrite E1. cbn [rbind]. rewrite E2. cbn [rbind]. split; auto.
  intros j2 E k. rewrite E1 in E. cbn [rbind] in E. rewrite E2 in E. cbn [rbind] in E. eapply near_1; [exact (F1 j2 E 0%nat)|]. intros r a Hr N1 j' [S1 S2]. unfold reload_r.
  assert (Q : jt_to_dict o j' b = Ok d) by (rewrite S1; exact E1). rewrite Q. cbn [rbind]. rewrite E2. cbn [rbind]. destruct (N1 j1) as [j2' [A1 A2]]. { split. { destruct j1; auto. } rewrite (from_dict_pots _ _ _ E2). constructor. }
  exists j2'. split; auto. eapply jsim_climbs; [exact Hr| |exact A2]. unfold gcall. lia.
Qed.
Lemma restored_fuel N nm j o j1 pi : restored N nm j o j1 -> (walk_fuel (set_jpinfo j1 pi) <= walk_fuel j)%nat.
Proof.
  intros [G1 [G2 [G3 _]]]. unfold walk_fuel. rewrite !nodes_len. change (jt_cliques (set_jpinfo j1 pi)) with (jt_cliques j1). change (jt_sepsets (set_jpinfo j1 pi)) with (jt_sepsets j1).
  rewrite (Permutation_length G2), G3, !map_length. assert (List.length (kept j) <= List.length (jt_cliques j))%nat; [|lia]. unfold kept. destruct (jt_sepsets j); auto. apply filter_le.
Qed.
Lemma room_after B s d : room B (fst s) -> room B (fst (after s d)).
Proof. intros [H1 H2 H3]. destruct d; constructor; auto. Qed.
Lemma less_size dm (f : Z -> bool) l : (forall i, In i l -> dm i <> []) -> (size dm (filter f l) <= size dm l)%nat.
Proof.
  induction l as [|x l IH]; intros H; simpl; auto. assert (Hx : dm x <> []) by (apply H; left; auto). specialize (IH (fun i Hi => H i (or_intror Hi))). destruct (f x); simpl; [apply Nat.mul_le_mono_l; auto|]. destruct (dm x); [congruence|]. simpl. lia.
Qed.
Lemma room_less B N (f : Z -> bool) p c : nshape N -> room B N -> room B (mkNet (filter f (vars N)) (dom N) p c).
Proof.
  intros HN [H1 H2 H3]. constructor; auto; cbn [vars dom].
  - eapply Nat.le_trans; [apply less_size|exact H2]. intros i Hi. apply (ns_dom _ HN i Hi).
  - eapply Nat.le_trans; [apply filter_le|exact H3].
Qed.

Section Parts.
  Context (B : nat) (nm : Z -> string) (b : bbn) (Hbk : NoDup (dkeys (b_parents b))).
  Lemma went_follows s l s' : went s l s' -> forall j, travel nm b s j -> room B (fst s) -> tpos B j -> follows (gcall B) jsim jsim (foldM (do_act b) l) (fun a => foldM (do_act_r a b) l) j /\ (forall j1, foldM (do_act b) l j = Ok j1 -> tpos B j1).
  Proof using Hbk.
    induction 1 as [s|s d l s' Hd W IH|s o o' w N' l s' Ho Ho' HL W IH]; intros j T HM HP.
    - cbn [foldM]. split; [apply follows_id; [apply jsim_climbs|apply gcall_rises]|]. intros j1 E; inversion E; subst; auto.
    - destruct (travel_deed nm b s j d T Hd) as [j1 [E1 T1]]. destruct (deed_follows B (fst s) nm (tr_shape _ _ _ _ T) HM _ _ j d (tr_shows _ _ _ _ T) (tr_carries _ _ _ _ T) HP Hd) as [F1 F2].
      assert (M1 : room B (fst (after s d))) by (apply room_after; auto). destruct (IH j1 T1 M1 (F2 j1 E1)) as [I1 I2]. split.
      { cbn [foldM]. apply (follows_twice B); apply (follows_bind (gcall B) (gcall B) jsim jsim jsim (fun j => do_act b j (Do d)) (fun a j => do_act_r a b j (Do d))); [exact F1|]. intros j2 E2. cbn [do_act] in E2. rewrite E1 in E2. inversion E2; subst j2. exact I1. }
      intros j2 E2. cbn [foldM do_act] in E2. rewrite E1 in E2. cbn [rbind] in E2. auto.
    - destruct (travel_reload nm b Hbk s j o o' w N' T Ho Ho' HL) as [j1 [E1 T1]]. destruct HL as [f [Hf ->]].
      assert (G : follows (gcall B) jsim jsim (reload o o' w b) (fun a => reload_r a o o' w b) j /\ (forall j2, reload o o' w b j = Ok j2 -> tpos B j2)).
      { destruct T as [S1 S2 S3 S4 S5 S6 S7 S8 S9]. pose proof (jnet_ready _ _ _ (st_net _ _ _ _ (sw_st _ _ _ _ _ S4)) S5) as R.
        destruct (reload_steps (fst s) nm j R S6 b Hbk o o' Ho Ho' w) as [d [jr [D1 [D2 Q]]]].
        destruct (back_ready (fst s) nm S1 j R S6 S7 S9 b S3 o Ho f Hf jr Q) as [R1 _].
        pose proof (less_nshape (fst s) S1 j (rd_JG _ _ _ R) (rd_ids _ _ _ R) S7 S9 (rd_fam _ _ _ R) f Hf) as HN'. eapply reload_follows; eauto using room_less. eapply Nat.le_trans; [eapply restored_fuel; eauto|apply (tp_fuel _ _ HP)]. }
      destruct G as [F1 F2]. destruct (IH j1 T1 (room_less B (fst s) f _ _ (tr_shape _ _ _ _ T) HM) (F2 j1 E1)) as [I1 I2]. split.
      { cbn [foldM]. apply (follows_twice B); apply (follows_bind (gcall B) (gcall B) jsim jsim jsim (fun j => do_act b j (Reload o o' w)) (fun a j => do_act_r a b j (Reload o o' w))); [exact F1|]. intros j2 E2. cbn [do_act] in E2. rewrite E1 in E2. inversion E2; subst j2. exact I1. }
      intros j2 E2. cbn [foldM do_act] in E2. rewrite E1 in E2. cbn [rbind] in E2. auto.
  Qed.
End Parts.
Section Whole.
  Context (B : nat) (ops : list bop) (HW : well_shaped ops) (b : bbn) (Hb : b_parents b = b_parents (build ops)).
  Lemma acts_follow l : forall s j, travels ops s j -> acts_ok s l -> room B (fst s) -> tpos B j -> follows (gcall B) jsim jsim (foldM (do_act b) l) (fun a => foldM (do_act_r a b) l) j /\ (forall j1, foldM (do_act b) l j = Ok j1 -> tpos B j1).
  Proof using HW Hb.
    induction l as [|c l IH]; intros s j T Hl HM HP. { cbn [foldM]. split; [apply follows_id; [apply jsim_climbs|apply gcall_rises]|]. intros j1 E; inversion E; subst; auto. }
    destruct Hl as [H1 H2]. destruct (act_after ops HW b Hb s j c T H1) as [j1 [E1 T1]].
    assert (G : follows (gcall B) jsim jsim (fun j => do_act b j c) (fun a j => do_act_r a b j c) j /\ (forall j2, do_act b j c = Ok j2 -> tpos B j2)).
    { destruct T as [[S1 S2 S3 S4 S5] T2 T3]. destruct c as [d|o o' w]; cbn [do_act do_act_r]. { eapply deed_follows; eauto. }
      destruct H1 as [Ho Ho']. pose proof (st_net _ _ _ _ (sw_st _ _ _ _ _ S4)) as HJ. pose proof (jnet_ready _ _ _ HJ S5) as R.
      assert (Hbk : NoDup (dkeys (b_parents b))) by (rewrite Hb; apply parents_keys).
      destruct (reload_steps (fst s) (net_name ops) j R T2 b Hbk o o' Ho Ho' w) as [d [jr [D1 [D2 Q]]]].
      assert (R1 : ready (fst s) (net_name ops) (set_jpinfo jr (b_parents b))).
      { apply (restored_ready (fst s) (net_name ops) j R T2 b) with (o := o); auto.
        - intros i _. rewrite Hb, S3. apply (bi_par _ _ (build_inv ops)).
        - apply (jconn_covered _ (jn_JG _ _ _ HJ) T3). }
      eapply reload_follows; eauto. eapply Nat.le_trans; [eapply restored_fuel; eauto|apply (tp_fuel _ _ HP)]. }
    destruct G as [F1 F2]. assert (M1 : room B (fst (after_act s c))) by (destruct c; [apply room_after; auto|exact HM]). destruct (IH _ j1 T1 H2 M1 (F2 j1 E1)) as [I1 I2]. split.
    { cbn [foldM]. apply (follows_twice B); apply (follows_bind (gcall B) (gcall B) jsim jsim jsim (fun j => do_act b j c) (fun a j => do_act_r a b j c)); [exact F1|]. intros j2 E2. rewrite E1 in E2. inversion E2; subst j2. exact I1. }
    intros j2 E2. cbn [foldM] in E2. rewrite E1 in E2. cbn [rbind] in E2. auto.
  Qed.
End Whole.

Lemma apply_follows ops o b j : well_shaped ops -> ord_ok o -> apply o (build ops) = Ok (b, j) -> tpos (room_of ops) j /\
  near (fun r a => exists b' j', apply_r a o (build ops) = Ok (b', j') /\ b' = b /\ jsim r (ginfer (room_of ops)) j j').
Proof.
  intros HW Ho E. rewrite apply_compile in E. destruct (compile o (build ops)) as [jc|] eqn:Ec; cbn [rbind] in E; [|discriminate].
  pose proof (compile_tpos ops o jc HW Ho Ec) as Hc. destruct (infer_follows _ o jc Ho Hc) as [F1 F2]. destruct (infer o jc) as [ji|] eqn:Ei; cbn [rbind] in E; [|discriminate]. inversion E; subst b j.
  split. { apply tpos_listens; auto. }
  eapply near_1; [exact (F1 ji Ei 0%nat)|]. intros r a _ N1. rewrite apply_compile_r, Ec. cbn [rbind].
  destruct (N1 jc (compile_self ops o jc r HW Ho Ec)) as [ji' [A1 A2]]. rewrite A1. cbn [rbind]. eexists. eexists. split; [reflexivity|]. split. { destruct (jsim_fields _ _ _ _ A2) as [_ [_ [-> _]]]. auto. } apply jsim_listens; auto.
Qed.
Lemma journey_follows ops o l b j0 j t : well_shaped ops -> ord_ok o -> apply o (build ops) = Ok (b, j0) ->
  (tpos (room_of ops) j0 -> follows (gcall (room_of ops)) jsim jsim (foldM (do_act b) l) (fun a => foldM (do_act_r a b) l) j0 /\ (forall j1, foldM (do_act b) l j0 = Ok j1 -> tpos (room_of ops) j1)) ->
  journey o ops l = Ok j -> get_posteriors j = Ok t -> near (fun r a => exists j' t', journey_r a o ops l = Ok j' /\ get_posteriors_r a j' = Ok t' /\ table_within r (spread_of ops) t t').
Proof.
  intros HW Ho E HF E1 E2. destruct (apply_follows ops o b j0 HW Ho E) as [HP K0]. unfold journey in E1. rewrite E in E1. cbn [rbind fst snd] in E1. destruct (HF HP) as [F1 F2]. pose proof (F2 j E1) as HP1.
  eapply near_3; [exact K0|exact (F1 j E1 (ginfer (room_of ops)))|exact (posteriors_follow _ j t HP1 E2 (drift ops))|]. intros r a _ [b' [j0' [A1 [-> A2]]]] N1 N2. destruct (N1 j0' A2) as [j' [B1 B2]]. destruct (N2 j' B2) as [t' [C1 C2]]. exists j', t'. split; auto. unfold journey_r. rewrite A1. cbn [rbind fst snd]. exact B1.
Qed.

(** any network *)
Theorem went_near ops o l s : well_shaped ops -> ord_ok o -> went (start ops) l s -> exists j t, journey o ops l = Ok j /\ get_posteriors j = Ok t /\ described (fst s) (net_name ops) (snd (snd s)) (jt_cliques j) t /\
  near (fun r a => exists j' t', journey_r a o ops l = Ok j' /\ get_posteriors_r a j' = Ok t' /\ table_within r (spread_of ops) t t').
Proof.
  intros HW Ho W. destruct (c19_any ops o l s HW Ho W) as [j [t [E1 [E2 E3]]]]. exists j, t. split; auto. split; auto. split; auto. destruct (apply_travel ops o HW Ho) as [b [j0 [A1 [A2 A3]]]].
  apply (journey_follows ops o l b j0 j t); auto. intros HP. eapply went_follows; eauto. apply room_of_ok.
Qed.
(** connected networks *)
Theorem acts_near ops o l : well_shaped ops -> connected ops -> ord_ok o -> acts_ok (start ops) l -> let s := fold_left after_act l (start ops) in
  near (fun r a => exists j t, journey_r a o ops l = Ok j /\ get_posteriors_r a j = Ok t /\
    Permutation (map fst t) (map (net_name ops) (vars (fst s))) /\ forall i, In i (vars (fst s)) -> exists row, dget t (net_name ops i) = Some row /\ row_within r (spread_of ops) (fst s) (snd (snd s)) i row).
Proof.
  intros HW Hc Ho Hl s. destruct (c19 ops o l HW Hc Ho Hl) as [j [t [E1 [E2 [T1 T2]]]]]. fold s in T1, T2. destruct (apply_situated ops o HW Ho) as [b [j0 [A1 [A2 A3]]]]. destruct (apply_saves ops o b j0 HW Ho A1) as [B1 [B2 _]].
  pose proof (journey_follows ops o l b j0 j t HW Ho A1) as K. eapply near_1. { apply K; auto. intros HP. apply (acts_follow _ ops HW b B1 l (start ops)); auto. { constructor; auto. } apply room_of_ok. }
  clear K. intros r a _ [j' [t' [C1 [C2 C3]]]]. exists j', t'. split; auto. split; auto.
  rewrite (table_fst _ _ _ _ C3). split; auto. intros i Hi. destruct (table_get _ _ _ _ _ _ C3 (T2 i Hi)) as [row [R1 R2]]. exists row. split; auto.
  unfold msim in R2. apply F2_map_l in R2. eapply F2_impl; [|exact R2]. intros y q [Q1 Q2]. cbn [fst snd] in Q1, Q2. split; auto.
Qed.

Theorem c90_follows ops : well_shaped ops -> exists k, forall o l s, ord_ok o -> went (start ops) l s -> exists j t, journey o ops l = Ok j /\ get_posteriors j = Ok t /\ described (fst s) (net_name ops) (snd (snd s)) (jt_cliques j) t /\
  forall r a, accurate r a -> exists j' t', journey_r a o ops l = Ok j' /\ get_posteriors_r a j' = Ok t' /\ table_within r k t t'.
Proof.
  intros HW. exists (spread_of ops). intros o l s Ho W. destruct (went_near ops o l s HW Ho W) as [j [t [E1 [E2 [E3 K]]]]]. exists j, t. split; auto. split; auto. split; auto. intros r a Ha. exact (near_accurate _ r a K Ha).
Qed.
Theorem c90_range ops : well_shaped ops -> exists k, forall o l s, ord_ok o -> went (start ops) l s -> exists j t, journey o ops l = Ok j /\ get_posteriors j = Ok t /\
  exists e, forall p emin emax over, (1 <= p)%Z -> (emin <= - e)%Z -> (e <= emax)%Z ->
    exists j' t', journey_r (floats_in p emin emax over) o ops l = Ok j' /\ get_posteriors_r (floats_in p emin emax over) j' = Ok t' /\ table_within (ulp_factor p) k t t'.
Proof.
  intros HW. exists (spread_of ops). intros o l s Ho W. destruct (went_near ops o l s HW Ho W) as [j [t [E1 [E2 [_ K]]]]]. exists j, t. split; auto. split; auto. destruct (near_floats _ K) as [e E]. exists e. exact E.
Qed.
Theorem c90_posteriors ops : well_shaped ops -> connected ops -> exists k, forall o l, ord_ok o -> acts_ok (start ops) l -> let s := fold_left after_act l (start ops) in
  (forall r a, accurate r a -> exists j t, journey_r a o ops l = Ok j /\ get_posteriors_r a j = Ok t /\
      Permutation (map fst t) (map (net_name ops) (vars (fst s))) /\ forall i, In i (vars (fst s)) -> exists row, dget t (net_name ops i) = Some row /\ row_within r k (fst s) (snd (snd s)) i row) /\
    exists e, forall p emin emax over, (1 <= p)%Z -> (emin <= - e)%Z -> (e <= emax)%Z -> exists j t, journey_r (floats_in p emin emax over) o ops l = Ok j /\ get_posteriors_r (floats_in p emin emax over) j = Ok t /\
      Permutation (map fst t) (map (net_name ops) (vars (fst s))) /\ forall i, In i (vars (fst s)) -> exists row, dget t (net_name ops i) = Some row /\ row_within (ulp_factor p) k (fst s) (snd (snd s)) i row.
Proof.
  intros HW Hc. exists (spread_of ops). intros o l Ho Hl s. pose proof (acts_near ops o l HW Hc Ho Hl) as K. cbv zeta in K. fold s in K. split. { intros r a Ha. exact (near_accurate _ r a K Ha). } destruct (near_floats _ K) as [e E]. exists e. exact E.
Qed.
(** with enough digits: whatever the journey *)
Theorem c90_limit ops : well_shaped ops -> connected ops -> forall e, 0 < e -> exists p0, forall p, (p0 <= p)%Z -> forall o l, ord_ok o -> acts_ok (start ops) l -> let s := fold_left after_act l (start ops) in
  exists j t, journey_r (floats p) o ops l = Ok j /\ get_posteriors_r (floats p) j = Ok t /\
    forall i, In i (vars (fst s)) -> exists row, dget t (net_name ops i) = Some row /\
      Forall2 (fun y q => fst q = y /\ exact_posterior (fst s) (snd (snd s)) i y - e <= snd q /\ snd q <= exact_posterior (fst s) (snd (snd s)) i y + e) (dom (fst s) i) row.
Proof.
  intros HW Hc e He. set (k := spread_of ops). destruct (root_close k e He) as [r [R1 R2]]. destruct (ulp_small r R1) as [p0 [P1 P2]].
  exists p0. intros p Hp o l Ho Hl s. pose proof (acts_near ops o l HW Hc Ho Hl) as K. cbv zeta in K. fold s k in K. assert (Ha : accurate r (floats p)). { eapply accurate_mono; [apply P2; exact Hp|apply c80_floats; lia]. }
  destruct (near_accurate _ _ _ K Ha) as [j [t [A1 [A2 [_ A3]]]]]. exists j, t. split; auto. split; auto. intros i Hi. destruct (A3 i Hi) as [row [B1 B2]]. exists row. split; auto.
  destruct (apply_situated ops o HW Ho) as [b [j0 [Q1 [Q2 Q3]]]]. destruct (apply_saves ops o b j0 HW Ho Q1) as [Q4 [Q5 _]]. destruct (acts_after ops HW b Q4 l (start ops) j0) as [je [_ T]]; auto. { constructor; auto. } fold s in T.
  destruct (tv_s _ _ _ T) as [S1 _ _ S4 _]. assert (HL : forall i v, In i (vars (fst s)) -> In v (dom (fst s) i) -> 0 <= snd (snd s) i v). { intros i' v Hi' Hv. apply (sw_unit _ _ _ _ _ S4 i' v); auto. }
  set (N := fst s) in *. set (L := snd (snd s)) in *. clearbody N L. clear - R1 R2 B2 S1 HL Hi He.
  unfold row_within in B2. assert (G : forall l, incl l (dom N i) -> forall row, Forall2 (fun y q => fst q = y /\ within r k (exact_posterior N L i y) (snd q)) l row ->
    Forall2 (fun y q => fst q = y /\ exact_posterior N L i y - e <= snd q /\ snd q <= exact_posterior N L i y + e) l row).
  { intros l Hl row0 F. induction F as [|y q l row0 [F1 F2] F IH]; constructor.
    - split; auto. eapply within_close; eauto. apply (posterior_le1 N L S1 HL); auto. apply Hl. left; auto.
    - apply IH. intros z Hz. apply Hl. right; auto. }
  apply G; auto. apply incl_refl.
Qed.
Lemma c90_identity : forall o ops l, journey_r exactly o ops l = journey o ops l. Proof. reflexivity. Qed.
