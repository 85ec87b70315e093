(** Histories of evidence calls on a join tree. *)
From Verif Require Import Py M_Graph M_Node M_Pptc Spec SpecNet SpecEv L_Base L_Sums L_Table L_Init L_Good L_Post L_Exact L_Apply L_Net L_Evid.

Open Scope Qc_scope.

(** likelihoods between 0 and 1 *)
Definition unitL (N : net) (L : likelihood) : Prop := forall i v, In i (vars N) -> In v (dom N i) -> 0 <= L i v /\ L i v <= 1.
(** likelihoods that are 0 or 1 *)
Definition bitL (N : net) (L : likelihood) : Prop := forall i v, In i (vars N) -> In v (dom N i) -> L i v = 0 \/ L i v = 1.

Lemma le01 : 0 <= 1. Proof. unfold Qcle, Qle, Z.le; simpl; discriminate. Qed.
Lemma unit_none N : unitL N no_evidence. Proof. intros i v _ _. unfold no_evidence. split; [apply le01|apply Qcle_refl]. Qed.
Lemma unit_assim N L e : unitL N L -> unitL N (assimilate L e).
Proof. intros H i v Hi Hv. unfold assimilate. destruct (Z.eqb i (ev_node e)); auto. apply like_range. Qed.
Lemma unit_assims N es : forall L, unitL N L -> unitL N (fold_left assimilate es L).
Proof. induction es as [|e es IH]; intros L H; simpl; auto. apply IH, unit_assim; auto. Qed.
Lemma unit_withdraw N L l : unitL N L -> unitL N (withdraw L l).
Proof. intros H i v Hi Hv. unfold withdraw. destruct (mem i l); auto. split; [apply le01|apply Qcle_refl]. Qed.
Lemma unit_effect N L c : unitL N L -> unitL N (effect N L c).
Proof.
  intros H. destruct c; simpl; auto using unit_assims, unit_withdraw, unit_none. destruct (toggles N L e); auto using unit_assim, unit_withdraw.
Qed.
Lemma bit_none N : bitL N no_evidence. Proof. intros i v _ _. right; auto. Qed.
Lemma bit_assim N L e : hard e -> bitL N L -> bitL N (assimilate L e).
Proof. intros He H i v Hi Hv. unfold assimilate. destruct (Z.eqb i (ev_node e)); auto. apply like_hard; auto. Qed.
Lemma bit_assims N es : forall L, Forall hard es -> bitL N L -> bitL N (fold_left assimilate es L).
Proof. induction es as [|e es IH]; intros L F H; simpl; auto. inv F. apply IH; auto. apply bit_assim; auto. Qed.
Lemma bit_withdraw N L l : bitL N L -> bitL N (withdraw L l).
Proof. intros H i v Hi Hv. unfold withdraw. destruct (mem i l); auto. Qed.
Lemma bit_effect N L c : hard_call c -> bitL N L -> bitL N (effect N L c).
Proof.
  intros Hc H. destruct c; simpl in *; auto using bit_assims, bit_withdraw, bit_none. destruct (toggles N L e); auto using bit_assim, bit_withdraw.
Qed.
Lemma bit_noticed N L e : bitL N L -> hard e -> In (ev_node e) (vars N) -> ~ overlooked N L e.
Proof.
  intros H He Hi [y [[A1 [A2 A3]] [[B1 [B2 B3]] [v [Hv Hn]]]]]. apply Hn.
  destruct (H (ev_node e) v Hi Hv) as [E1|E1]; destruct (like_hard e v He) as [E2|E2]; rewrite E1, E2; auto; exfalso.
  - assert (v = y) by auto. subst. rewrite A2 in E1. discriminate.
  - assert (v = y) by auto. subst. rewrite B2 in E2. discriminate.
Qed.

Section Hist.
  Context (N : net) (nm : Z -> string) (HV : NoDup (vars N)) (Hnm : NoDup (map nm (vars N))).
  Context (HD : forall i, In i (vars N) -> NoDup (dom N i) /\ dom N i <> []).

  Definition valid (e e' : evidence) : Prop := ev_node e' = ev_node e /\ holds (dom N (ev_node e)) (like_of e) (ev_values e').

  Lemma validate_all es : Forall (known N) es -> exists es', mapM validate es = Ok es' /\ Forall2 valid es es'.
  Proof using HD.
    induction 1 as [|e es He Hes [es' [IH1 IH2]]]. exists []; auto. destruct (validate_known N e HD He) as [m [E1 [E2 [E3 E4]]]].
    eexists. simpl. rewrite E1. cbn [rbind]. rewrite IH1. split; [reflexivity|]. constructor; auto. split; auto. split; auto.
  Qed.

  (** tree with stored likelihoods [L] *)
  Record stored (L : likelihood) (j : jtree) : Prop := {
    st_net : jnet N nm j; st_ev : efull j (dom N) L; st_lis : jt_listener j = true; st_unit : unitL N L }.

  Lemma stored_get L j i : stored L j -> In i (vars N) -> dget (jt_evid j) i = Some (evmap i (dom N i) L).
  Proof. clear. intros H Hi. apply (st_ev _ _ H). apply (jn_ids _ _ _ (st_net _ _ H)); auto. Qed.

  Lemma change_ok L j es es' : stored L j -> Forall (known N) es -> Forall2 valid es es' ->
    exists c, get_change_type j es' = Ok c /\ (c = CRetraction \/ c = CNone) /\
     (c = CNone -> forall e, In e es -> (forall v, In v (dom N (ev_node e)) -> L (ev_node e) v = like_of e v) \/
        exists y, ones (L (ev_node e)) (dom N (ev_node e)) = [y] /\ ones (like_of e) (dom N (ev_node e)) = [y]).
  Proof using HD.
    clear Hnm HV. intros HS HK HF. unfold get_change_type.
    assert (H : exists cs, mapM (fun e => pot <- dgetE (jt_evid j) (ev_node e) ;; compare_ev e pot) es' = Ok cs /\
       (forall c, In c cs -> c = CRetraction \/ c = CNone) /\
       ((forall c, In c cs -> c = CNone) -> forall e, In e es -> (forall v, In v (dom N (ev_node e)) -> L (ev_node e) v = like_of e v) \/
          exists y, ones (L (ev_node e)) (dom N (ev_node e)) = [y] /\ ones (like_of e) (dom N (ev_node e)) = [y])).
    { revert HK. induction HF as [|e e' es es' [V1 V2] F IH]; intros HK. { exists []. split; auto. split; [intros c []|intros _ e []]. }
      inversion HK as [|? ? K1 K2]; subst. destruct (IH K2) as [cs [C1 [C2 C3]]]. destruct K1 as [Ki _]. destruct (HD _ Ki) as [D1 _].
      destruct (compare_ok e' (ev_node e) (dom N (ev_node e)) L (like_of e)) as [c [E1 [E2 E3]]]; auto.
      { intros v Hv. apply (st_unit _ _ HS); auto. } { intros v Hv. apply like_range. }
      exists (c :: cs). cbn [mapM]. unfold dgetE. rewrite V1, (stored_get L j) by auto. cbn [rbind]. rewrite E1. cbn [rbind]. unfold dgetE in C1. rewrite C1. cbn [rbind]. split; auto. split.
      - intros c' [<-|Hc]; auto.
      - intros Hall e0 [<-|He0]. apply E3, Hall; left; auto. apply C3; auto. intros c' Hc; apply Hall; right; auto. }
    destruct H as [cs [C1 [C2 C3]]]. rewrite C1. cbn [rbind].
    destruct (existsb (fun c => match c with CRetraction => true | _ => false end) cs) eqn:E1.
    - exists CRetraction. split; auto. split; auto. discriminate.
    - assert (Hall : forall c, In c cs -> c = CNone). { intros c Hc. destruct (C2 c Hc); auto. subst. exfalso. assert (existsb (fun c => match c with CRetraction => true | _ => false end) cs = true) by (apply existsb_exists; exists CRetraction; auto). congruence. }
      destruct (existsb (fun c => match c with CUpdate => true | _ => false end) cs) eqn:E2.
      + exfalso. apply existsb_exists in E2. destruct E2 as [c [Hc Ec]]. rewrite (Hall c Hc) in Ec. discriminate.
      + exists CNone. split; auto.
  Qed.

  Lemma stored_ext L j ev' : stored L j -> forall L', unitL N L' -> (forall i, In i (vars N) -> dget ev' i = Some (evmap i (dom N i) L')) -> stored L' (set_jevid j ev').
  Proof.
    clear. intros HS L' HU H. constructor; auto.
    - eapply jnet_ext; [| | |apply (st_net _ _ HS)]; auto.
    - intros i Hi. simpl. apply H. apply (jn_ids _ _ _ (st_net _ _ HS)); auto.
    - apply (st_lis _ _ HS).
  Qed.

  Lemma store_one L j e e' : stored L j -> known N e -> valid e e' ->
    store_values (evmap (ev_node e) (dom N (ev_node e)) L) (ev_values e') = (evmap (ev_node e) (dom N (ev_node e)) (assimilate L e), None) /\
    stored (assimilate L e) (set_jevid j (dset (jt_evid j) (ev_node e) (evmap (ev_node e) (dom N (ev_node e)) (assimilate L e)))).
  Proof using HD.
    clear Hnm HV. intros HS HK [V1 [V2 [V3 V4]]]. destruct HK as [Ki _]. destruct (HD _ Ki) as [D1 _]. split.
    - rewrite store_values_ok; auto. f_equal. apply evmap_ext. intros v Hv. rewrite V4 by auto. unfold assimilate. destruct (Z.eqb (ev_node e) (ev_node e)); auto. intros v. apply V3.
    - apply (stored_ext L); auto. apply unit_assim. apply (st_unit _ _ HS). intros i Hi. rewrite dget_dset. destruct (eqb_spec i (ev_node e)) as [->|Hn]; auto.
      rewrite (stored_get L j) by auto. f_equal. apply evmap_ext. intros v _. unfold assimilate. destruct (Z.eqb_spec i (ev_node e)); [congruence|auto].
  Qed.

  Lemma store_all es es' : Forall2 valid es es' -> forall L j, stored L j -> Forall (known N) es ->
    exists j', store_evidences j es' = (j', None) /\ stored (fold_left assimilate es L) j' /\ jt_nodes j' = jt_nodes j.
  Proof using HD.
    clear Hnm HV. induction 1 as [|e e' es es' V F IH]; intros L j HS HK. { exists j. simpl. auto. }
    inversion HK as [|? ? K1 K2]; subst. destruct (store_one L j e e' HS K1 V) as [S1 S2]. simpl. destruct V as [V1 V2]. rewrite V1.
    rewrite (stored_get L j) by (auto; apply K1). rewrite S1. destruct (IH _ _ S2 K2) as [j' [J1 [J2 J3]]]. exists j'. split; auto.
  Qed.

  (** storing what is stored already changes nothing *)
  Lemma store_noop es es' : Forall2 valid es es' -> forall L j, stored L j -> Forall (known N) es ->
    (forall e, In e es -> forall v, In v (dom N (ev_node e)) -> L (ev_node e) v = like_of e v) -> store_evidences j es' = (j, None).
  Proof using HD.
    clear Hnm HV. induction 1 as [|e e' es es' V F IH]; intros L j HS HK HA. { auto. }
    inversion HK as [|? ? K1 K2]; subst. destruct (store_one L j e e' HS K1 V) as [S1 S2]. simpl. destruct V as [V1 V2]. rewrite V1.
    rewrite (stored_get L j) by (auto; apply K1). rewrite S1.
    assert (Em : evmap (ev_node e) (dom N (ev_node e)) (assimilate L e) = evmap (ev_node e) (dom N (ev_node e)) L).
    { apply evmap_ext. intros v Hv. unfold assimilate. rewrite Z.eqb_refl. symmetry. apply HA; auto. left; auto. }
    rewrite Em. rewrite dset_same by (apply (stored_get L j); auto; apply K1). replace (set_jevid j (jt_evid j)) with j by (destruct j; auto).
    apply (IH L); auto. intros e0 He0. apply HA; right; auto.
  Qed.

  Lemma live_stored L j : live N nm L j -> unitL N L -> stored L j.
  Proof. clear. intros H HU. constructor; auto. apply H. apply H. apply (lv_lis _ _ _ _ H). Qed.

  Lemma assims_agree es : forall L, (forall e, In e es -> forall v, In v (dom N (ev_node e)) -> L (ev_node e) v = like_of e v) -> agree N (fold_left assimilate es L) L.
  Proof.
    clear. intros L H. assert (G : forall L0, agree N L0 L -> agree N (fold_left assimilate es L0) L).
    { induction es as [|e es IH]; intros L0 A; simpl; auto. apply IH. intros; apply H; auto; right; auto.
      intros i v Hi Hv. unfold assimilate. destruct (Z.eqb_spec i (ev_node e)) as [->|]; auto. symmetry. apply H; auto. left; auto. }
    apply G, agree_refl.
  Qed.

  Lemma live_agree L L' j : live N nm L j -> agree N L' L -> live N nm L' j.
  Proof.
    clear. intros H A. constructor; try apply H.
    - intros i Hi. rewrite (lv_ev _ _ _ _ H i Hi). f_equal. apply evmap_ext. intros v Hv. symmetry. apply A; auto. apply (jn_ids _ _ _ (lv_net _ _ _ _ H)); auto.
    - intros i v Hi Hv. rewrite A by auto. apply (lv_pos _ _ _ _ H); auto.
    - destruct (lv_from _ _ _ _ H) as [o [L1 [j0 [j1 [x [t [ts [HA [H0 [O E]]]]]]]]]]. exists o, L1, j0, j1, x, t, ts. split; auto. eapply agree_trans; eauto. apply agree_sym; auto.
  Qed.

  (** the general statement: either the tree is recomputed from the stored likelihoods, or nothing is done *)
  Theorem update_general o L j es : ord_ok o -> stored L j -> Forall (known N) es ->
    exists j', update_evidences o j es = (j', None) /\ stored (fold_left assimilate es L) j' /\ jt_nodes j' = jt_nodes j /\
      (live N nm (fold_left assimilate es L) j' \/
       (jt_pots j' = jt_pots j /\ jt_heap j' = jt_heap j /\
        forall e, In e es -> (forall v, In v (dom N (ev_node e)) -> L (ev_node e) v = like_of e v) \/
          exists y, ones (L (ev_node e)) (dom N (ev_node e)) = [y] /\ ones (like_of e) (dom N (ev_node e)) = [y])).
  Proof using HV Hnm HD.
    intros Ho HS HK. destruct (validate_all es HK) as [es' [E1 E2]]. destruct (change_ok L j es es' HS HK E2) as [c [C1 [C2 C3]]].
    destruct (store_all es es' E2 L j HS HK) as [j' [J1 [J2 J3]]].
    unfold update_evidences. rewrite E1, C1, J1. unfold notify. rewrite (st_lis _ _ J2). destruct C2 as [->| ->].
    - destruct (infer_live N nm HV Hnm o j' (fold_left assimilate es L) Ho (st_net _ _ J2)) as [j2 [I1 [I2 I3]]].
      + apply efull_egood. apply J2.
      + intros i v Hi Hv. apply (st_unit _ _ J2); auto.
      + change (j0 <- initialize j' ;; propagate o j0) with (infer o j'). rewrite I1.
        assert (El : jt_listener j2 = true) by (rewrite (sm_l _ _ I3); apply J2). rewrite set_listener_id in I2 by auto.
        exists j2. split; auto. split; [apply live_stored; auto; apply J2|]. split; [rewrite (sm_n _ _ I3); auto|]. auto.
    - exists j'. split; auto. split; auto. split; auto. right. assert (Q : jt_pots j' = jt_pots j /\ jt_heap j' = jt_heap j).
      { clear - J1. revert j J1. induction es' as [|e es' IH]; intros j J1; simpl in J1. inversion J1; auto.
        destruct (dget (jt_evid j) (ev_node e)); [|inversion J1]. destruct (store_values l (ev_values e)) as [m' [x|]]; [inversion J1|]. apply IH in J1. auto. }
      destruct Q. auto.
  Qed.

  Theorem update_live o L j es : ord_ok o -> live N nm L j -> unitL N L -> Forall (known N) es -> (forall e, In e es -> ~ overlooked N L e) ->
    exists j', update_evidences o j es = (j', None) /\ live N nm (fold_left assimilate es L) j' /\ jt_nodes j' = jt_nodes j.
  Proof using HV Hnm HD.
    intros Ho HL HU HK Hov. pose proof (live_stored _ _ HL HU) as HS.
    destruct (update_general o L j es Ho HS HK) as [j' [J1 [J2 [J3 [J4|[J4 [J5 J6]]]]]]]. { exists j'; auto. }
    assert (HA : forall e, In e es -> forall v, In v (dom N (ev_node e)) -> L (ev_node e) v = like_of e v).
    { intros e He v Hv. destruct (J6 e He) as [A|[y [Y1 Y2]]]; [apply A; auto|]. destruct (Qc_eq_dec (L (ev_node e) v) (like_of e v)) as [|Hn]; auto.
      exfalso. apply (Hov e He). rewrite Forall_forall in HK. destruct (HK e He) as [Ki _]. destruct (HD _ Ki) as [D1 _].
      exists y. rewrite !only_one_ones by auto. split; auto. split; auto. exists v; auto. }
    destruct (validate_all es HK) as [es' [E1 E2]]. destruct (change_ok L j es es' HS HK E2) as [c [C1 [C2 C3]]].
    assert (J1' := J1). unfold update_evidences in J1'. rewrite E1, C1 in J1'. rewrite (store_noop es es' E2 L j HS HK HA) in J1'.
    destruct C2 as [->| ->].
    - unfold notify in J1'. rewrite (lv_lis _ _ _ _ HL) in J1'.
      destruct (infer_live N nm HV Hnm o j L Ho (lv_net _ _ _ _ HL)) as [j2 [I1 [I2 I3]]].
      + apply efull_egood. apply HL.
      + apply HL.
      + change (j0 <- initialize j ;; propagate o j0) with (infer o j) in J1'. rewrite I1 in J1'. inversion J1'; subst j2.
        assert (El : jt_listener j' = true) by (rewrite (sm_l _ _ I3); apply HL). rewrite set_listener_id in I2 by auto.
        exists j'. split; auto. split; auto. apply live_agree with L; auto. apply assims_agree; auto.
    - unfold notify in J1'. rewrite (lv_lis _ _ _ _ HL) in J1'. inversion J1'; subst j'. exists j. split; auto. split; auto.
      apply live_agree with L; auto. apply assims_agree; auto.
  Qed.

  (** withdrawing evidence *)
  Lemma unobs_fold (l : list string) : NoDup l -> fold_left (fun m v => dset m v 1) l [] = map (fun v => (v, 1)) l.
  Proof.
    clear. intros H. assert (G : forall m : list (string * Qc), NoDup (dkeys m ++ l) -> fold_left (fun m v => dset m v 1) l m = m ++ map (fun v => (v, 1)) l).
    { clear H. induction l as [|x l IH]; intros m H; simpl. rewrite app_nil_r; auto. rewrite dkeys_dset_notin.
      - rewrite IH. rewrite <- app_assoc. auto. unfold dkeys. rewrite map_app. simpl. rewrite <- app_assoc. auto.
      - apply NoDup_remove_2 in H. intros Hx. apply H. apply in_or_app; auto. }
    apply (G []). auto.
  Qed.
  Definition unobs (i : Z) (d : list string) : evidence := mkEv i d UNOBSERVE (fold_left (fun m v => dset m v 1) d []).
  Lemma unobs_known i : In i (vars N) -> known N (unobs i (dom N i)).
  Proof using HD.
    clear Hnm HV. intros Hi. destruct (HD i Hi) as [D1 D2]. unfold known, unobs. simpl. rewrite unobs_fold by auto. unfold dkeys. rewrite map_map. simpl. rewrite map_id.
    split; auto. split; auto. split; auto. apply incl_refl.
  Qed.
  Lemma unobs_noticed L i : In i (vars N) -> ~ overlooked N L (unobs i (dom N i)).
  Proof.
    clear. intros Hi [y [[A1 [A2 A3]] [[B1 [B2 B3]] [v [Hv Hn]]]]]. simpl in *. apply Hn. assert (E : v = y) by (apply B3; auto). subst. rewrite A2. auto.
  Qed.
  Lemma unobs_assims L ns : Forall (node_in N) ns -> agree N (fold_left assimilate (map unobserved_evidence ns) L) (withdraw L (map n_id ns)).
  Proof.
    clear. intros H. assert (G : forall L0 L1 l, agree N L0 (withdraw L1 l) -> agree N (fold_left assimilate (map unobserved_evidence ns) L0) (withdraw L1 (map n_id ns ++ l))).
    { clear H. intros L0 L1. revert L0. induction ns as [|n ns IH]; intros L0 l A; simpl; auto.
      specialize (IH (assimilate L0 (unobserved_evidence n)) (n_id n :: l)). intros i v Hi Hv. rewrite IH; auto.
      - unfold withdraw, mem. simpl. rewrite !existsb_app. simpl. destruct (Z.eqb i (n_id n)), (existsb (Z.eqb i) (map n_id ns)), (existsb (Z.eqb i) l); auto.
      - clear - A. intros i v Hi Hv. unfold assimilate, withdraw, mem. simpl. destruct (Z.eqb i (n_id n)); simpl; auto. apply A; auto. }
    specialize (G L L []). rewrite app_nil_r in G. apply G. intros i v _ _. auto.
  Qed.

  Lemma unobserve_live o L j ns : ord_ok o -> live N nm L j -> unitL N L -> Forall (node_in N) ns ->
    exists j', unobserve o j ns = (j', None) /\ live N nm (withdraw L (map n_id ns)) j' /\ jt_nodes j' = jt_nodes j.
  Proof using HV Hnm HD.
    intros Ho HL HU HF. unfold unobserve. rewrite Forall_forall in HF.
    destruct (update_live o L j (map unobserved_evidence ns) Ho HL HU) as [j' [J1 [J2 J3]]].
    - apply Forall_forall. intros e He. apply in_map_iff in He. destruct He as [n [<- Hn]]. destruct (HF n Hn) as [H1 H2]. unfold unobserved_evidence. rewrite H2. apply (unobs_known (n_id n) H1).
    - intros e He. apply in_map_iff in He. destruct He as [n [<- Hn]]. destruct (HF n Hn) as [H1 H2]. unfold unobserved_evidence. rewrite H2. apply (unobs_noticed L (n_id n) H1).
    - exists j'. split; auto. split; auto. eapply live_agree; eauto. apply agree_sym, unobs_assims. apply Forall_forall; auto.
  Qed.

  (** the node objects of a well-formed tree *)
  Lemma nodes_jnet j : jnet N nm j -> forall l, incl l (vars N) -> exists ns, mapM (dgetE (jt_heap j)) l = Ok ns /\ Forall (node_in N) ns /\ map n_id ns = l.
  Proof.
    clear. intros HJ. induction l as [|i l IH]; intros Hl. { exists []; auto. }
    destruct IH as [ns [I1 [I2 I3]]]. { intros x Hx; apply Hl; right; auto. }
    assert (Hi : In i (vars N)) by (apply Hl; left; auto). pose proof Hi as Hi'. apply (jn_ids _ _ _ HJ) in Hi'.
    destruct (hg_node _ _ _ _ (jn_hg _ _ _ HJ) i Hi') as [n [E1 [E2 [E3 _]]]]. exists (n :: ns). simpl. unfold dgetE at 1. rewrite E1. cbn [rbind]. rewrite I1. cbn [rbind].
    split; auto. split. constructor; auto. split; rewrite E2; auto. simpl. congruence.
  Qed.

  Theorem call_live o L j c : ord_ok o -> live N nm L j -> unitL N L -> valid_call N c -> noticed N L c ->
    exists j', do_call o j c = (j', None) /\ live N nm (effect N L c) j' /\ jt_nodes j' = jt_nodes j.
  Proof using HV Hnm HD.
    intros Ho HL HU Hv Hn. destruct c as [es|ns| |e]; simpl in *.
    - apply update_live; auto.
    - apply unobserve_live; auto.
    - unfold unobserve_all. destruct (nodes_jnet j (lv_net _ _ _ _ HL) (jt_bbn_ids j)) as [ns [E1 [E2 E3]]]. { intros i Hi. apply (jn_ids _ _ _ (lv_net _ _ _ _ HL)); auto. }
      rewrite E1. destruct (unobserve_live o L j ns Ho HL HU E2) as [j' [J1 [J2 J3]]]. exists j'. split; auto. split; auto. eapply live_agree; eauto.
      intros i v Hi _. unfold withdraw. rewrite E3. rewrite (proj2 (mem_In _ _)); auto. apply (jn_ids _ _ _ (lv_net _ _ _ _ HL)); auto.
    - destruct Hv as [Hk Ho1]. pose proof Hk as Hk'. destruct Hk' as [Ki [Kd _]]. destruct (HD _ Ki) as [D1 D2].
      assert (HS := live_stored L j HL HU). unfold set_observation. rewrite (stored_get L j) by auto. rewrite convert_evmap. cbv zeta.
      assert (Ep : map fst (filter (fun p : string * Qc => qeqb 1 (snd p)) (map (fun v => (v, L (ev_node e) v)) (dom N (ev_node e)))) = ones (L (ev_node e)) (dom N (ev_node e))).
      { unfold ones. clear. induction (dom N (ev_node e)) as [|x l IH]; simpl; auto. destruct (qeqb 1 (L (ev_node e) x)); simpl; congruence. }
      rewrite Ep.
      assert (Hup : toggles N L e = false -> exists j', update_evidences o j [e] = (j', None) /\ live N nm (assimilate L e) j' /\ jt_nodes j' = jt_nodes j).
      { intros Et. destruct (update_live o L j [e] Ho HL HU) as [j' [J1 [J2 J3]]]; auto. intros e0 [<-|[]]; auto. exists j'. auto. }
      assert (Hun : exists j', update_evidences o j [mkEv (ev_node e) (ev_dom e) UNOBSERVE (fold_left (fun m v => dset m v 1) (ev_dom e) [])] = (j', None) /\
         live N nm (withdraw L [ev_node e]) j' /\ jt_nodes j' = jt_nodes j).
      { rewrite Kd. destruct (update_live o L j [unobs (ev_node e) (dom N (ev_node e))] Ho HL HU) as [j' [J1 [J2 J3]]].
        - constructor; auto. apply unobs_known; auto.
        - intros e0 [<-|[]]. apply unobs_noticed; auto.
        - exists j'. split; auto. split; auto. eapply live_agree; eauto. intros i v _ _. simpl. unfold assimilate, withdraw, mem. simpl. rewrite orb_false_r. auto. }
      unfold toggles in *. fold (ones (L (ev_node e)) (dom N (ev_node e))) in *. unfold first_one in *.
      destruct (ones (L (ev_node e)) (dom N (ev_node e))) as [|y [|z l]]; try (apply Hup; reflexivity).
      destruct (filter (fun p : string * Qc => qeqb 1 (snd p)) (ev_values e)) as [|[k q] r]; [congruence|]. cbn [map fst].
      change (@eqb string EqB_string y k) with (String.eqb y k). destruct (String.eqb y k); auto.
  Qed.

  Theorem calls_live h : Forall (fun p => ord_ok (fst p)) h -> forall L j, live N nm L j -> unitL N L ->
    Forall (valid_call N) (map snd h) -> all_noticed N L (map snd h) ->
    exists j', do_calls j h = (j', None) /\ live N nm (fold_left (effect N) (map snd h) L) j' /\ jt_nodes j' = jt_nodes j.
  Proof using HV Hnm HD.
    induction 1 as [|[o c] h Ho Hh IH]; intros L j HL HU Hv Hn; simpl in *. { exists j; auto. }
    inversion Hv as [|? ? V1 V2]; subst. destruct Hn as [N1 N2]. destruct (call_live o L j c Ho HL HU V1 N1) as [j1 [J1 [J2 J3]]]. rewrite J1.
    destruct (IH _ j1 J2 (unit_effect N L c HU) V2 N2) as [j' [K1 [K2 K3]]]. exists j'. split; auto. split; auto. congruence.
  Qed.

  (** histories of hard evidence are always noticed *)
  Lemma hard_noticed h : forall L, bitL N L -> Forall (valid_call N) h -> Forall hard_call h -> all_noticed N L h.
  Proof.
    clear. induction h as [|c h IH]; intros L HB Hv Hh; simpl; auto. inversion Hv; inversion Hh; subst. split; [|apply IH; auto; apply bit_effect; auto].
    destruct c as [es|ns| |e]; simpl in *; auto.
    - intros e He. rewrite Forall_forall in *. apply bit_noticed; auto. destruct (H1 e He); auto.
    - intros _. destruct H1 as [[K _] _]. apply bit_noticed; auto.
  Qed.
End Hist.
