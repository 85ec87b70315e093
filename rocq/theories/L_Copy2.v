(** A deep copy of a join tree has no listener: calls on it succeed and change nothing that it reports. *)
From Verif Require Import Py M_Graph M_Node M_Pptc M_Copy2 Spec SpecNet SpecEv SpecRe L_Base L_Root L_Init L_Exact L_Apply L_Net L_Evid L_Hist L_Claims L_Shown L_P1 L_P2 L_Check Ex L_R1 L_R2.
Open Scope nat_scope.

Lemma store_deaf es : forall j, store_evidences (copy_tree j) es = (let (j', x) := store_evidences j es in (copy_tree j', x)).
Proof.
  induction es as [|e es IH]; intros j; simpl; auto. destruct (dget (jt_evid j) (ev_node e)) as [m|]; auto.
  destruct (store_values m (ev_values e)) as [m' [x|]]; auto. rewrite <- IH. reflexivity.
Qed.
Lemma change_deaf j es : get_change_type (copy_tree j) es = get_change_type j es. Proof. reflexivity. Qed.
Lemma posts_evid j ev : get_posteriors (copy_tree (set_jevid j ev)) = get_posteriors j. Proof. destruct j; reflexivity. Qed.

Section Deaf.
  Context (N : net) (nm : Z -> string) (HD : forall i, In i (vars N) -> NoDup (dom N i) /\ dom N i <> []).

  Lemma update_deaf o L j es : stored N nm L j -> Forall (known N) es ->
    exists ev, update_evidences o (copy_tree j) es = (copy_tree (set_jevid j ev), None) /\ stored N nm (fold_left assimilate es L) (set_jevid j ev).
  Proof using HD.
    intros HS HK. destruct (validate_all N HD es HK) as [es' [E1 E2]]. destruct (store_all N nm HD es es' E2 L j HS HK) as [j' [J1 [J2 J3]]].
    unfold update_evidences. rewrite E1, change_deaf, (change_exact N nm HD L j es es' HS HK E2), store_deaf, J1.
    destruct (store_only_evid _ _ _ J1) as [ev ->]. exists ev. split; auto.
  Qed.

  Lemma call_update o L j c : stored N nm L j -> valid_call N c ->
    exists es, do_call o (copy_tree j) c = update_evidences o (copy_tree j) es /\ Forall (known N) es /\ agree N (fold_left assimilate es L) (effect N L c).
  Proof using HD.
    intros HS Hv. assert (Hun : forall ns, Forall (node_in N) ns -> Forall (known N) (map unobserved_evidence ns)).
    { intros ns HF. rewrite Forall_forall in HF. apply Forall_forall. intros e He. apply in_map_iff in He. destruct He as [n [<- Hn]]. destruct (HF n Hn) as [H1 H2]. unfold unobserved_evidence. rewrite H2. apply (unobs_known N HD (n_id n) H1). }
    destruct c as [es|ns| |e]; cbn [do_call valid_call effect] in *.
    - exists es. split; auto. split; auto. apply agree_refl.
    - exists (map unobserved_evidence ns). split; auto. split; auto. apply agree_sym, agree_sym, unobs_assims; auto.
    - unfold unobserve_all. destruct (nodes_jnet N nm j (st_net _ _ _ _ HS) (jt_bbn_ids j)) as [ns [E1 [E2 E3]]]. { intros i Hi. apply (jn_ids _ _ _ (st_net _ _ _ _ HS)); auto. }
      change (jt_heap (copy_tree j)) with (jt_heap j). change (jt_bbn_ids (copy_tree j)) with (jt_bbn_ids j). rewrite E1.
      exists (map unobserved_evidence ns). split; auto. split; auto. eapply agree_trans; [apply unobs_assims; auto|].
      intros i v Hi _. unfold withdraw. rewrite E3. rewrite (proj2 (mem_In _ _)); auto. apply (jn_ids _ _ _ (st_net _ _ _ _ HS)); auto.
    - destruct Hv as [Hk Ho1]. pose proof Hk as [Ki [Kd _]].
      unfold set_observation. change (jt_evid (copy_tree j)) with (jt_evid j). rewrite (stored_get N nm L j) by auto. rewrite convert_evmap. cbv zeta.
      assert (Ep : map fst (filter (fun p : string * Qc => qeqb 1%Qc (snd p)) (map (fun v => (v, L (ev_node e) v)) (dom N (ev_node e)))) = ones (L (ev_node e)) (dom N (ev_node e))).
      { unfold ones. clear. induction (dom N (ev_node e)) as [|x l IH]; simpl; auto. destruct (qeqb 1%Qc (L (ev_node e) x)); simpl; congruence. }
      rewrite Ep.
      assert (Hup : toggles N L e = false -> exists es, update_evidences o (copy_tree j) [e] = update_evidences o (copy_tree j) es /\ Forall (known N) es /\
         agree N (fold_left assimilate es L) (if toggles N L e then withdraw L [ev_node e] else assimilate L e)).
      { intros Et. rewrite Et. exists [e]. split; auto. split; auto. apply agree_refl. }
      assert (Hdn : toggles N L e = true -> exists es, update_evidences o (copy_tree j) [mkEv (ev_node e) (ev_dom e) UNOBSERVE (fold_left (fun m v => dset m v 1%Qc) (ev_dom e) [])] = update_evidences o (copy_tree j) es /\ Forall (known N) es /\
         agree N (fold_left assimilate es L) (if toggles N L e then withdraw L [ev_node e] else assimilate L e)).
      { intros Et. rewrite Et, Kd. exists [unobs (ev_node e) (dom N (ev_node e))]. split; auto. split. { constructor; auto. apply unobs_known; auto. }
        intros i v _ _. simpl. unfold assimilate, withdraw, mem. simpl. rewrite orb_false_r. auto. }
      unfold toggles in Hup at 1. unfold toggles in Hdn at 1. fold (ones (L (ev_node e)) (dom N (ev_node e))) in *. unfold first_one in *.
      destruct (ones (L (ev_node e)) (dom N (ev_node e))) as [|y [|z l]]; try (apply Hup; reflexivity).
      destruct (filter (fun p : string * Qc => qeqb 1%Qc (snd p)) (ev_values e)) as [|[k q] r]; [congruence|]. cbn [map fst].
      change (@eqb string EqB_string y k) with (String.eqb y k). destruct (String.eqb y k); auto.
  Qed.
End Deaf.

Lemma stored_agree N nm L L' j : stored N nm L j -> agree N L' L -> stored N nm L' j.
Proof.
  intros [S1 S2 S3 S4] A. constructor; auto.
  - intros i Hi. rewrite (S2 i Hi). f_equal. apply evmap_ext. intros v Hv. symmetry. apply A; auto. apply (jn_ids _ _ _ S1); auto.
  - intros i v Hi Hv. rewrite A by auto. auto.
Qed.

Section Deaf2.
  Context (N : net) (nm : Z -> string) (HD : forall i, In i (vars N) -> NoDup (dom N i) /\ dom N i <> []).
  Lemma calls_deaf h : forall L j, stored N nm L j -> Forall (valid_call N) (map snd h) ->
    exists ev, do_calls (copy_tree j) h = (copy_tree (set_jevid j ev), None) /\ stored N nm (fold_left (effect N) (map snd h) L) (set_jevid j ev).
  Proof using HD.
    induction h as [|[o c] h IH]; intros L j HS Hv; simpl in *. { exists (jt_evid j). rewrite set_jevid_id. auto. }
    inversion Hv as [|? ? V1 V2]; subst. destruct (call_update N nm HD o L j c HS V1) as [es [E1 [E2 E3]]]. rewrite E1.
    destruct (update_deaf N nm HD o L j es HS E2) as [ev [U1 U2]]. rewrite U1.
    destruct (IH (effect N L c) (set_jevid j ev)) as [ev' [K1 K2]]; auto. { eapply stored_agree; [exact U2|apply agree_sym; auto]. }
    exists ev'. split; auto.
  Qed.
End Deaf2.

Lemma stored_read N nm L j i v : (forall i, In i (vars N) -> NoDup (dom N i) /\ dom N i <> []) -> stored N nm L j -> In i (vars N) -> In v (dom N i) -> stored_likelihood j i v = Some (L i v).
Proof. intros HD HS Hi Hv. unfold stored_likelihood. rewrite (stored_get N nm L j) by auto. rewrite dget_evmap; auto. apply HD; auto. Qed.

Lemma c77 ops o h h' : well_shaped ops -> ord_ok o -> valid_history (net_of ops) h -> valid_history (net_of ops) h' -> let N := net_of ops in
  exists j t j', session o ops h = Ok j /\ get_posteriors j = Ok t /\ get_posteriors (copy_tree j) = Ok t /\
    do_calls (copy_tree j) h' = (j', None) /\ get_posteriors j' = Ok t /\
    (forall i v, In i (vars N) -> In v (dom N i) -> stored_likelihood j' i v = Some (in_force N (calls h ++ calls h') i v)).
Proof.
  intros HW Ho Hh Hh' N. destruct (session_stored ops o h HW Ho Hh) as [j [A1 A2]].
  destruct (session_live ops o h HW Ho Hh) as [j2 [ev [B1 [B2 B3]]]]. rewrite A1 in B1. injection B1 as <-.
  destruct (live_names N _ (net_shape ops HW) (ws_names _ HW) _ _ B2) as [t [C1 _]].
  destruct (calls_deaf N (net_name ops) (ws_dom _ HW) h' (in_force N (calls h)) j A2 (proj2 Hh')) as [ev' [D1 D2]].
  exists j, t, (copy_tree (set_jevid j ev')). assert (Ct : get_posteriors j = Ok t) by (rewrite <- C1; reflexivity).
  split; auto. split; auto. split. { rewrite <- Ct. reflexivity. } split; auto. split. { rewrite posts_evid; auto. }
  intros i v Hi Hv. unfold in_force. rewrite fold_left_app. apply (stored_read N (net_name ops) _ (set_jevid j ev')); auto. apply (ws_dom _ HW).
Qed.

Lemma c77_reapply j o cpts : reapply o (copy_tree j) cpts = reapply o j cpts. Proof. reflexivity. Qed.

Lemma session_calls o ops h j ja : session o ops [] = Ok j -> session o ops h = Ok ja -> do_calls j h = (ja, None).
Proof.
  unfold session. destruct (apply o (build ops)) as [[b j1]|]; cbn [rbind snd do_calls]; intros H1 H2; [|discriminate]. injection H1 as <-.
  destruct (do_calls j1 h) as [j2 [x|]]; [discriminate|]. injection H2 as <-. reflexivity.
Qed.
Lemma c77_refuted : exists ops o h h' j ja jc t, well_shaped ops /\ connected ops /\ ord_ok o /\ valid_history (net_of ops) h /\ valid_history (net_of ops) h' /\
  session o ops h = Ok j /\ do_calls j h' = (ja, None) /\ get_posteriors ja = Ok t /\
  do_calls (copy_tree j) h' = (jc, None) /\ get_posteriors jc <> Ok t.
Proof.
  assert (V0 : valid_history (net_of diamond) []) by (split; constructor).
  destruct (c77 diamond ord_id [] hard_history diamond_ok ord_id_ok V0 hard_history_ok) as [j [t0 [jc [A1 [A2 [A3 [A4 [A5 _]]]]]]]].
  destruct (session_exact diamond ord_id [] diamond_ok diamond_connected ord_id_ok V0) as [j0 [t1 [B1 [B2 B3]]]]. rewrite A1 in B1. injection B1 as <-. rewrite A2 in B2. injection B2 as <-.
  destruct (session_exact diamond ord_id hard_history diamond_ok diamond_connected ord_id_ok hard_history_ok) as [ja [t [C1 [C2 C3]]]].
  assert (D : do_calls j hard_history = (ja, None)).
  { eapply session_calls; eauto. }
  exists diamond, ord_id, [], hard_history, j, ja, jc, t.
  split; [apply diamond_ok|]. split; [apply diamond_connected|]. split; [apply ord_id_ok|]. split; [exact V0|]. split; [apply hard_history_ok|].
  split; [exact A1|]. split; [exact D|]. split; [exact C2|]. split; [exact A4|].
  intros E. rewrite A5 in E. injection E as E. subst t0. revert C3. eapply (bothb_ok diamond _ _ 1%Z "on"%string); [vm_compute; reflexivity|vm_compute; reflexivity| |exact B3]. vm_compute. reflexivity.
Qed.
