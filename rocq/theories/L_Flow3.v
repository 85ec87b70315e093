(** Sweeps towards and away from any clique; C74. *)
From Verif Require Import Py M_Graph M_Node M_Pptc Spec SpecNet SpecEv SpecMsg SpecJoint SpecFlow L_Base L_PD L_Sums L_Table L_Tree L_Walk L_Forest L_Root L_Good L_Prop L_Init L_Joint
  L_Post L_Read L_Ids L_Trans L_Elim L_UG L_Tri L_Moral L_Build L_Exact L_Apply L_Net L_Evid L_Hist L_Rip L_Claims L_Shape L_Shown L_P1 L_Joint2 L_Msg L_Flow L_Flow2.
Open Scope Qc_scope.

Lemma NoDup_map_eq {A B} (f : A -> B) l x y : NoDup (map f l) -> In x l -> In y l -> f x = f y -> x = y.
Proof.
  induction l as [|z l IH]; simpl; intros HD Hx Hy E; [destruct Hx|]. inversion HD as [|? ? D1 D2]; subst. destruct Hx as [->|Hx], Hy as [->|Hy]; auto.
  - destruct D1. rewrite E. apply in_map; auto.
  - destruct D1. rewrite <- E. apply in_map; auto.
Qed.
Lemma NoDup_mid {A B} (f : A -> B) l1 x l2 y : NoDup (map f (l1 ++ x :: l2)) -> In y l1 -> f y <> f x.
Proof.
  rewrite map_app. intros H Hy E. simpl in H. apply NoDup_remove_2 in H. apply H. apply in_or_app. left. rewrite <- E. apply in_map; auto.
Qed.

Section Sweep.
  Context (N : net) (HN : nshape N) (L : likelihood) (j : jtree) (HJ : JG j).
  Context (Hids : forall i, In i (jt_bbn_ids j) <-> In i (vars N)).
  Context (Hh : forall v, In v (vars N) -> h_values (jt_heap j) v = dom N v).
  Notation dm := (dom N).
  Notation h := (jt_heap j).
  Notation cs := (jt_cliques j).
  Notation ss := (jt_sepsets j).
  Notation marg := (marg N).
  Notation flow := (flow N L j).
  Notation edge := (edge j).
  Context (r : clique) (up down : list msg) (HU : inward j r up) (HO : outward r up down).

  Lemma up_edge x s y : In (x, s, y) up -> edge (x, s, y).
  Proof using HU.
    intros H. split; [|apply (in_ends _ _ _ HU); auto]. apply (in_all _ _ _ HU). apply (in_map across) in H. exact H.
  Qed.
  Lemma edge_back x s y : edge (x, s, y) -> edge (y, s, x).
  Proof using. intros [H1 H2]. split; auto. destruct H2 as [[? ?]|[? ?]]; [right|left]; auto. Qed.
  Lemma down_up1 y s x : In (y, s, x) down -> In (x, s, y) up.
  Proof using HO. intros H. apply (out_back _ _ _ HO) in H. exact H. Qed.
  Lemma up_same x s y x' y' : In (x, s, y) up -> In (x', s, y') up -> x' = x /\ y' = y.
  Proof using HU. intros H1 H2. pose proof (NoDup_map_eq across up _ _ (in_once _ _ _ HU) H1 H2 eq_refl) as E. injection E as E1 E2. auto. Qed.
  Lemma up_one x s y s' y' : In (x, s, y) up -> In (x, s', y') up -> s' = s.
  Proof using HU HJ.
    intros H1 H2. assert (Ds : forall c d, {c = d :> sepset} + {c <> d}) by (repeat decide equality). destruct (Ds s' s) as [E|E]; auto. exfalso.
    destruct (in_split _ _ H1) as [l1 [l2 El]]. pose proof (up_edge _ _ _ H2) as [Q1 Q2].
    pose proof (in_heard _ _ _ HU l1 x s y l2 El s' y' Q1 E) as Q. specialize (Q (proj2 (edge_back _ _ _ (conj Q1 Q2)))).
    assert (Q3 : In (y', s', x) up) by (rewrite El; apply in_or_app; auto). destruct (up_same _ _ _ _ _ H2 Q3) as [E1 E2].
    destruct (edge_facts j HJ _ _ _ (up_edge _ _ _ H2)) as [_ [_ [_ [F _]]]]. apply F. congruence.
  Qed.

  Lemma marg_put_neq fc k g x s a : cl_id x <> k -> marg x s (put fc k g) a = marg x s fc a.
  Proof using. intros H. unfold L_Flow.marg. apply sums_ext. intros b. apply put_neq; auto. Qed.

  Definition uped (l : list msg) (fc fs : fun_at) : Prop :=
    forall x s y, In (x, s, y) l -> (forall a, marg x s fc a = fs (ss_id s) a) /\ (forall a, fs (ss_id s) a = 0 -> fc (cl_id y) a = 0).
  Lemma up_phase l2 : forall l1 fc fs ps, up = l1 ++ l2 -> flow fc fs ps -> uped l1 fc fs -> uped up (fc_run N fc fs l2) (fs_run N fc fs l2).
  Proof using HU HJ HN Hids Hh.
    induction l2 as [|[[x' s'] y'] l2 IH]; intros l1 fc fs ps E F HP; simpl. { rewrite app_nil_r in E. subst l1; auto. }
    assert (Hm : In (x', s', y') up) by (rewrite E; apply in_or_app; simpl; auto). pose proof (up_edge _ _ _ Hm) as He.
    destruct (flow_step N HN L j HJ Hids Hh ps fc fs _ F He) as [ps1 [_ F1]].
    apply (IH (l1 ++ [(x', s', y')]) _ _ ps1); auto. { rewrite <- app_assoc. auto. }
    destruct (edge_facts j HJ _ _ _ He) as [C1 [C2 [C3 [C4 _]]]].
    intros x s y Hi. apply in_app_or in Hi. destruct Hi as [Hi|[Q|[]]].
    - destruct (HP x s y Hi) as [P1 P2].
      assert (Hiu : In (x, s, y) up) by (rewrite E; apply in_or_app; auto). pose proof (up_edge _ _ _ Hiu) as Hie.
      destruct (edge_facts j HJ _ _ _ Hie) as [B1 [B2 [B3 [B4 _]]]].
      assert (Hs : s <> s'). { pose proof (in_once _ _ _ HU) as HD. rewrite E in HD. intros Q. apply (NoDup_mid across _ _ _ (x, s, y) HD Hi). exact Q. }
      assert (Hsi : ss_id s <> ss_id s') by (intros Q; apply Hs; apply (s_inj j HJ); auto).
      assert (Hx : cl_id x <> cl_id y').
      { intros Q. apply (jg_c_inj j HJ) in Q; auto. subst y'. destruct (in_split _ _ Hi) as [p [q El]].
        assert (Eu : up = p ++ (x, s, y) :: (q ++ (x', s', x) :: l2)) by (rewrite E, El, <- app_assoc; auto).
        pose proof (in_heard _ _ _ HU p x s y _ Eu s' x' C3 (not_eq_sym Hs) (proj2 He)) as Q.
        pose proof (in_once _ _ _ HU) as HD. rewrite E in HD. apply (NoDup_mid across _ _ _ (x', s', x) HD); auto. rewrite El. apply in_or_app; auto. }
      split; intros a.
      + simpl. rewrite marg_put_neq by auto. rewrite put_neq by auto. auto.
      + simpl. rewrite put_neq by auto. intros Q. destruct (string_dec (cl_id y) (cl_id y')) as [Y|Y].
        * rewrite Y, put_eq. rewrite <- Y, (P2 a Q). ring.
        * rewrite put_neq by auto. auto.
    - injection Q as -> -> ->. split; intros a; simpl.
      + rewrite marg_put_neq by auto. rewrite put_eq. auto.
      + rewrite !put_eq. intros Q. rewrite Q, qquot_0l. ring.
  Qed.

  Definition downed (d : list msg) (fc fs : fun_at) : Prop :=
    forall x s y, In (x, s, y) up -> (forall a, marg x s fc a = fs (ss_id s) a) /\
      (In (y, s, x) d -> forall a, marg y s fc a = fs (ss_id s) a) /\ (~ In (y, s, x) d -> forall a, fs (ss_id s) a = 0 -> fc (cl_id y) a = 0).
  Lemma down_phase l2 : forall l1 fc fs ps, down = l1 ++ l2 -> flow fc fs ps -> downed l1 fc fs -> downed down (fc_run N fc fs l2) (fs_run N fc fs l2).
  Proof using HU HO HJ HN Hids Hh.
    induction l2 as [|[[y' s'] x'] l2 IH]; intros l1 fc fs ps E F HP; simpl. { rewrite app_nil_r in E. subst l1; auto. }
    assert (Hm : In (y', s', x') down) by (rewrite E; apply in_or_app; simpl; auto). pose proof (down_up1 _ _ _ Hm) as Hmu.
    pose proof (up_edge _ _ _ Hmu) as He'. pose proof (edge_back _ _ _ He') as He.
    destruct (flow_step N HN L j HJ Hids Hh ps fc fs _ F He) as [ps1 [_ F1]].
    apply (IH (l1 ++ [(y', s', x')]) _ _ ps1); auto. { rewrite <- app_assoc. auto. }
    destruct (edge_facts j HJ _ _ _ He) as [C1 [C2 [C3 [C4 _]]]].
    assert (HD := out_once _ _ _ HO). rewrite E in HD.
    assert (Dsep : forall c d, {c = d :> sepset} + {c <> d}) by (repeat decide equality).
    intros x s y Hi. destruct (HP x s y Hi) as [P1 [P2 P3]]. destruct (Dsep s s') as [->|Hs].
    - destruct (up_same _ _ _ _ _ Hmu Hi) as [-> ->]. destruct (HP x' s' y' Hmu) as [_ [_ P4]].
      assert (Hn : ~ In (y', s', x') l1). { intros Q. apply (NoDup_mid across _ _ _ _ HD Q). auto. } specialize (P4 Hn).
      assert (Hq : dep (ss_nodes s') (fun a => qquot (marg y' s' fc a) (fs (ss_id s') a))).
      { intros a b Hab. rewrite (marg_dep N y' s' fc (fl_dc _ _ _ _ _ _ F y' C1) a b Hab), (fl_ds _ _ _ _ _ _ F s' C3 a b Hab). auto. }
      split; [|split]; simpl.
      + intros a. rewrite put_eq. unfold L_Flow.marg at 1. rewrite (sums_ext _ _ _ (fun b => fc (cl_id x') b * qquot (marg y' s' fc b) (fs (ss_id s') b))) by (intros b; apply put_eq).
        rewrite (sums_factor_r dm (ss_nodes s') _ (fun b => qquot (marg y' s' fc b) (fs (ss_id s') b)) (fc (cl_id x')) a Hq) by (intros v Hv; apply minus_In in Hv; tauto).
        fold (L_Flow.marg N x' s' fc a). rewrite P1. destruct (Qc_eq_dec (fs (ss_id s') a) 0) as [Z|Z].
        * rewrite Z, Qcmult_0_l. symmetry. unfold L_Flow.marg. apply sums_zero. intros b Hb _. apply P4.
          rewrite <- Z. apply (fl_ds _ _ _ _ _ _ F s' C3). intros v Hv. apply Hb. rewrite minus_In. tauto.
        * rewrite Qcmult_comm. apply qquot_mul; auto.
      + intros _ a. rewrite put_eq. rewrite marg_put_neq by auto. auto.
      + intros Q. destruct Q. apply in_or_app. simpl. auto.
    - pose proof (up_edge _ _ _ Hi) as Hie. destruct (edge_facts j HJ _ _ _ Hie) as [B1 [B2 [B3 [B4 _]]]].
      assert (Hsi : ss_id s <> ss_id s') by (intros Q; apply Hs; apply (s_inj j HJ); auto).
      assert (Hx : cl_id x <> cl_id x'). { intros Q. apply (jg_c_inj j HJ) in Q; auto. subst x'. apply Hs. eapply up_one; eauto. }
      split; [|split]; simpl.
      + intros a. rewrite marg_put_neq by auto. rewrite put_neq by auto. auto.
      + intros Q. apply in_app_or in Q. destruct Q as [Q|[Q|[]]]; [|injection Q; intros; congruence].
        assert (Hy : cl_id y <> cl_id x').
        { intros Y. apply (jg_c_inj j HJ) in Y; auto. subst x'. destruct (in_split _ _ Q) as [p [q El]].
          assert (Ed : down = p ++ (y, s, x) :: (q ++ (y', s', y) :: l2)) by (rewrite E, El, <- app_assoc; auto).
          destruct (out_heard _ _ _ HO p y s x _ Ed) as [R|[z [s2 R]]].
          - destruct (in_ends _ _ _ HU _ _ _ Hmu) as [_ T]. auto.
          - assert (Rd : In (z, s2, y) down) by (rewrite Ed; apply in_or_app; auto). apply down_up1 in Rd.
            assert (s2 = s') by (eapply up_one; eauto). subst s2.
            apply (NoDup_mid across _ _ _ (z, s', y) HD); auto. rewrite El. apply in_or_app; auto. }
        intros a. rewrite marg_put_neq by auto. rewrite put_neq by auto. auto.
      + intros Q a. rewrite put_neq by auto. intros Z.
        assert (Z2 : fc (cl_id y) a = 0) by (apply P3; auto; intros Q2; apply Q, in_or_app; auto).
        destruct (string_dec (cl_id y) (cl_id x')) as [Y|Y].
        * rewrite Y, put_eq. rewrite <- Y, Z2. ring.
        * rewrite put_neq by auto. auto.
  Qed.

  Lemma sweep_level fc fs ps : flow fc fs ps -> (forall s, In s ss -> In s (map across up)) -> level N j (fc_run N fc fs (up ++ down)) (fs_run N fc fs (up ++ down)).
  Proof using HU HO HJ HN Hids Hh.
    intros F Hall. rewrite fc_run_app, fs_run_app.
    destruct (flow_run N HN L j HJ Hids Hh up ps fc fs F) as [ps1 [_ F1]]. { intros [[x s] y] Hi. apply up_edge; auto. }
    assert (PU : uped up (fc_run N fc fs up) (fs_run N fc fs up)). { apply (up_phase up [] fc fs ps); auto. intros x s y []. }
    assert (PD : downed down (fc_run N (fc_run N fc fs up) (fs_run N fc fs up) down) (fs_run N (fc_run N fc fs up) (fs_run N fc fs up) down)).
    { apply (down_phase down [] _ _ ps1); auto. intros x s y Hi. destruct (PU x s y Hi) as [Q1 Q2]. split; auto. split; auto. intros []. }
    intros x s y [He1 He2] a _. unfold across in *. simpl in He1, He2. pose proof (Hall s He1) as Hs. apply in_map_iff in Hs. destruct Hs as [[[x0 s0] y0] [Es Hs]].
    unfold across in Es. simpl in Es. subst s0. destruct (PD x0 s y0 Hs) as [Q1 [Q2 _]].
    destruct (in_ends _ _ _ HU _ _ _ Hs) as [Hb _].
    assert (Ex : x = x0 \/ x = y0). { destruct Hb as [[? ?]|[? ?]], He2 as [[? ?]|[? ?]]; subst; auto. }
    destruct Ex as [->| ->]; auto. apply Q2. apply (out_back _ _ _ HO). exact Hs.
  Qed.
End Sweep.

(** ** the tree after initialisation *)
Lemma init_flow N nm L j0 : nshape N -> jnet N nm j0 -> egood j0 (dom N) L -> (forall i v, In i (vars N) -> In v (dom N i) -> 0 <= L i v) ->
  exists j1, initialize j0 = Ok j1 /\ same j0 j1 /\ JG j1 /\ jcount j1 /\ (forall i, In i (jt_bbn_ids j1) <-> In i (vars N)) /\
    (forall v, In v (vars N) -> h_values (jt_heap j1) v = dom N v) /\ flow N L j1 (Fs (cpt_entry N) L j0) (fun _ _ => 1) (jt_pots j1).
Proof.
  intros HN H0 HE HL. pose proof (jn_JG _ _ _ H0) as HJ. pose proof (jn_hg _ _ _ H0) as HG.
  destruct (initialize_ok (dom N) (par N) (cpt_entry N) L j0 HJ HG HE) as [j1 [I1 [I2 [I3 [I4 [I5 [I6 I7]]]]]]].
  exists j1. split; auto. split; auto. split; [eapply same_JG; eauto|]. split; [eapply same_jcount; eauto; apply H0|].
  split. { intros i. rewrite (same_ids _ _ I2). apply (jn_ids _ _ _ H0). }
  split.
  { intros v Hv. apply (jn_ids _ _ _ H0) in Hv. destruct (hg_node _ _ _ _ HG v Hv) as [n [E [E1 [E2 _]]]]. unfold h_values. destruct I3 as [_ I3]. rewrite I3.
    destruct (mem_spec v (jt_bbn_ids j0)); [|tauto]. rewrite E. simpl. auto. }
  constructor; rewrite ?(same_cl _ _ I2), ?(same_ss _ _ I2); auto.
  - intros c Hc. exact (Fs_dep (dom N) (par N) (cpt_entry N) L j0 HJ HG c Hc).
  - intros s Hs. apply dep_const.
  - intros c a Hc Ha. apply (Fs_nn (dom N) (par N) (cpt_entry N) L j0 HJ HG); auto. intros i v Hi. apply HL. apply (jn_ids _ _ _ H0); auto.
  - intros. discriminate.
  - intros a Ha. rewrite (F_all N nm HN L j0 H0). rewrite qprod_map_one by auto. ring.
  - intros a s _ _ Q. destruct (one_ne Q).
Qed.

Lemma c74_start ops o h : well_shaped ops -> ord_ok o -> valid_history (net_of ops) h -> let N := net_of ops in let L := in_force N (calls h) in
  exists j j1 fc fs, session o ops h = Ok j /\ initialize j = Ok j1 /\ same j j1 /\ JG j1 /\ jcount j1 /\ (forall i, In i (jt_bbn_ids j1) <-> In i (vars N)) /\
    (forall v, In v (vars N) -> h_values (jt_heap j1) v = dom N v) /\ flow N L j1 fc fs (jt_pots j1) /\ (connected ops -> jconn j1).
Proof.
  intros HW Ho Hh N L. destruct (session_shows ops o h HW Ho Hh) as [b [j [j' [A1 [A2 [A3 [A4 [A5 A6]]]]]]]].
  pose proof (sw_st _ _ _ _ _ A3) as S.
  destruct (init_flow N (net_name ops) L j' (net_shape ops HW) (st_net _ _ _ _ S)) as [j1 [B1 [B2 [B3 [B4 [B5 [B6 B7]]]]]]].
  { apply efull_egood. apply S. }
  { apply S. }
  exists j', j1, (Fs (cpt_entry N) L j'), (fun _ _ => 1). split; [eapply session_eq; eauto|]. repeat (split; auto).
  intros Hc. apply jconn_ext with j'; [apply B2|]. apply A6; auto.
Qed.

Lemma along_edge j ms : along j ms -> forall m, In m ms -> edge j m.
Proof. intros H [[x s] y] Hi. destruct (H x s y Hi) as [A B]. split; auto. Qed.
Lemma flow_marginals N L j fc fs ps : nshape N -> JG j -> (forall i, In i (jt_bbn_ids j) <-> In i (vars N)) ->
  (forall v, In v (vars N) -> h_values (jt_heap j) v = dom N v) -> jcount j -> jconn j -> flow N L j fc fs ps -> level N j fc fs -> holds_marginals N L (set_jpots j ps).
Proof.
  intros HN HJ Hi Hh Hc Hcon F HL. destruct (level_marginals N HN L j HJ Hi Hh fc fs ps F HL Hc Hcon) as [A B]. split.
  - intros c Hcc. eexists. split; [apply (fl_c _ _ _ _ _ _ F); auto|]. eapply tabulates_ext; [|apply tab_tabulates].
    + intros a Ha. apply (A c a Hcc Ha).
    + apply (jg_cl _ HJ); auto.
    + apply (fl_dc _ _ _ _ _ _ F); auto.
  - intros s Hs. eexists. split; [apply (fl_s _ _ _ _ _ _ F); auto|]. eapply tabulates_ext; [|apply tab_tabulates].
    + intros a Ha. apply (B s a Hs Ha).
    + apply (jg_ss _ HJ); auto.
    + apply (fl_ds _ _ _ _ _ _ F); auto.
Qed.

Lemma c74_represents ops o h : well_shaped ops -> ord_ok o -> valid_history (net_of ops) h -> let N := net_of ops in let L := in_force N (calls h) in
  exists j j1, session o ops h = Ok j /\ initialize j = Ok j1 /\ forall ms, along j1 ms ->
    exists ps, foldM (send (jt_heap j1)) ms (jt_pots j1) = Ok ps /\ represents N L (set_jpots j1 ps).
Proof.
  intros HW Ho Hh N L. destruct (c74_start ops o h HW Ho Hh) as [j [j1 [fc [fs [A1 [A2 [A3 [A4 [A5 [A6 [A7 [A8 A9]]]]]]]]]]]].
  exists j, j1. split; auto. split; auto. intros ms Hm.
  destruct (flow_run N (net_shape ops HW) L j1 A4 A6 A7 ms _ fc fs A8 (along_edge _ _ Hm)) as [ps [B1 B2]]. exists ps. split; auto.
  eapply flow_represents; eauto.
Qed.

Lemma c74_settled ops o h : well_shaped ops -> connected ops -> ord_ok o -> valid_history (net_of ops) h -> let N := net_of ops in let L := in_force N (calls h) in
  exists j j1, session o ops h = Ok j /\ initialize j = Ok j1 /\ forall ms ps, along j1 ms -> foldM (send (jt_heap j1)) ms (jt_pots j1) = Ok ps -> settled j1 ps ->
    holds_marginals N L (set_jpots j1 ps).
Proof.
  intros HW Hc Ho Hh N L. destruct (c74_start ops o h HW Ho Hh) as [j [j1 [fc [fs [A1 [A2 [A3 [A4 [A5 [A6 [A7 [A8 A9]]]]]]]]]]]].
  pose proof (net_shape ops HW) as HN. exists j, j1. split; auto. split; auto. intros ms ps Hm E Hs.
  destruct (flow_run N HN L j1 A4 A6 A7 ms _ fc fs A8 (along_edge _ _ Hm)) as [ps' [B1 B2]]. rewrite B1 in E. injection E as ->.
  eapply flow_marginals; eauto. eapply settled_level; eauto. intros [[x s] y] [Q1 Q2]. apply Hs; auto.
Qed.

Lemma c74_sweep ops o h : well_shaped ops -> connected ops -> ord_ok o -> valid_history (net_of ops) h -> let N := net_of ops in let L := in_force N (calls h) in
  exists j j1, session o ops h = Ok j /\ initialize j = Ok j1 /\ forall ms r, along j1 ms -> In r (jt_cliques j1) ->
    (exists up down, inward j1 r up /\ outward r up down) /\
    forall up down, inward j1 r up -> outward r up down ->
      exists ps, foldM (send (jt_heap j1)) (ms ++ up ++ down) (jt_pots j1) = Ok ps /\ settled j1 ps /\ holds_marginals N L (set_jpots j1 ps).
Proof.
  intros HW Hc Ho Hh N L. destruct (c74_start ops o h HW Ho Hh) as [j [j1 [fc [fs [A1 [A2 [A3 [A4 [A5 [A6 [A7 [A8 A9]]]]]]]]]]]].
  pose proof (net_shape ops HW) as HN. exists j, j1. split; auto. split; auto. intros ms r Hm Hr.
  assert (Hid : ord_ok ord_id) by apply ord_id_ok. destruct (trees_exist ord_id j1 r Hid A4 A5 Hr) as [t [ts HT]].
  split. { exists (ups t), (downs t). split; [apply (ups_inward ord_id j1 r t ts A4 HT)|apply (downs_outward ord_id j1 r t ts A4 HT)]. }
  intros up down HU HO.
  assert (Hall : forall s, In s (jt_sepsets j1) -> In s (map across up)).
  { intros s Hs. apply (in_all _ _ _ HU). split; auto. apply (reached_inside ord_id j1 r t ts A4 HT).
    rewrite (trees_single ord_id j1 r t ts A4 (A9 Hc) Hr HT) in HT. pose proof (tr_cl _ _ _ _ _ HT) as Pc. unfold tcliques in Pc. simpl in Pc. rewrite app_nil_r in Pc.
    apply (Permutation_in _ (Permutation_sym Pc)). apply (jg_ends _ A4 s Hs). }
  destruct (flow_run N HN L j1 A4 A6 A7 ms _ fc fs A8 (along_edge _ _ Hm)) as [ps1 [B1 B2]].
  assert (Hud : forall m, In m (up ++ down) -> edge j1 m).
  { intros [[x s] y] Hi. apply in_app_or in Hi. destruct Hi as [Hi|Hi]; [apply (up_edge j1 r up HU); auto|].
    apply edge_back. apply (up_edge j1 r up HU). eapply down_up1; eauto. }
  destruct (flow_run N HN L j1 A4 A6 A7 (up ++ down) _ _ _ B2 Hud) as [ps [C1 C2]].
  exists ps. split; [rewrite foldM_app, B1; exact C1|].
  pose proof (sweep_level N HN L j1 A4 A6 A7 r up down HU HO _ _ _ B2 Hall) as HL. split.
  - intros x s y Hs Hb. eapply level_settled; eauto. split; auto.
  - eapply flow_marginals; eauto.
Qed.
Close Scope Qc_scope.
