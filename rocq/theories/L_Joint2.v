(** C70: the tables of a join tree represent the joint distribution. *)
From Verif Require Import Py M_Graph M_Node M_Pptc Spec SpecNet SpecEv SpecJoint L_Base L_PD L_Sums L_Table L_Tree L_Walk L_Forest L_Root L_Good L_Prop L_Init L_Joint
  L_Post L_Read L_Ids L_Trans L_Elim L_UG L_Tri L_Moral L_Build L_Exact L_Apply L_Net L_Evid L_Hist L_Rip L_Claims L_Shape L_Shown L_P1.
Open Scope Qc_scope.


Lemma one_ne : (1:Qc) <> 0. Proof. intros H. apply (f_equal this) in H. discriminate. Qed.
Lemma find_id {A} (key : A -> string) l x : In x l -> (forall y, In y l -> key y = key x -> y = x) -> find (fun y => String.eqb (key y) (key x)) l = Some x.
Proof.
  intros Hx Hu. destruct (find (fun y => String.eqb (key y) (key x)) l) as [y|] eqn:E.
  - apply find_some in E. destruct E as [E1 E2]. apply String.eqb_eq in E2. rewrite (Hu y E1 E2); auto.
  - apply (find_none _ _ E) in Hx. rewrite String.eqb_refl in Hx. discriminate.
Qed.
Lemma find_id_none {A} (key : A -> string) l k : (forall y, In y l -> key y <> k) -> find (fun y => String.eqb (key y) k) l = None.
Proof.
  intros H. destruct (find (fun y => String.eqb (key y) k) l) as [y|] eqn:E; auto. apply find_some in E. destruct E as [E1 E2].
  apply String.eqb_eq in E2. destruct (H y E1 E2).
Qed.

Section Joint.
  Context (N : net) (nm : Z -> string) (HN : nshape N) (L : likelihood) (j0 : jtree) (H0 : jnet N nm j0).
  Notation dm := (dom N).
  Notation g := (cpt_entry N).
  Notation F := (Fs g L j0).

  Lemma F_all a : qprod (map (fun c => F (cl_id c) a) (jt_cliques j0)) = weight N L a.
  Proof using HN H0.
    pose proof (ns_nd _ HN) as HV. rewrite <- (W_weight N L (jt_bbn_ids j0) a (jn_perm N nm HV j0 H0)).
    exact (prodI_all dm (par N) g j0 (jn_JG _ _ _ H0) (jn_hg _ _ _ H0) (fun i a => g i a * L i (a i)) a).
  Qed.
  Lemma F_vars c a : F (cl_id c) a = qprod (map (fun i => g i a * L i (a i)) (filter (fun i => String.eqb (assigned j0 i) (cl_id c)) (vars N))).
  Proof using HN H0.
    pose proof (ns_nd _ HN) as HV. unfold Fs. apply qprod_perm, Permutation_map, Permutation_filter. apply (jn_perm N nm HV); auto.
  Qed.

  (** after initialisation *)
  Context (HE : egood j0 dm L).
  Theorem init_joint : exists j1 place, initialize j0 = Ok j1 /\ jt_nodes j1 = jt_nodes j0 /\ places N L j1 place /\ represents N L j1.
  Proof using HN H0 HE.
    pose proof (jn_JG _ _ _ H0) as HJ. pose proof (jn_hg _ _ _ H0) as HG.
    destruct (initialize_ok dm (par N) g L j0 HJ HG HE) as [j1 [I1 [I2 [I3 [I4 [I5 [I6 I7]]]]]]].
    assert (Hcl : forall c, In c (jt_cliques j0) -> NoDup (cl_nodes c)) by (intros; apply (jg_cl _ HJ); auto).
    assert (Hss : forall s, In s (jt_sepsets j0) -> NoDup (ss_nodes s)) by (intros; apply (jg_ss _ HJ); auto).
    assert (HA : forall i, In i (vars N) -> exists c, In c (jt_cliques j0) /\ assigned j0 i = cl_id c /\ incl (par N i ++ [i]) (cl_nodes c)).
    { intros i Hi. destruct (asn_ok dm (par N) g j0 HG i) as [c [A1 [A2 A3]]]; [apply (jn_ids _ _ _ H0); auto|eauto]. }
    set (place := fun i => match find (fun c => String.eqb (cl_id c) (assigned j0 i)) (jt_cliques j0) with Some c => c | None => mk_clique [] end).
    assert (HP : forall i, In i (vars N) -> In (place i) (jt_cliques j0) /\ incl (par N i ++ [i]) (cl_nodes (place i)) /\ cl_id (place i) = assigned j0 i).
    { intros i Hi. destruct (HA i Hi) as [c [A1 [A2 A3]]]. unfold place. rewrite A2.
      rewrite (find_id cl_id (jt_cliques j0) c A1); auto. intros y Hy E. apply (jg_c_inj j0 HJ); auto. }
    exists j1, place. split; auto. split; [apply I2|].
    assert (Tc : forall c, In c (jt_cliques j0) -> exists p, dget (jt_pots j1) (cl_id c) = Some p /\ tabulates dm (cl_nodes c) (F (cl_id c)) p).
    { intros c Hc. eexists. split; [apply I6; auto|]. apply tab_tabulates; auto. exact (Fs_dep dm (par N) g L j0 HJ HG c Hc). }
    assert (Ts : forall s, In s (jt_sepsets j0) -> exists p, dget (jt_pots j1) (ss_id s) = Some p /\ tabulates dm (ss_nodes s) (fun _ => 1) p).
    { intros s Hs. eexists. split; [apply I7; auto|]. apply tab_tabulates; auto. apply dep_const. }
    split.
    - split; [|split]; rewrite ?(same_cl _ _ I2), ?(same_ss _ _ I2); auto.
      + intros i Hi. destruct (HP i Hi) as [A1 [A2 A3]]. auto.
      + intros c Hc. destruct (Tc c Hc) as [p [E1 E2]]. exists p. split; auto. eapply tabulates_ext; [|exact E2].
        intros a _. rewrite F_vars. f_equal. f_equal. apply filter_ext_in. intros i Hi. destruct (HP i Hi) as [_ [_ E]]. rewrite E; auto.
    - exists F, (fun _ _ => 1). rewrite (same_cl _ _ I2), (same_ss _ _ I2). split; auto. split; auto.
      intros a Ha. cbv zeta. rewrite F_all. rewrite qprod_map_one by auto. split; [ring|]. intros Q. destruct (one_ne Q).
  Qed.

  (** after propagation *)
  Context (j2 : jtree) (o : Ord) (x : clique) (t : rt) (ts : list rt) (O : outcome o dm g L j0 j2 x t ts).
  Context (HL : forall i v, In i (vars N) -> In v (dm i) -> 0 <= L i v).
  Notation V := (vlist t).
  Definition fc (k : string) (a : asg) : Qc :=
    match find (fun c => String.eqb (cl_id c) k) (cliques_of t) with Some c => sums dm (minus V (cl_nodes c)) (W g L V) a | None => F k a end.
  Definition fs (k : string) (a : asg) : Qc :=
    match find (fun s => String.eqb (ss_id s) k) (seps_of t) with Some s => sums dm (minus V (ss_nodes s)) (W g L V) a | None => 1 end.

  Theorem outcome_joint : represents N L j2.
  Proof using HN H0 O HL.
    clear HE. pose proof (jn_JG _ _ _ H0) as HJ. pose proof (jn_hg _ _ _ H0) as HG. pose proof (oc_tr _ _ _ _ _ _ _ _ _ O) as HT.
    pose proof (oc_same _ _ _ _ _ _ _ _ _ O) as Hs.
    assert (Hcl : forall c, In c (jt_cliques j0) -> NoDup (cl_nodes c)) by (intros; apply (jg_cl _ HJ); auto).
    assert (Hss : forall s, In s (jt_sepsets j0) -> NoDup (ss_nodes s)) by (intros; apply (jg_ss _ HJ); auto).
    pose proof (trt_cl o j0 x t ts HT) as Tcl. pose proof (trt_ss o j0 x t ts HT) as Tss.
    assert (fc_in : forall c a, In c (cliques_of t) -> fc (cl_id c) a = sums dm (minus V (cl_nodes c)) (W g L V) a).
    { intros c a Hc. unfold fc. rewrite (find_id cl_id _ c Hc); auto. intros y Hy E. apply (jg_c_inj j0 HJ); auto. }
    assert (fc_out : forall c a, In c (jt_cliques j0) -> ~ In c (cliques_of t) -> fc (cl_id c) a = F (cl_id c) a).
    { intros c a Hc Hn. unfold fc. rewrite find_id_none; auto. intros y Hy E. apply Hn. rewrite <- (jg_c_inj j0 HJ y c); auto. }
    assert (SI : forall s s', In s (jt_sepsets j0) -> In s' (jt_sepsets j0) -> ss_id s = ss_id s' -> s = s').
    { intros s s' Q1 Q2 E. apply (jg_get_s j0 HJ) in Q1. apply (jg_get_s j0 HJ) in Q2. rewrite E in Q1. congruence. }
    assert (fs_in : forall s a, In s (seps_of t) -> fs (ss_id s) a = sums dm (minus V (ss_nodes s)) (W g L V) a).
    { intros s a Hi. unfold fs. rewrite (find_id ss_id _ s Hi); auto. }
    assert (fs_out : forall s a, In s (jt_sepsets j0) -> ~ In s (seps_of t) -> fs (ss_id s) a = 1).
    { intros s a Hi Hn. unfold fs. rewrite find_id_none; auto. intros y Hy E. apply Hn. rewrite <- (SI y s); auto. }
    assert (HVn : NoDup V) by (eapply trt_nd; eauto).
    assert (Wd : dep V (W g L V)).
    { apply (dep_ext _ (prodT F t)). { intros a. apply (W_tree dm (par N) g L j0 HJ HG o x t ts a HT). }
      apply prodT_dep. eapply trt_ok; eauto. intros c Hc. exact (Fs_dep dm (par N) g L j0 HJ HG c (Tcl c Hc)). }
    assert (Md : forall S, dep S (sums dm (minus V S) (W g L V))).
    { intros S. eapply sums_dep'; [exact Wd|]. intros v Hv. rewrite minus_In. destruct (in_dec Z.eq_dec v S); tauto. }
    assert (Dc : forall c d, {c = d :> clique} + {c <> d}) by (repeat decide equality).
    exists fc, fs. rewrite (same_cl _ _ Hs), (same_ss _ _ Hs). split; [|split].
    - intros c Hc. destruct (in_dec Dc c (cliques_of t)) as [Ht|Ht].
      + eexists. split; [apply (oc_c _ _ _ _ _ _ _ _ _ O c Ht)|].
        eapply tabulates_ext; [|apply tab_tabulates; auto]. intros a _. symmetry. apply fc_in; auto.
      + eexists. split; [apply (oc_co _ _ _ _ _ _ _ _ _ O c Hc Ht)|].
        eapply tabulates_ext; [|apply tab_tabulates; auto]. { intros a _. symmetry. apply fc_out; auto. }
        exact (Fs_dep dm (par N) g L j0 HJ HG c Hc).
    - assert (Ds : forall c d, {c = d :> sepset} + {c <> d}) by (repeat decide equality).
      intros s Hi. destruct (in_dec Ds s (seps_of t)) as [Ht|Ht].
      + eexists. split; [apply (oc_s _ _ _ _ _ _ _ _ _ O s Ht)|].
        eapply tabulates_ext; [|apply tab_tabulates; auto]. intros a _. symmetry. apply fs_in; auto.
      + eexists. split; [apply (oc_so _ _ _ _ _ _ _ _ _ O s Hi Ht)|].
        eapply tabulates_ext; [|apply tab_tabulates; auto using dep_const]. intros a _. symmetry. apply fs_out; auto.
    - intros a Ha. cbv zeta.
      set (h := jt_heap j0).
      assert (Hh : forall v, In v V -> h_values h v = dm v).
      { intros v Hv. assert (Hv' : In v (jt_bbn_ids j0)) by (eapply trt_v; eauto).
        destruct (hg_node _ _ _ _ HG v Hv') as [n [E [E1 [E2 _]]]]. unfold h_values, h. rewrite E. auto. }
      assert (HM : forall S b, M h V (prodT F t) S b = sums dm (minus V S) (W g L V) b).
      { intros S b. unfold M. rewrite (sums_dom_ext _ dm). apply sums_ext. intros b'. apply (W_tree dm (par N) g L j0 HJ HG o x t ts b' HT).
        intros v Hv. apply minus_In in Hv. apply Hh; tauto. }
      assert (Hok : okT t) by (eapply trt_ok; eauto).
      assert (HF : Fok F t) by (intros c Hc; exact (Fs_dep dm (par N) g L j0 HJ HG c (Tcl c Hc))).
      assert (TJ : qprod (map (fun c => fc (cl_id c) a) (cliques_of t)) = prodT F t a * qprod (map (fun s => fs (ss_id s) a) (seps_of t))).
      { pose proof (tree_joint h F V (prodT F t) HVn (prodT_dep F t Hok HF) t a [] (fun _ => 1) Hok HF) as Q.
        rewrite app_nil_r in Q. specialize (Q (dep_const _ _)). rewrite app_nil_r in Q. specialize (Q (Permutation_refl _)).
        unfold cprod, sprod in Q.
        rewrite (qprod_map_ext _ (fun c => M h V (prodT F t) (cl_nodes c) a)) by (intros c Hc; rewrite fc_in, HM; auto).
        rewrite Q by (intros; ring). simpl sums.
        rewrite (qprod_map_ext (fun s => fs (ss_id s) a) (fun s => M h V (prodT F t) (ss_nodes s) a)) by (intros s Hi; rewrite fs_in, HM; auto).
        ring. }
      assert (NDt : NoDup (map cl_id (tcliques (t :: ts)) ++ map ss_id (tseps (t :: ts)))).
      { eapply Permutation_NoDup; [|apply (jg_ids_NoDup j0 HJ)]. symmetry. apply Permutation_app; apply Permutation_map; [apply (tr_cl _ _ _ _ _ HT)|apply (tr_ss _ _ _ _ _ HT)]. }
      apply NoDup_app_iff in NDt. destruct NDt as [NDc [NDs _]]. unfold tcliques in NDc. unfold tseps in NDs. simpl in NDc, NDs. rewrite map_app in NDc, NDs.
      apply NoDup_app_iff in NDc. destruct NDc as [_ [_ NDc]]. apply NoDup_app_iff in NDs. destruct NDs as [_ [_ NDs]].
      assert (EC : qprod (map (fun c => fc (cl_id c) a) (jt_cliques j0)) =
         qprod (map (fun c => fc (cl_id c) a) (cliques_of t)) * qprod (map (fun c => F (cl_id c) a) (flat_map cliques_of ts))).
      { rewrite <- (qprod_perm _ _ (Permutation_map (fun c => fc (cl_id c) a) (tr_cl _ _ _ _ _ HT))). unfold tcliques. simpl. rewrite map_app, qprod_app. f_equal.
        apply qprod_map_ext. intros c Hc. apply fc_out.
        - apply (Permutation_in _ (tr_cl _ _ _ _ _ HT)). unfold tcliques. simpl. apply in_or_app; auto.
        - intros Hn. apply (NDc (cl_id c)); apply in_map; auto. }
      assert (ES : qprod (map (fun s => fs (ss_id s) a) (jt_sepsets j0)) = qprod (map (fun s => fs (ss_id s) a) (seps_of t))).
      { rewrite <- (qprod_perm _ _ (Permutation_map (fun s => fs (ss_id s) a) (tr_ss _ _ _ _ _ HT))). unfold tseps. simpl. rewrite map_app, qprod_app.
        rewrite (qprod_map_one (fun s => fs (ss_id s) a) (flat_map seps_of ts)); [ring|]. intros s Hi. apply fs_out.
        - apply (Permutation_in _ (tr_ss _ _ _ _ _ HT)). unfold tseps. simpl. apply in_or_app; auto.
        - intros Hn. apply (NDs (ss_id s)); apply in_map; auto. }
      assert (EW : weight N L a = prodT F t a * qprod (map (fun c => F (cl_id c) a) (flat_map cliques_of ts))).
      { rewrite <- F_all. rewrite <- (qprod_perm _ _ (Permutation_map (fun c => F (cl_id c) a) (tr_cl _ _ _ _ _ HT))). unfold tcliques. simpl.
        rewrite map_app, qprod_app, prodT_cliques. auto. }
      rewrite EC, ES, TJ, EW. split; [ring|]. intros Q.
      (** a separation set with entry 0 *)
      assert (QZ : exists s, In s (seps_of t) /\ fs (ss_id s) a = 0).
      { clear - Q. induction (seps_of t) as [|s l IH]; simpl in Q. { rewrite qprod_nil in Q. destruct (one_ne Q). }
        rewrite qprod_cons in Q. apply Qcmult_integral in Q. destruct Q as [Q|Q]; [exists s; simpl; auto|].
        destruct (IH Q) as [s' [A1 A2]]. exists s'. simpl; auto. }
      destruct QZ as [s [Hi Hz]]. rewrite fs_in in Hz by auto.
      assert (Ev : forall v, In v V -> In v (vars N)). { intros v Hv. apply (jn_ids _ _ _ H0). eapply trt_v; eauto. }
      assert (E0 : W g L V a = 0).
      { eapply (sums_zero_terms dm (minus V (ss_nodes s)) (W g L V)); [eapply dep_proper; exact Wd| |exact Hz| |].
        - intros b Hb1 Hb2. rewrite <- (W_tree dm (par N) g L j0 HJ HG o x t ts b HT), prodT_cliques. apply qprod_nonneg.
          intros q Hq. apply in_map_iff in Hq. destruct Hq as [c [<- Hc]].
          apply (Fs_nn dm (par N) g L j0 HJ HG). { intros i v Hii Hv. apply HL; auto. apply (jn_ids _ _ _ H0); auto. } { auto. }
          intros v Hv. assert (HvV : In v V) by (apply (vlist_cover t c); auto).
          destruct (in_dec Z.eq_dec v (minus V (ss_nodes s))) as [I|I]; [apply Hb2; auto|]. rewrite Hb1 by auto. apply Ha. auto.
        - auto.
        - intros v Hv. apply Ha. apply minus_In in Hv. apply Ev; tauto. }
      rewrite <- (W_tree dm (par N) g L j0 HJ HG o x t ts a HT) in E0. rewrite E0. ring.
  Qed.
End Joint.

Lemma represents_agree N L L' j : agree N L L' -> represents N L j -> represents N L' j.
Proof.
  intros HA [fc [fs [H1 [H2 H3]]]]. exists fc, fs. split; auto. split; auto. intros a Ha. rewrite <- (weight_agree N L L' a HA Ha). apply H3; auto.
Qed.

Section Live.
  Context (N : net) (nm : Z -> string) (HN : nshape N) (L : likelihood) (j : jtree) (H : live N nm L j).

  Lemma live_joint : represents N L j.
  Proof using HN H.
    destruct (lv_from _ _ _ _ H) as [o [L1 [j0 [j1 [x [t [ts [HA [H0 [O E]]]]]]]]]]. subst j. apply (represents_agree N L1 L); auto.
    apply (outcome_joint N nm HN L1 j0 H0 j1 o x t ts O). intros i v Hi Hv. rewrite HA by auto. apply (lv_pos _ _ _ _ H); auto.
  Qed.

  Lemma live_any_clique : jconn j -> forall c i, In c (jt_cliques j) -> In i (cl_nodes c) -> exists n p,
    dget (jt_heap j) i = Some n /\ dget (jt_pots j) (cl_id c) = Some p /\ get_bbn_potential j i = Ok (normalize (marginalize p [nv n])).
  Proof using HN H.
    intros Hc c i Hcc Hic. pose proof (ns_nd _ HN) as HV. pose proof (lv_pos _ _ _ _ H) as HP. destruct (lv_from _ _ _ _ H) as [o [L1 [j0 [j1 [x [t [ts [HA [H0 [O E]]]]]]]]]]. subst j.
    change (jt_cliques (set_jlistener j1 true)) with (jt_cliques j1) in *. change (jt_heap (set_jlistener j1 true)) with (jt_heap j1). change (jt_pots (set_jlistener j1 true)) with (jt_pots j1).
    change (get_bbn_potential (set_jlistener j1 true) i) with (get_bbn_potential j1 i).
    pose proof (oc_same _ _ _ _ _ _ _ _ _ O) as Hs. rewrite (same_cl _ _ Hs) in Hcc.
    assert (Hc0 : jconn j0) by (apply jconn_ext with j1; [symmetry; apply O|exact Hc]).
    pose proof (oc_tr _ _ _ _ _ _ _ _ _ O) as HT.
    pose proof (trees_single _ _ _ _ _ (jn_JG _ _ _ H0) Hc0 (x_clique _ _ (oc_x _ _ _ _ _ _ _ _ _ O)) HT) as Ets. subst ts.
    assert (Hct : In c (cliques_of t)).
    { apply (Permutation_in _ (Permutation_sym (tr_cl _ _ _ _ _ HT))) in Hcc. unfold tcliques in Hcc. simpl in Hcc. rewrite app_nil_r in Hcc. auto. }
    assert (Hi : In i (jt_bbn_ids j0)) by (apply bbn_ids_In; eauto).
    assert (HL' : forall i v, In i (jt_bbn_ids j0) -> In v (dom N i) -> 0 <= L1 i v).
    { intros k v Hk Hv. apply (jn_ids _ _ _ H0) in Hk. rewrite HA by auto. apply HP; auto. }
    destruct (node2 (dom N) (par N) (cpt_entry N) L1 j0 j1 (jn_hg _ _ _ H0) o x t [] O i Hi) as [n [E0 [E [E1 E2]]]].
    destruct (read_clique (dom N) (par N) (cpt_entry N) L1 j0 j1 (jn_JG _ _ _ H0) (jn_hg _ _ _ H0) HL' o x t [] O i c Hct Hic) as [R1 R2].
    eexists. eexists. split; [exact E|]. split; [exact R1|].
    rewrite (get_pot_tree (dom N) (par N) (cpt_entry N) L1 j0 j1 (jn_JG _ _ _ H0) (jn_hg _ _ _ H0) HL' o x t [] O i).
    - f_equal. rewrite <- R2. unfold nv. simpl. rewrite E1, E2. auto.
    - apply (vlist_cover t c); auto. eapply trt_ok; eauto.
  Qed.
End Live.

Lemma c70_joint ops o h : well_shaped ops -> ord_ok o -> valid_history (net_of ops) h ->
  exists j, session o ops h = Ok j /\ represents (net_of ops) (shown (net_of ops) (calls h)) j.
Proof.
  intros HW Ho Hh. destruct (session_live ops o h HW Ho Hh) as [j [ev [A1 [A2 _]]]]. exists j. split; auto.
  exact (live_joint (net_of ops) (net_name ops) (net_shape ops HW) _ _ A2).
Qed.
Lemma c70_init ops o h : well_shaped ops -> ord_ok o -> valid_history (net_of ops) h -> let N := net_of ops in let L := in_force N (calls h) in
  exists j j1 place, session o ops h = Ok j /\ initialize j = Ok j1 /\ jt_nodes j1 = jt_nodes j /\ places N L j1 place /\ represents N L j1.
Proof.
  intros HW Ho Hh N L. destruct (session_shows ops o h HW Ho Hh) as [b [j [j' [A1 [A2 [A3 [A4 [A5 A6]]]]]]]].
  pose proof (sw_st _ _ _ _ _ A3) as S. destruct (init_joint N (net_name ops) (net_shape ops HW) L j' (st_net _ _ _ _ S)) as [j1 [place [B1 [B2 [B3 B4]]]]].
  { apply efull_egood. apply S. }
  exists j', j1, place. split; [eapply session_eq; eauto|]. auto.
Qed.
Lemma c70_any_clique ops o h : well_shaped ops -> connected ops -> ord_ok o -> valid_history (net_of ops) h ->
  exists j, session o ops h = Ok j /\ forall c i, In c (jt_cliques j) -> In i (cl_nodes c) -> exists n p,
    dget (jt_heap j) i = Some n /\ dget (jt_pots j) (cl_id c) = Some p /\ get_bbn_potential j i = Ok (normalize (marginalize p [nv n])).
Proof.
  intros HW Hc Ho Hh. destruct (session_live ops o h HW Ho Hh) as [j [ev [A1 [A2 A3]]]]. exists j. split; auto.
  exact (live_any_clique (net_of ops) (net_name ops) (net_shape ops HW) _ _ A2 (A3 Hc)).
Qed.
Close Scope Qc_scope.
