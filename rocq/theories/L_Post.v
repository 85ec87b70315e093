(** Initialise, propagate, read the posteriors: the whole inference step on a well-formed join tree. *)
From Verif Require Import Py M_Graph M_Node M_Pptc Spec L_Base L_PD L_Sums L_Table L_Tree L_Walk L_Forest L_Root L_Good L_Prop L_Init.

Open Scope Qc_scope.

Lemma sums_dom_ext d1 d2 vs f : (forall v, In v vs -> d1 v = d2 v) -> forall a, sums d1 vs f a = sums d2 vs f a.
Proof.
  induction vs as [|v vs IH]; intros H a; simpl; auto. rewrite (H v) by (left; auto). apply qsum_map_ext. intros x _. apply IH.
  intros; apply H; right; auto.
Qed.
Lemma tab_dom_ext d1 d2 ids f : (forall v, In v ids -> d1 v = d2 v) -> tab d1 ids f = tab d2 ids f.
Proof. intros H. unfold tab. f_equal. f_equal. apply map_ext_in; auto. Qed.
Lemma okon_dom_ext d1 d2 vs a : (forall v, In v vs -> d1 v = d2 v) -> okon d1 vs a -> okon d2 vs a.
Proof. intros H Ho v Hv. rewrite <- H; auto. Qed.

Lemma trees_reorder o o' j x t ts : ord_ok o' -> JG j -> trees o j x t ts ->
  exists t', trees o' j x t' ts /\ Permutation (cliques_of t') (cliques_of t) /\ Permutation (seps_of t') (seps_of t).
Proof.
  intros Ho HJ HT. pose proof (tr_cl _ _ _ _ _ HT) as Pc. pose proof (tr_ss _ _ _ _ _ HT) as Ps.
  pose proof (tr_j _ _ _ _ _ HT) as HJT. inversion HJT as [|? ? Jt Jts]; subst.
  assert (HNc : NoDup (map cl_id (tcliques (t :: ts)))).
  { eapply Permutation_NoDup; [symmetry; apply Permutation_map, Pc|]. pose proof (jg_ids_NoDup j HJ) as H. apply NoDup_app_iff in H. tauto. }
  unfold tcliques in HNc. simpl in HNc. rewrite map_app in HNc. apply NoDup_app_iff in HNc. destruct HNc as [HNt [HNts HNd]].
  destruct (reorder j HJ o' t Ho []) as [t' [A1 [A2 [A3 [A4 A5]]]]]; auto.
  { intros c Hc. apply (Permutation_in _ Pc). simpl. apply in_or_app; auto. }
  { intros s p []. }
  { intros d Hd. simpl map. simpl app. rewrite <- (Permutation_filter _ _ _ Ps). unfold tseps. simpl. rewrite filter_app.
    replace (filter (touch d) (flat_map seps_of ts)) with (@nil sepset). rewrite app_nil_r; auto.
    assert (Hdn : ~ In (cl_id d) (map cl_id (flat_map cliques_of ts))). { apply HNd. apply in_map; auto. }
    clear - Jts Hdn. induction ts as [|t ts IH]; simpl; auto. inversion Jts; subst. simpl in Hdn. rewrite map_app, in_app_iff in Hdn.
    rewrite filter_app, touch_outside; auto. }
  simpl in A2. exists t'. split; [|auto].
  assert (Pc' : Permutation (tcliques (t' :: ts)) (jt_cliques j)).
  { rewrite <- Pc. unfold tcliques. simpl. rewrite A4. auto. }
  assert (Ps' : Permutation (tseps (t' :: ts)) (jt_sepsets j)).
  { rewrite <- Ps. unfold tseps. simpl. rewrite A5. auto. }
  pose proof (tr_ok _ _ _ _ _ HT) as Hok. inversion Hok as [|? ? Ok1 Ok2]; subst.
  assert (Hok' : okT t').
  { apply (joins_okT (jt_cliques j) (jt_sepsets j)); auto.
    - intros c Hc. apply (Permutation_in _ Pc'). simpl. apply in_or_app; auto.
    - intros c Hc. apply (Permutation_in _ Ps'). simpl. apply in_or_app; auto.
    - apply (jg_cl _ HJ).
    - apply (jg_ss _ HJ). }
  assert (Hv : forall v, In v (vlist t') <-> In v (vlist t)).
  { intros v. split; intros H; apply vlist_sub in H; destruct H as [c [Hc Hv]].
    - apply (vlist_cover t c); auto. apply (Permutation_in _ A4); auto.
    - apply (vlist_cover t' c); auto. apply (Permutation_in _ (Permutation_sym A4)); auto. }
  pose proof (tr_nd _ _ _ _ _ HT) as Hnd. simpl in Hnd. apply NoDup_app_iff in Hnd. destruct Hnd as [Nd1 [Nd2 Nd3]].
  constructor; auto.
  - rewrite A1. apply (tr_root _ _ _ _ _ HT).
  - simpl. apply NoDup_app_intro; auto.
    + apply NoDup_incl_NoDup with (vlist t); auto.
      * assert (G : List.length (vlist t') = List.length (vlist t)); [|lia].
        pose proof (vlist_length t Ok1). pose proof (vlist_length t' Hok').
        rewrite (Permutation_list_sum _ _ (Permutation_map clen A4)) in *. rewrite (Permutation_list_sum _ _ (Permutation_map slen A5)) in *. lia.
      * intros v H; apply Hv; auto.
    + intros v H. apply Nd3. apply Hv; auto.
  - intros v. rewrite <- (tr_vars _ _ _ _ _ HT). simpl. rewrite !in_app_iff, Hv. reflexivity.
Qed.

(** [v] belongs to the tree [t] exactly when its clique does *)
Lemma vlist_tree o j x t ts c v : trees o j x t ts -> In c (jt_cliques j) -> In v (cl_nodes c) -> In v (vlist t) -> In c (cliques_of t).
Proof.
  intros HT Hc Hv Ht. apply (Permutation_in _ (Permutation_sym (tr_cl _ _ _ _ _ HT))) in Hc. unfold tcliques in Hc. simpl in Hc.
  apply in_app_or in Hc. destruct Hc as [Hc|Hc]; auto. exfalso. apply in_flat_map in Hc. destruct Hc as [t' [Ht' Hc]].
  pose proof (tr_nd _ _ _ _ _ HT) as Hnd. simpl in Hnd. apply NoDup_app_iff in Hnd. destruct Hnd as [_ [_ Hd]]. apply (Hd v Ht).
  apply in_flat_map. exists t'. split; auto. eapply vlist_cover; eauto.
  pose proof (tr_ok _ _ _ _ _ HT) as Hok. inversion Hok as [|? ? _ H2]; subst. rewrite Forall_forall in H2. auto.
Qed.

Definition infer (o : Ord) (j : jtree) : res jtree := j <- initialize j ;; propagate o j.

(** product of CPT entries and likelihoods over [l] *)
Definition W (g : Z -> asg -> Qc) (L : likelihood) (l : list Z) (a : asg) : Qc := qprod (map (fun i => g i a * L i (a i)) l).

Record outcome (o : Ord) (dm : Z -> list string) (g : Z -> asg -> Qc) (L : likelihood) (j j2 : jtree) (x : clique) (t : rt) (ts : list rt) : Prop := {
  oc_same : same j j2;
  oc_fill : filled (jt_heap j) (assigned j) (jt_bbn_ids j) (jt_heap j2);
  oc_ev : efull j2 dm L;
  oc_evo : forall k, ~ In k (jt_bbn_ids j) -> dget (jt_evid j2) k = dget (jt_evid j) k;
  oc_x : first_clique j x;
  oc_tr : trees o j x t ts;
  oc_c : forall c, In c (cliques_of t) ->
     dget (jt_pots j2) (cl_id c) = Some (tab dm (cl_nodes c) (sums dm (minus (vlist t) (cl_nodes c)) (W g L (vlist t))));
  oc_s : forall s, In s (seps_of t) ->
     dget (jt_pots j2) (ss_id s) = Some (tab dm (ss_nodes s) (sums dm (minus (vlist t) (ss_nodes s)) (W g L (vlist t))));
  oc_co : forall c, In c (jt_cliques j) -> ~ In c (cliques_of t) ->
     dget (jt_pots j2) (cl_id c) = Some (tab dm (cl_nodes c) (prodI j (fun i a => g i a * L i (a i)) (jt_bbn_ids j) c));
  oc_so : forall s, In s (jt_sepsets j) -> ~ In s (seps_of t) -> dget (jt_pots j2) (ss_id s) = Some (tab dm (ss_nodes s) (fun _ => 1));
  oc_again : forall o', ord_ok o' -> propagate o' j2 = Ok j2 }.

Section Infer.
  Context (dm : Z -> list string) (pr : Z -> list Z) (g : Z -> asg -> Qc) (L : likelihood) (j0 : jtree).
  Context (HJ : JG j0) (HG : hgood j0 dm pr g) (HE : egood j0 dm L) (Hcount : jcount j0).
  Context (HL : forall i v, In i (jt_bbn_ids j0) -> In v (dm i) -> 0 <= L i v).
  Notation ids := (jt_bbn_ids j0).

  Definition Fs (k : string) (a : asg) : Qc :=
    qprod (map (fun i => g i a * L i (a i)) (filter (fun i => eqb (assigned j0 i) k) ids)).

  Lemma asn_in c i : In c (jt_cliques j0) -> In i ids -> assigned j0 i = cl_id c -> incl (pr i ++ [i]) (cl_nodes c).
  Proof using HJ HG. intros Hc Hi E. destruct (asn_ok dm pr g j0 HG i Hi) as [d [Hd [E2 Hinc]]]. rewrite (jg_c_inj j0 HJ c d); auto. congruence. Qed.

  Lemma Fs_dep c : In c (jt_cliques j0) -> dep (cl_nodes c) (Fs (cl_id c)).
  Proof using HJ HG.
    intros Hc. unfold Fs. apply dep_qprod with (F := fun i a => g i a * L i (a i)). intros i Hi. apply filter_In in Hi. destruct Hi as [Hi E].
    destruct (eqb_spec (assigned j0 i) (cl_id c)) as [E'|]; [|discriminate]. pose proof (asn_in c i Hc Hi E') as Hinc.
    apply dep_mult.
    - eapply dep_mono; [exact Hinc|]. apply (hg_dep _ _ _ _ HG); auto.
    - intros a b Hab. rewrite (Hab i); auto. apply Hinc, in_or_app; simpl; auto.
  Qed.
  Lemma Fs_nn c a : In c (jt_cliques j0) -> okon dm (cl_nodes c) a -> 0 <= Fs (cl_id c) a.
  Proof using HJ HG HL.
    intros Hc Ha. unfold Fs. apply qprod_nonneg. intros y Hy. apply in_map_iff in Hy. destruct Hy as [i [<- Hi]]. apply filter_In in Hi. destruct Hi as [Hi E].
    destruct (eqb_spec (assigned j0 i) (cl_id c)) as [E'|]; [|discriminate]. pose proof (asn_in c i Hc Hi E') as Hinc.
    apply Qcle_0_mult.
    - apply (hg_nn _ _ _ _ HG); auto. intros v Hv. apply Ha; auto.
    - apply HL; auto. apply Ha. apply Hinc, in_or_app; simpl; auto.
  Qed.

  Lemma W_tree o x t ts a : trees o j0 x t ts -> prodT Fs t a = W g L (vlist t) a.
  Proof using HJ HG.
    intros HT. rewrite prodT_cliques. unfold W.
    etransitivity; [exact (prodI_sub j0 (fun i a => g i a * L i (a i)) a (cliques_of t) (trt_cids o j0 x t ts HJ HT))|].
    apply qprod_perm, Permutation_map. apply NoDup_Permutation.
    - apply NoDup_filter, bbn_ids_NoDup.
    - eapply trt_nd; eauto.
    - intros i. rewrite filter_In. split.
      + intros [Hi Hm]. apply mem_In in Hm. apply in_map_iff in Hm. destruct Hm as [c [E Hc]].
        eapply vlist_cover; [eapply trt_ok; eauto|exact Hc|]. assert (Hc' : In c (jt_cliques j0)) by (eapply trt_cl; eauto).
        apply (asn_in c i Hc' Hi); auto. apply in_or_app; simpl; auto.
      + intros Hi. assert (Hi' : In i ids) by (eapply trt_v; eauto). split; auto. apply mem_In.
        destruct (asn_ok dm pr g j0 HG i Hi') as [c [Hc [E Hinc]]]. rewrite E. apply in_map.
        eapply vlist_tree; eauto. apply Hinc, in_or_app; simpl; auto.
  Qed.

  Theorem infer_ok o : ord_ok o -> jt_cliques j0 <> [] -> exists j2 x t ts, infer o j0 = Ok j2 /\ outcome o dm g L j0 j2 x t ts.
  Proof using HJ HG HE Hcount HL.
    intros Ho Hne. destruct (initialize_ok dm pr g L j0 HJ HG HE) as [j1 [I1 [I2 [I3 [I4 [I5 [I6 I7]]]]]]].
    assert (Hv : forall v, In v ids -> h_values (jt_heap j1) v = dm v).
    { intros v Hv. destruct (hg_node _ _ _ _ HG v Hv) as [n [E [E1 [E2 _]]]]. unfold h_values. destruct I3 as [_ I3]. rewrite I3.
      destruct (mem_spec v ids); [|tauto]. rewrite E. simpl. auto. }
    assert (Hvc : forall c, In c (jt_cliques j0) -> forall v, In v (cl_nodes c) -> h_values (jt_heap j1) v = dm v).
    { intros c Hc v Hx. apply Hv. eapply cl_ids; eauto. }
    assert (Hvs : forall s, In s (jt_sepsets j0) -> forall v, In v (ss_nodes s) -> h_values (jt_heap j1) v = dm v).
    { intros s Hs v Hx. destruct (jg_ss _ HJ s Hs) as [_ [C2 _]]. destruct (jg_ends _ HJ s Hs) as [C4 _]. apply (Hvc (ss_left s)); auto. }
    assert (HR : ready j1 Fs).
    { constructor; rewrite ?(same_ids _ _ I2), ?(same_cl _ _ I2), ?(same_ss _ _ I2).
      - intros v Hx. rewrite Hv by auto. apply (hg_dm _ _ _ _ HG); auto.
      - apply Fs_dep.
      - intros c a Hc Ha. apply Fs_nn; auto. eapply okon_dom_ext; [|exact Ha]. eauto.
      - intros c Hc. rewrite I6 by auto. f_equal. symmetry. apply tab_dom_ext. eauto.
      - intros s Hs. rewrite I7 by auto. f_equal. symmetry. apply tab_dom_ext. eauto. }
    pose proof (same_JG _ _ I2 HJ) as HJ1. pose proof (same_jcount _ _ I2 Hcount) as Hcount1.
    destruct (propagate_ok o j1 Fs Ho HJ1 Hcount1 HR) as [x [t [ts [ps [P1 [P2 [P3 [P4 P5]]]]]]]].
    { rewrite (same_cl _ _ I2); auto. }
    exists (set_jpots j1 ps), x, t, ts. unfold infer. rewrite I1. cbn [rbind]. split; auto.
    assert (HT : trees o j0 x t ts).
    { destruct P2 as [T1 T2 T3 T4 T5 T6 T7 T8]. rewrite (same_cl _ _ I2) in *. rewrite (same_ss _ _ I2) in *. rewrite (same_ids _ _ I2) in *.
      constructor; auto. clear - T2 I2. revert T2. generalize (@nil string) as P. induction t as [c kids IH] using rt_ind'. intros P T2.
      apply wT_inv in T2. destruct T2 as [nb [A1 [A2 A3]]]. econstructor; eauto.
      - rewrite <- A1. unfold neighboring. rewrite (same_nbr _ _ _ I2). f_equal. apply mapM_ext. intros s _. rewrite (same_nbr _ _ _ I2).
        apply mapM_ext. intros d _. unfold jt_get_sep, jt_get_clq. rewrite (sm_n _ _ I2). reflexivity. }
    assert (Hvt : forall v, In v (vlist t) -> h_values (jt_heap j1) v = dm v). { intros v Hx. apply Hv. eapply trt_v; eauto. }
    assert (HM : forall A a, mass j1 t Fs A a = sums dm (minus (vlist t) A) (W g L (vlist t)) a).
    { intros A a. unfold mass, M. rewrite (sums_dom_ext _ dm). apply sums_ext. intros b. eapply W_tree; eauto.
      intros v Hx. apply minus_In in Hx. apply Hvt; tauto. }
    destruct P4 as [P4 P6].
    constructor; auto.
    - destruct I2; constructor; auto.
    - destruct P1 as [l P1]. exists l. rewrite <- (same_cl _ _ I2). auto.
    - intros c Hc. simpl. rewrite P4 by auto. f_equal. rewrite (tab_dom_ext _ dm) by (apply Hvc; eapply trt_cl; eauto). apply tab_ext. intros a _. apply HM.
    - intros s Hs. simpl. rewrite P6 by auto. f_equal. rewrite (tab_dom_ext _ dm) by (apply Hvs; eapply trt_ss; eauto). apply tab_ext. intros a _. apply HM.
    - intros c Hc Hn. simpl. rewrite P5; [apply I6; auto|]. apply (trt_other o j0 x t ts HJ HT c Hc Hn).
    - intros s Hs Hn. simpl. rewrite P5; [apply I7; auto|]. apply (trt_other_s o j0 x t ts HJ HT s Hs Hn).
    - intros o' Ho'. destruct (trees_reorder o o' j1 x t ts Ho' HJ1 P2) as [t' [HT' [Q1 Q2]]].
      apply (propagate_again o' j1 Fs x t' ts ps Ho' HJ1 HR P1 HT').
      assert (PV : Permutation (vlist t') (vlist t)).
      { apply NoDup_Permutation. eapply trt_nd; eauto. eapply trt_nd; eauto.
        intros v. split; intros H; apply vlist_sub in H; destruct H as [c [Hc Hx]].
        - apply (vlist_cover t c); auto. eapply trt_ok; eauto. apply (Permutation_in _ Q1); auto.
        - apply (vlist_cover t' c); auto. eapply trt_ok; eauto. apply (Permutation_in _ (Permutation_sym Q1)); auto. }
      assert (HM' : forall A a, mass j1 t' Fs A a = mass j1 t Fs A a).
      { intros A a. unfold mass, M. transitivity (sums (h_values (jt_heap j1)) (minus (vlist t) A) (prodT Fs t') a).
        - apply sums_perm. eapply dep_proper. eapply trt_PT; eauto. apply Permutation_filter; auto.
        - apply sums_ext. intros b. rewrite !prodT_cliques. apply qprod_perm, Permutation_map; auto. }
      split.
      + intros c Hc. rewrite P4 by (apply (Permutation_in _ Q1); auto). f_equal. apply tab_ext. intros; symmetry; apply HM'.
      + intros s Hs. rewrite P6 by (apply (Permutation_in _ Q2); auto). f_equal. apply tab_ext. intros; symmetry; apply HM'.
  Qed.
End Infer.
