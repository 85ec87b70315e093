(** Propagation from arbitrary clique potentials, on a well-formed join tree. *)
From Verif Require Import Py M_Graph M_Node M_Pptc Spec L_Base L_PD L_Sums L_Table L_Tree L_Walk L_Forest L_Root L_Good.

Open Scope Qc_scope.

Lemma prodT_cliques F t a : prodT F t a = qprod (map (fun c => F (cl_id c) a) (cliques_of t)).
Proof.
  induction t as [c kids IH] using rt_ind'. rewrite cliques_eq. simpl. rewrite qprod_cons. f_equal.
  induction kids as [|[s t] kids IHk]; simpl; auto. rewrite qprod_cons, (IH s t) by (left; auto).
  rewrite IHk by (intros; eapply IH; right; eauto).
  change (cliquesL ((s, t) :: kids)) with (cliques_of t ++ cliquesL kids). rewrite map_app, qprod_app. reflexivity.
Qed.

Lemma calT_all h All PT ps t : calT h All PT ps t ->
  (forall c, In c (cliques_of t) -> holds h ps (cl_id c) (cl_nodes c) (M h All PT (cl_nodes c))) /\
  (forall s, In s (seps_of t) -> holds h ps (ss_id s) (ss_nodes s) (M h All PT (ss_nodes s))).
Proof.
  induction t as [c kids IH] using rt_ind'. intros H. apply calT_inv in H. destruct H as [H1 H2]. split.
  - intros d [<-|Hd]; auto. apply in_flat_map in Hd. destruct Hd as [[s t] [Hi Hd]]. destruct (H2 s t Hi) as [_ H3].
    destruct (IH s t Hi H3) as [I1 I2]. auto.
  - intros d Hd. apply in_flat_map in Hd. destruct Hd as [[s t] [Hi Hd]]. destruct (H2 s t Hi) as [H4 H3].
    destruct (IH s t Hi H3) as [I1 I2]. destruct Hd as [<-|Hd]; auto.
Qed.
Lemma all_calT h All PT ps t :
  (forall c, In c (cliques_of t) -> holds h ps (cl_id c) (cl_nodes c) (M h All PT (cl_nodes c))) ->
  (forall s, In s (seps_of t) -> holds h ps (ss_id s) (ss_nodes s) (M h All PT (ss_nodes s))) -> calT h All PT ps t.
Proof.
  induction t as [c kids IH] using rt_ind'. intros H1 H2. constructor.
  - apply H1. left; auto.
  - intros s t Hi. split.
    + apply H2. apply in_flat_map. exists (s, t). simpl; auto.
    + apply (IH s t Hi).
      * intros d Hd. apply H1. right. apply in_flat_map. exists (s, t); auto.
      * intros d Hd. apply H2. apply in_flat_map. exists (s, t); simpl; auto.
Qed.

Lemma initT_all h F ps t :
  (forall c, In c (cliques_of t) -> holds h ps (cl_id c) (cl_nodes c) (F (cl_id c))) ->
  (forall s, In s (seps_of t) -> holds h ps (ss_id s) (ss_nodes s) (fun _ => 1)) -> initT h F ps t.
Proof.
  induction t as [c kids IH] using rt_ind'. intros H1 H2. constructor.
  - apply H1. left; auto.
  - intros s t Hi. split.
    + apply H2. apply in_flat_map. exists (s, t). simpl; auto.
    + apply (IH s t Hi).
      * intros d Hd. apply H1. right. apply in_flat_map. exists (s, t); auto.
      * intros d Hd. apply H2. apply in_flat_map. exists (s, t); simpl; auto.
Qed.

(** potentials as [initialize] leaves them *)
Record ready (j : jtree) (F : string -> asg -> Qc) : Prop := {
  rd_dom : forall v, In v (jt_bbn_ids j) -> NoDup (h_values (jt_heap j) v);
  rd_dep : forall c, In c (jt_cliques j) -> dep (cl_nodes c) (F (cl_id c));
  rd_nn : forall c a, In c (jt_cliques j) -> okon (h_values (jt_heap j)) (cl_nodes c) a -> 0 <= F (cl_id c) a;
  rd_c : forall c, In c (jt_cliques j) -> dget (jt_pots j) (cl_id c) = Some (tab (h_values (jt_heap j)) (cl_nodes c) (F (cl_id c)));
  rd_s : forall s, In s (jt_sepsets j) -> dget (jt_pots j) (ss_id s) = Some (tab (h_values (jt_heap j)) (ss_nodes s) (fun _ => 1)) }.

Section P.
  Context (o : Ord) (j : jtree) (x : clique) (t : rt) (ts : list rt) (Ho : ord_ok o) (HJ : JG j) (HT : trees o j x t ts).
  Notation h := (jt_heap j).

  Lemma trt_cl c : In c (cliques_of t) -> In c (jt_cliques j).
  Proof using HT. intros Hc. apply (Permutation_in _ (tr_cl _ _ _ _ _ HT)). unfold tcliques. simpl. apply in_or_app; auto. Qed.
  Lemma trt_ss s : In s (seps_of t) -> In s (jt_sepsets j).
  Proof using HT. intros Hc. apply (Permutation_in _ (tr_ss _ _ _ _ _ HT)). unfold tseps. simpl. apply in_or_app; auto. Qed.
  Lemma trt_ok : okT t.
  Proof using HT. pose proof (tr_ok _ _ _ _ _ HT) as H. inversion H; auto. Qed.
  Lemma trt_nd : NoDup (vlist t).
  Proof using HT. pose proof (tr_nd _ _ _ _ _ HT) as H. simpl in H. apply NoDup_app_iff in H. tauto. Qed.
  Lemma trt_v v : In v (vlist t) -> In v (jt_bbn_ids j).
  Proof using HT. intros H. apply (tr_vars _ _ _ _ _ HT). simpl. apply in_or_app; auto. Qed.
  Lemma trt_cids : NoDup (cids t).
  Proof using HT HJ.
    assert (H : NoDup (map cl_id (tcliques (t :: ts)))).
    { eapply Permutation_NoDup; [symmetry; apply Permutation_map, (tr_cl _ _ _ _ _ HT)|].
      pose proof (jg_ids_NoDup j HJ) as H. apply NoDup_app_iff in H. tauto. }
    unfold tcliques in H. simpl in H. rewrite map_app in H. apply NoDup_app_iff in H. tauto.
  Qed.
  Lemma trt_ids : NoDup (ids_of t).
  Proof using HT HJ.
    eapply Permutation_NoDup; [symmetry; apply seps_tree_ids|].
    assert (H : NoDup (map cl_id (tcliques (t :: ts)) ++ map ss_id (tseps (t :: ts)))).
    { eapply Permutation_NoDup; [|apply (jg_ids_NoDup j HJ)]. symmetry. apply Permutation_app; apply Permutation_map; [apply (tr_cl _ _ _ _ _ HT)|apply (tr_ss _ _ _ _ _ HT)]. }
    unfold tcliques, tseps in H. simpl in H. rewrite !map_app in H.
    apply (NoDup_app_iff _ (map cl_id (flat_map cliques_of ts) ++ map ss_id (flat_map seps_of ts))).
    eapply Permutation_NoDup; [|exact H]. perm.
  Qed.
  Lemma trt_fuel : (List.length (cliques_of t) <= walk_fuel j)%nat.
  Proof using HT HJ.
    pose proof (Permutation_length (tr_cl _ _ _ _ _ HT)) as E. unfold tcliques in E. simpl in E. rewrite app_length in E.
    pose proof (Permutation_length (jg_all_ids j HJ)) as E2. rewrite app_length, !map_length in E2. unfold dkeys in E2. rewrite map_length in E2.
    unfold walk_fuel. lia.
  Qed.

  (** the other trees are disjoint from the first *)
  Lemma trt_other i : In i (jt_cliques j) -> ~ In i (cliques_of t) -> ~ In (cl_id i) (ids_of t).
  Proof using HT HJ.
    intros Hi Hn Hc. apply (Permutation_in _ (seps_tree_ids t)) in Hc. apply in_app_or in Hc. destruct Hc as [Hc|Hc].
    - apply in_map_iff in Hc. destruct Hc as [d [E Hd]]. apply Hn. rewrite (jg_c_inj j HJ i d); auto. apply trt_cl; auto.
    - apply in_map_iff in Hc. destruct Hc as [s [E Hs]]. apply (jg_cs j HJ i s); auto. apply trt_ss; auto.
  Qed.

  Lemma trt_other_s s : In s (jt_sepsets j) -> ~ In s (seps_of t) -> ~ In (ss_id s) (ids_of t).
  Proof using HT HJ.
    intros Hi Hn Hc. apply (Permutation_in _ (seps_tree_ids t)) in Hc. apply in_app_or in Hc. destruct Hc as [Hc|Hc].
    - apply in_map_iff in Hc. destruct Hc as [d [E Hd]]. apply (jg_cs j HJ d s); auto. apply trt_cl; auto.
    - apply in_map_iff in Hc. destruct Hc as [d [E Hd]]. apply Hn. apply (jg_get_s j HJ) in Hi. pose proof (jg_get_s j HJ d (trt_ss d Hd)) as Q. rewrite E in Q. congruence.
  Qed.

  Context (F : string -> asg -> Qc) (HR : ready j F).

  Definition mass : list Z -> asg -> Qc := M h (vlist t) (prodT F t).
  Definition calibrated (ps : pots) : Prop :=
    (forall c, In c (cliques_of t) -> dget ps (cl_id c) = Some (tab (h_values h) (cl_nodes c) (mass (cl_nodes c)))) /\
    (forall s, In s (seps_of t) -> dget ps (ss_id s) = Some (tab (h_values h) (ss_nodes s) (mass (ss_nodes s)))).

  Lemma trt_Fok : Fok F t.
  Proof using HT HR. intros c Hc. apply (rd_dep _ _ HR), trt_cl; auto. Qed.
  Lemma trt_Fnn : Fnn h F t.
  Proof using HT HR. intros c Hc a. apply (rd_nn _ _ HR), trt_cl; auto. Qed.
  Lemma trt_PT : dep (vlist t) (prodT F t).
  Proof using HT HR. apply prodT_dep. apply trt_ok. apply trt_Fok. Qed.
  Lemma trt_dom : domok h (vlist t).
  Proof using HT HR. intros v Hv. apply (rd_dom _ _ HR), trt_v; auto. Qed.

  Lemma propagate_from : exists ps m1 m2,
    collect o j (jt_pots j, []) x = Ok (m1 : pots, m2) /\
    (exists m3, distribute o j (m1, []) x = Ok (ps, m3)) /\
    calibrated ps /\ (forall i, ~ In i (ids_of t) -> dget ps i = dget (jt_pots j) i).
  Proof using Ho HJ HT HR.
    pose proof trt_ok as Hok. pose proof trt_nd as Hnd. pose proof trt_Fok as HF. pose proof trt_Fnn as HFn. pose proof trt_dom as Hdom.
    pose proof trt_PT as HPT. pose proof trt_ids as Hids. pose proof trt_cids as Hcids. pose proof trt_fuel as Hfuel.
    pose proof (tr_root _ _ _ _ _ HT) as Hroot. pose proof (tr_w _ _ _ _ _ HT) as Hw.
    assert (Hinit : initT h F (jt_pots j) t).
    { apply initT_all. intros c Hc; apply (rd_c _ _ HR), trt_cl; auto. intros s Hs; apply (rd_s _ _ HR), trt_ss; auto. }
    unfold calibrated, mass. revert Hok Hnd HF HFn Hdom HPT Hids Hcids Hfuel Hroot Hw Hinit. clear HT HR HJ Ho. destruct t as [y kids]. simpl root.
    intros Hok Hnd HF HFn Hdom HPT Hids Hcids Hfuel Hroot Hw Hinit. subst y. unfold vlist in *. simpl root in *. rewrite elk_eq in *.
    destruct (collect_root h F x kids (jt_pots j)) as [p1 [C1 [C2 C3]]]; auto.
    destruct (collect_tree o j x kids (jt_pots j) p1) as [m1 D1]; auto.
    destruct (collT_inv _ _ _ _ _ C2) as [C4 C5].
    destruct (dist_dn h F (cl_nodes x ++ elL kids) (prodT F (RN x kids)) Hnd HPT (RN x kids) Hok HF HFn Hids Hdom [] (fun _ => 1)) with (ps := p1) as [p2 [D2 [D3 D4]]].
    - apply dep_const.
    - simpl. rewrite elk_eq, app_nil_r. auto.
    - intros a. ring.
    - simpl root. unfold holds in *. rewrite C4. f_equal. apply tab_ext. intros a _.
      unfold phi. symmetry. rewrite elk_eq. apply M_perm; auto.
    - exact C5.
    - rewrite distT_eq in D2. destruct (distribute_tree o j x kids p1 p2) as [m3 D5]; auto.
      exists p2, p1, m1. split; auto. split; [eauto|]. split.
      + apply calT_all in D3. exact D3.
      + intros i Hi. rewrite D4, C3; auto.
  Qed.

  (** ** on a calibrated tree nothing moves *)
  Lemma dset_same {K V} `{EqB K} (d : list (K * V)) k v : dget d k = Some v -> dset d k v = d.
  Proof using.
    induction d as [|[k' v'] d IH]; simpl; [discriminate|]. destruct (eqb k k') eqn:E.
    - intros H1; inversion H1; subst; auto.
    - intros H1. f_equal. auto.
  Qed.

  Lemma mass_nonneg A a : okon (h_values h) A a -> 0 <= mass A a.
  Proof using HT HR.
    intros Ha. unfold mass, M. apply sums_nonneg_ok with (S := A); auto. intros b Hb.
    apply (prodT_nonneg h F t trt_ok trt_Fnn). intros v Hv. apply Hb. rewrite in_app_iff, minus_In.
    destruct (in_dec Z.eq_dec v A); auto.
  Qed.
  Lemma clique_vlist c : In c (cliques_of t) -> incl (cl_nodes c) (vlist t).
  Proof using HT. intros Hc v Hv. eapply vlist_cover; eauto. apply trt_ok. Qed.

  Lemma pass_cal ps p s q : calibrated ps -> In p (cliques_of t) -> In q (cliques_of t) -> In s (seps_of t) ->
    cl_id q <> ss_id s -> NoDup (ss_nodes s) -> incl (ss_nodes s) (cl_nodes p) -> incl (ss_nodes s) (cl_nodes q) ->
    pass_message h ps p s q = Ok ps.
  Proof using HT HR HJ.
    intros [Hc Hs] Hp Hq Hsp Hne Ns I1 I2.
    pose proof (jg_cl _ HJ p (trt_cl _ Hp)) as Np. pose proof (jg_cl _ HJ q (trt_cl _ Hq)) as Nq.
    rewrite pass_message_tab with (fx := mass (cl_nodes p)) (fs := mass (ss_nodes s)) (fy := mass (cl_nodes q)); auto.
    - rewrite (dset_same ps (ss_id s)).
      + f_equal. apply dset_same. rewrite (Hc q Hq). f_equal. apply tab_ext. intros a Ha.
        unfold mass at 2. rewrite (M_marg h _ _ trt_nd trt_PT); auto using clique_vlist. fold (mass (ss_nodes s) a).
        unfold qquot, is_zero. destruct (qeqb 0 (mass (ss_nodes s) a)) eqn:E; simpl.
        * apply qeqb_true in E. rewrite Qcmult_0_r.
          assert (E2 : sums (h_values h) (minus (cl_nodes q) (ss_nodes s)) (mass (cl_nodes q)) a = 0).
          { unfold mass. rewrite (M_marg h _ _ trt_nd trt_PT); auto using clique_vlist. }
          eapply (sums_zero_terms (h_values h) (minus (cl_nodes q) (ss_nodes s))); [| |exact E2| |].
          -- eapply dep_proper. apply M_dep. apply trt_PT.
          -- intros b Hb1 Hb2. apply mass_nonneg. intros v Hv. destruct (in_dec Z.eq_dec v (minus (cl_nodes q) (ss_nodes s))) as [Hi|Hi].
             apply Hb2; auto. rewrite Hb1; auto.
          -- auto.
          -- intros v Hv. apply minus_In in Hv. apply Ha. tauto.
        * apply qeqb_false in E. unfold Qcdiv. rewrite Qcmult_inv_r; auto. unfold mass. ring.
      + rewrite (Hs s Hsp). f_equal. apply tab_ext. intros a _. unfold mass. symmetry. apply M_marg; auto using clique_vlist, trt_nd, trt_PT.
    - intros v Hv. apply (rd_dom _ _ HR), trt_v, (clique_vlist p); auto.
    - apply M_dep, trt_PT.
    - apply M_dep, trt_PT.
  Qed.
End P.

Section Again.
  Context (o : Ord) (j : jtree) (x : clique) (t : rt) (ts : list rt) (Ho : ord_ok o) (HJ : JG j) (HT : trees o j x t ts).
  Context (F : string -> asg -> Qc) (HR : ready j F).
  Notation h := (jt_heap j).

  Lemma again_sub u : forall P, okT u -> NoDup (ids_of u) -> incl (cliques_of u) (cliques_of t) -> incl (seps_of u) (seps_of t) ->
    calibrated j t F P -> 
    collectL h (root u) (kids_of u) P = Ok P /\ distT h P u = Ok P.
  Proof using HT HR HJ.
    induction u as [c kids IH] using rt_ind'. intros P Hok Hids Hc Hs HP. apply okT_inv in Hok. destruct Hok as [H2 H3].
    rewrite distT_eq. simpl root. simpl kids_of. rewrite ids_of_eq in Hids. inversion Hids as [|? ? Hn1 Hn2]; subst.
    assert (Hk : forall s u, In (s, u) kids -> pass_message h P c s (root u) = Ok P /\ pass_message h P (root u) s c = Ok P /\
        collectL h (root u) (kids_of u) P = Ok P /\ distT h P u = Ok P).
    { intros s u Hi. destruct (H3 s u Hi) as [N1 [I1 [I2 Hu]]].
      assert (Hcu : incl (cliques_of u) (cliques_of t)). { intros d Hd. apply Hc. right. apply in_flat_map. exists (s, u); auto. }
      assert (Hsu : incl (s :: seps_of u) (seps_of t)). { intros d Hd. apply Hs. apply in_flat_map. exists (s, u); auto. }
      assert (Hq : NoDup (ss_id s :: ids_of u)).
      { clear - Hi Hn2. induction kids as [|k l IHl]; [destruct Hi|]. change (kids_ids (k :: l)) with ((ss_id (fst k) :: ids_of (snd k)) ++ kids_ids l) in Hn2.
        apply NoDup_app_iff in Hn2. destruct Hi as [->|Hi]; [tauto|]. apply IHl; tauto. }
      inversion Hq as [|? ? Hq1 Hq2]; subst.
      assert (Hcin : In c (cliques_of t)) by (apply Hc; left; auto).
      assert (Hroot : In (root u) (cliques_of t)) by (apply Hcu; destruct u; left; auto).
      assert (Hsin : In s (seps_of t)) by (apply Hsu; left; auto).
      split; [|split].
      - eapply pass_cal; eauto. intros E. apply Hq1. rewrite <- E. apply ids_root.
      - eapply pass_cal; eauto. intros E. apply Hn1. rewrite E. eapply kids_ids_sep; eauto.
      - apply (IH s u Hi); auto. intros d Hd. apply Hsu. right; auto. }
    split.
    - unfold collectL. clear - Hk. induction kids as [|[s u] kids IHk]; auto. simpl.
      destruct (Hk s u (or_introl eq_refl)) as [K1 [K2 [K3 K4]]]. destruct u as [d l]. rewrite collectT_eq. simpl root in *. simpl kids_of in *. rewrite K3.
      cbn [rbind]. rewrite K2. cbn [rbind]. apply IHk. intros; apply Hk; right; auto.
    - unfold distL. clear - Hk. induction kids as [|[s u] kids IHk]; auto. simpl.
      destruct (Hk s u (or_introl eq_refl)) as [K1 [K2 [K3 K4]]]. rewrite K1. cbn [rbind]. rewrite K4. cbn [rbind]. apply IHk. intros; apply Hk; right; auto.
  Qed.

  Lemma again ps : calibrated j t F ps ->
    exists m2 m3, collect o j (ps, []) x = Ok (ps, m2) /\ distribute o j (ps, []) x = Ok (ps, m3).
  Proof using HT HR HJ Ho.
    intros HP. destruct (again_sub t ps) as [E1 E2]; auto using incl_refl.
    { eapply trt_ok; eauto. }
    { eapply trt_ids; eauto. }
    pose proof (trt_cids o j x t ts HJ HT) as Hcids. pose proof (trt_fuel o j x t ts HJ HT) as Hfuel.
    pose proof (tr_root _ _ _ _ _ HT) as Hroot. pose proof (tr_w _ _ _ _ _ HT) as Hw.
    destruct t as [y kids]. simpl in Hroot. subst y. simpl in E1. rewrite distT_eq in E2.
    destruct (collect_tree o j x kids ps ps) as [m2 D1]; auto. destruct (distribute_tree o j x kids ps ps) as [m3 D2]; auto.
    eauto.
  Qed.
End Again.

(** ** propagate *)

Definition first_clique (j : jtree) (x : clique) : Prop := exists l, isort cl_leb (jt_cliques j) = x :: l.
Lemma first_clique_In j x : first_clique j x -> In x (jt_cliques j).
Proof. intros [l E]. apply (Permutation_in _ (isort_perm cl_leb _)). rewrite E. left; auto. Qed.
Lemma first_clique_ex j : jt_cliques j <> [] -> exists x, first_clique j x.
Proof.
  intros Hn. unfold first_clique. destruct (isort cl_leb (jt_cliques j)) as [|x l] eqn:E; eauto. exfalso. apply Hn.
  apply Permutation_nil. rewrite <- E. apply isort_perm.
Qed.

Theorem propagate_ok o j F : ord_ok o -> JG j -> jcount j -> ready j F -> jt_cliques j <> [] ->
  exists x t ts ps, first_clique j x /\ trees o j x t ts /\ propagate o j = Ok (set_jpots j ps) /\
    calibrated j t F ps /\ (forall i, ~ In i (ids_of t) -> dget ps i = dget (jt_pots j) i).
Proof.
  intros Ho HJ Hcount HR Hne. destruct (first_clique_ex j Hne) as [x Hx].
  destruct (trees_exist o j x Ho HJ Hcount (first_clique_In _ _ Hx)) as [t [ts HT]].
  destruct (propagate_from o j x t ts Ho HJ HT F HR) as [ps [m1 [m2 [C1 [[m3 C2] [C3 C4]]]]]].
  exists x, t, ts, ps. split; auto. split; auto. split; auto. destruct Hx as [l El]. unfold propagate. rewrite El, C1. cbn [rbind fst].
  rewrite C2. reflexivity.
Qed.

Theorem propagate_again o j F x t ts ps : ord_ok o -> JG j -> ready j F -> first_clique j x -> trees o j x t ts ->
  calibrated j t F ps -> propagate o (set_jpots j ps) = Ok (set_jpots j ps).
Proof.
  intros Ho HJ HR [l El] HT HC. destruct (again o j x t ts Ho HJ HT F HR ps HC) as [m2 [m3 [E1 E2]]].
  unfold propagate. change (jt_cliques (set_jpots j ps)) with (jt_cliques j). rewrite El.
  change (jt_pots (set_jpots j ps)) with ps.
  assert (Q1 : collect o (set_jpots j ps) (ps, []) x = collect o j (ps, []) x).
  { unfold collect. change (neighboring o (set_jpots j ps)) with (neighboring o j).
    destruct (neighboring o j x); auto. cbn [rbind]. apply foldM_ext. intros st p _. 
    change (walk_fuel (set_jpots j ps)) with (walk_fuel j). generalize (walk_fuel j) as f. intros f.
    assert (G : forall f st a s b, collect_walk o (set_jpots j ps) f st a s b = collect_walk o j f st a s b).
    { clear. induction f as [|f IH]; intros; simpl; auto. change (neighboring o (set_jpots j ps)) with (neighboring o j).
      destruct (neighboring o j b); auto. cbn [rbind]. destruct (mark_new (snd st) a0) as [m todo].
      rewrite (foldM_ext _ (fun st p => collect_walk o j f st b (fst p) (snd p))); auto. }
    intros; apply G. }
  assert (Q2 : distribute o (set_jpots j ps) (ps, []) x = distribute o j (ps, []) x).
  { unfold distribute. change (neighboring o (set_jpots j ps)) with (neighboring o j).
    destruct (neighboring o j x); auto. cbn [rbind]. apply foldM_ext. intros st p _. change (jt_heap (set_jpots j ps)) with (jt_heap j).
    destruct (pass_message (jt_heap j) (fst st) x (fst p) (snd p)); auto. cbn [rbind].
    change (walk_fuel (set_jpots j ps)) with (walk_fuel j). generalize (walk_fuel j) as f. intros f.
    assert (G : forall f st b, distribute_walk o (set_jpots j ps) f st b = distribute_walk o j f st b).
    { clear. induction f as [|f IH]; intros; simpl; auto. change (neighboring o (set_jpots j ps)) with (neighboring o j).
      destruct (neighboring o j b); auto. cbn [rbind]. destruct (mark_new (snd st) a) as [m todo].
      apply foldM_ext. intros st' p _. destruct (pass_message (jt_heap j) (fst st') b (fst p) (snd p)); auto. cbn [rbind]. apply IH. }
    apply G. }
  unfold pots in *. rewrite Q1, E1. cbn [rbind fst]. rewrite Q2, E2. cbn [rbind fst]. reflexivity.
Qed.
