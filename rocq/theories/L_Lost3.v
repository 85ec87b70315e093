(** The tree a save and restore makes, for any network. *)
From Verif Require Import Py M_Graph M_Node M_Pptc M_Serde Spec SpecNet SpecEv SpecRe SpecSer SpecChord SpecPart SpecLost L_Base L_PD L_Sums L_Table L_Tree L_Walk L_Forest L_Root L_Good L_Prop L_Init L_Post L_Read
  L_Ids L_Trans L_Elim L_UG L_Tri L_Moral L_Build L_Exact L_Apply L_Net L_Evid L_Hist L_Claims L_Shape L_Shown L_P1 L_Reapply L_Rebuild L_Serde L_P8 L_Det L_Again L_Part L_Part2 L_Part3 L_Part4 L_Part5 L_Chord L_Chord2 L_Lost L_Lost2.
Open Scope nat_scope.

Lemma sum_split {A} (g : A -> nat) (p : A -> bool) l : list_sum (map g l) = list_sum (map g (filter p l)) + list_sum (map g (filter (fun a => negb (p a)) l)).
Proof. induction l as [|a l IH]; simpl; auto. destruct (p a); simpl; lia. Qed.

Lemma kept_count j : jcount j -> list_sum (map clen (kept j)) <= list_sum (map slen (jt_sepsets j)) + List.length (sof (flat_map cl_nodes (kept j))).
Proof.
  intros H. unfold jcount in H. assert (G : forall U, list_sum (map clen (jt_cliques j)) = list_sum (map clen (kept j)) + list_sum (map clen U) -> (forall c, In c (jt_cliques j) -> In c (kept j) \/ In c U) ->
    list_sum (map clen (kept j)) <= list_sum (map slen (jt_sepsets j)) + List.length (sof (flat_map cl_nodes (kept j)))).
  { intros U E Hu. assert (Hl : List.length (flat_map cl_nodes U) = list_sum (map clen U)). { clear. induction U as [|c U IH]; simpl; auto. rewrite app_length, IH. reflexivity. }
    assert (Hi : List.length (jt_bbn_ids j) <= List.length (sof (flat_map cl_nodes (kept j)) ++ flat_map cl_nodes U)).
    { apply NoDup_incl_length; [apply bbn_ids_NoDup|]. intros x Hx. apply bbn_ids_In in Hx. destruct Hx as [c [Hc Hx]]. apply in_or_app. destruct (Hu c Hc); [left; apply sof_In|right]; apply in_flat_map; eauto. }
    rewrite app_length in Hi. lia. }
  set (p := fun c => existsb (touch c) (jt_sepsets j)). destruct (jt_sepsets j) as [|s l] eqn:Es.
  - apply (G []). { unfold kept. rewrite Es. simpl. lia. } intros c Hc. left. apply kept_yes. auto.
  - assert (Ek : kept j = filter p (jt_cliques j)) by (unfold kept; rewrite Es; reflexivity). apply (G (filter (fun c => negb (p c)) (jt_cliques j))).
    + rewrite Ek. apply sum_split.
    + intros c Hc. rewrite Ek, !filter_In. destruct (p c); auto.
Qed.

Section Back.
  Context (N : net) (nm : Z -> string) (HN : nshape N) (Hnm : NoDup (map nm (vars N))) (j : jtree) (R : ready N nm j) (SV : saveable j) (HT : tight N j) (HF : faithful N j).
  Context (b : bbn) (Hbk : NoDup (dkeys (b_parents b))) (Hbp : forall i, In i (vars N) -> dgets (b_parents b) i = par N i).
  Context (o : Ord) (Ho : ord_ok o).
  Context (f : Z -> bool) (Hf : forall i, In i (vars N) -> f i = true <-> (forall k, In k (vars N) -> solid N k) \/ ~ solid N i).
  Let N' := mkNet (filter f (vars N)) (dom N) (fun i => if f i then par N i else []) (cpt N).
  Let pc (c : clique) : clique := mk_clique (zord o 0 (cl_nodes c)).
  Let ps (s : sepset) : sepset := mk_sepset (pc (ss_left s)) (pc (ss_right s)).

  Lemma back_ready j1 : restored N nm j o j1 -> ready N' nm (set_jpinfo j1 (b_parents b)) /\ saveable j1 /\ tight N' j1 /\ faithful N' j1.
  Proof using HN R SV HT HF Hbp Ho Hf.
    intros [G1 [G2 [G3 [G4 G5]]]]. fold pc in G2. change (jt_sepsets j1 = map ps (jt_sepsets j)) in G3.
    pose proof (rd_JG _ _ _ R) as HJ. pose proof (rd_ids _ _ _ R) as Hids. pose proof (rd_fam _ _ _ R) as Hfam.
    assert (Pn : forall c x, In x (cl_nodes (pc c)) <-> In x (cl_nodes c)) by (intros c x; exact (pc_nodes o Ho c x)).
    assert (Pi : forall c, In c (jt_cliques j) -> cl_id (pc c) = cl_id c) by (intros c Hc; exact (pc_id o Ho c (proj1 (sv_cl _ SV c Hc)))).
    assert (Pg : forall s, In s (jt_sepsets j) -> sgood (map pc (jt_cliques j)) (ps s) /\ ss_id (ps s) = ss_id s /\ ends (ps s) = ends s /\ slen (ps s) = slen s) by (intros s Hs; exact (ps_good j SV o Ho s Hs)).
    assert (Hki : forall c, In c (kept j) -> In c (jt_cliques j)) by (intros c Hc; apply kept_yes in Hc; tauto).
    assert (Hc : forall c, In c (jt_cliques j1) <-> exists d, In d (kept j) /\ c = pc d).
    { intros c. split.
      - intros H. apply (Permutation_in _ G2) in H. apply in_map_iff in H. destruct H as [d [<- Hd]]. eauto.
      - intros [d [Hd ->]]. apply (Permutation_in _ (Permutation_sym G2)). apply in_map; auto. }
    assert (Kf : forall c i, In c (jt_cliques j) -> In i (cl_nodes c) -> (f i = true <-> In c (kept j))) by (intros c i; apply (keeps_f N j HJ Hids HT HF f Hf)).
    assert (Lv : forall i, In i (vars N') <-> In i (vars N) /\ f i = true) by (intros i; apply (less_vars N f)).
    assert (Hi : forall i, In i (jt_bbn_ids j1) <-> In i (vars N')).
    { intros i. rewrite bbn_ids_In, Lv. split.
      - intros [c [H1 H2]]. apply Hc in H1. destruct H1 as [d [Hd ->]]. rewrite Pn in H2. split; [apply Hids, bbn_ids_In; exists d; auto|]. apply (Kf d i); auto.
      - intros [H1 H2]. apply Hids, bbn_ids_In in H1. destruct H1 as [d [Hd Hid]]. exists (pc d). split; [apply Hc; exists d; split; auto; apply (Kf d i); auto|apply Pn; auto]. }
    assert (Lp : forall i, In i (vars N') -> par N' i = par N i) by (intros i; apply (less_par N f)).
    pose proof (less_nshape N HN j HJ Hids HT HF Hfam f Hf) as HN'. fold N' in HN'.
    assert (Hpath : forall x y, path (sym (is_parent N')) x y <-> x = y \/ (path (sym (is_parent N)) x y /\ f x = true)) by (intros x y; apply (less_path N j HJ Hids HT HF Hfam f Hf)).
    assert (Hsolid : forall i, In i (vars N') -> (solid N' i <-> solid N i)) by (intros i; apply (less_solid N j HJ Hids HT HF Hfam f Hf)).
    destruct HT as [T1 [T2 [T3 T4]]]. split; [|split; [|split]].
    - constructor.
      + destruct G1; constructor; auto.
      + change (jcount j1). unfold jcount. rewrite G3. rewrite (Permutation_list_sum _ _ (Permutation_map clen G2)). rewrite !map_map.
        rewrite (map_ext_in (fun x => slen (ps x)) slen). 2:{ intros s Hs. apply (Pg s Hs). }
        rewrite (map_ext (fun x => clen (pc x)) clen). 2:{ intros c. unfold clen. simpl. apply Permutation_length, Ho. }
        rewrite (Permutation_length (l := jt_bbn_ids j1) (l' := sof (flat_map cl_nodes (kept j)))).
        * apply kept_count, (rd_cnt _ _ _ R).
        * apply NoDup_Permutation; [apply bbn_ids_NoDup|apply sof_NoDup|]. intros i. rewrite bbn_ids_In, sof_In, in_flat_map. split.
          -- intros [c [H1 H2]]. apply Hc in H1. destruct H1 as [d [Hd ->]]. rewrite Pn in H2. eauto.
          -- intros [d [H1 H2]]. exists (pc d). split; [apply Hc; eauto|apply Pn; auto].
      + exact Hi.
      + change (jt_cliques j1 <> []). intros E. assert (Q : forall i, ~ In i (jt_bbn_ids j1)) by (intros i Q; apply bbn_ids_In in Q; rewrite E in Q; destruct Q as [c [[] _]]).
        pose proof (ns_some _ HN') as S. destruct (vars N') as [|v vs] eqn:Ev; [congruence|]. apply (Q v), Hi. left; auto.
      + intros i Hiv. rewrite (Lp i Hiv). simpl. apply Hbp. apply Lv in Hiv. tauto.
      + intros i Hiv. exists (new_node i (nm i) (dom N i) (cpt N i)). simpl. rewrite G5. split; [|repeat split; auto; discriminate].
        apply dget_In_NoDup. { unfold dkeys. rewrite map_map. simpl. rewrite map_id. apply bbn_ids_NoDup. } apply in_map_iff. exists i. split; auto. apply Hids. apply Lv in Hiv. tauto.
      + intros i Hiv. rewrite (Lp i Hiv). apply Lv in Hiv. destruct Hiv as [Hiv Ei]. destruct (Hfam i Hiv) as [c [H1 H2]]. exists (pc c). split; [apply Hc; exists c; split; auto; apply (Kf c i); auto; apply H2, in_or_app; simpl; auto|]. intros x Hx. apply Pn. auto.
    - constructor; auto.
      + intros s Hs. rewrite G3 in Hs. apply in_map_iff in Hs. destruct Hs as [t [<- Ht]]. destruct (jg_ends _ HJ t Ht) as [E1 [E2 _]]. destruct (Pg t Ht) as [[a [d [E [Ha [Hd Hx]]]]] _].
        assert (Kl : In (ss_left t) (kept j)). { apply kept_yes. split; auto. right. unfold lone. rewrite <- not_true_iff_false. intros Q; apply Q. apply existsb_exists. exists t. split; auto. unfold touch. rewrite eqb_refl. auto. }
        assert (Kr : In (ss_right t) (kept j)). { apply kept_yes. split; auto. right. unfold lone. rewrite <- not_true_iff_false. intros Q; apply Q. apply existsb_exists. exists t. split; auto. unfold touch. rewrite eqb_refl. apply orb_true_r. }
        exists a, d. split; auto. unfold ps in E. pose proof (f_equal ss_left E) as El. pose proof (f_equal ss_right E) as Er. rewrite !mk_sepset_left in El. rewrite !mk_sepset_right in Er.
        split; [apply Hc; exists (ss_left t); auto|]. split; auto. apply Hc; exists (ss_right t); auto.
      + intros c H. apply Hc in H. destruct H as [d [Hd ->]]. split; auto. apply (pc_ok o Ho). apply (sv_cl _ SV d (Hki d Hd)).
      + rewrite G3. pose proof (ps_forest j SV o Ho) as Q. change (map ends (rev (map ps (jt_sepsets j))) = map ends (rev (jt_sepsets j))) in Q. rewrite Q. apply (sv_forest _ SV).
    - split; [|split; [|split]].
      + intros c u v H Hu Hv. apply Hc in H. destruct H as [d [Hd ->]]. rewrite Pn in Hu, Hv. apply Hpath. right. split; [apply (T1 d); auto|]. apply (Kf d u); auto.
      + intros s Hs. rewrite G3 in Hs. apply in_map_iff in Hs. destruct Hs as [t [<- Ht]]. pose proof (T2 t Ht) as Q. destruct (Pg t Ht) as [_ [_ [_ El]]]. unfold slen in El.
        intros E. rewrite E in El. destruct (ss_nodes t); [auto|discriminate].
      + intros c H. apply Hc in H. destruct H as [d [Hd ->]]. pose proof (T3 d (Hki d Hd)) as Q. destruct (cl_nodes d) as [|w ws] eqn:Ew; [congruence|]. assert (Hw : In w (cl_nodes (pc d))) by (apply Pn; rewrite Ew; left; auto).
        intros E. rewrite E in Hw. destruct Hw.
      + intros c d H1 H2 HI. apply Hc in H1. apply Hc in H2. destruct H1 as [c' [H1 ->]], H2 as [d' [H2 ->]]. f_equal. apply T4; auto. intros x Hx. apply Pn, HI, Pn, Hx.
    - intros c i H Hic. apply Hc in H. destruct H as [d [Hd ->]]. rewrite Pn in Hic. assert (Hiv : In i (vars N')). { apply Lv. split; [apply Hids, bbn_ids_In; exists d; auto|apply (Kf d i); auto]. }
      rewrite (Hsolid i Hiv). rewrite <- (HF d i (Hki d Hd) Hic). unfold lone. rewrite G3.
      assert (E : existsb (touch (pc d)) (map ps (jt_sepsets j)) = existsb (touch d) (jt_sepsets j)).
      { assert (X : forall l, incl l (jt_sepsets j) -> existsb (touch (pc d)) (map ps l) = existsb (touch d) l).
        { induction l as [|s l IH]; intros Hl; auto. simpl. rewrite IH by (intros y Hy; apply Hl; right; auto). f_equal. destruct (Pg s (Hl s (or_introl eq_refl))) as [_ [_ [En _]]]. unfold ends in En. injection En as E1 E2. unfold touch. rewrite E1, E2, (Pi d (Hki d Hd)). reflexivity. }
        apply X, incl_refl. }
      rewrite E. tauto.
  Qed.
End Back.

(** ** the clique each table goes to *)
Lemma reinit_mclq j j' : pot_reinit j = Ok j' -> forall i, option_map n_mclq (dget (jt_heap j') i) = option_map n_mclq (dget (jt_heap j) i).
Proof.
  unfold pot_reinit. intros E. destruct (bbn_node_and_parents j) as [nps|]; cbn [rbind] in E; [|discriminate]. destruct (mapM _ nps) as [ps|]; cbn [rbind] in E; [|discriminate]. injection E as <-. intros i.
  cbn [jt_heap set_jheap]. rewrite fold_mclq; auto. intros h a i'. apply hupd_mclq; auto.
Qed.
Lemma serde_placed N nm o j j' : nshape N -> NoDup (map nm (vars N)) -> ord_ok o -> ready N nm j -> (forall i n, dget (jt_heap j) i = Some n -> n_mclq n = None) ->
  apply_from_serde o j = Ok j' -> placed N j'.
Proof.
  intros HN Hnm Ho R Hfr E. unfold apply_from_serde in E. destruct (reinit_net N nm HN _ (listen_ready _ _ _ R)) as [j1 [E1 [J1 [C1 [V1 [D1 [_ D2]]]]]]]. rewrite E1 in E. cbn [rbind] in E.
  destruct (infer_net N nm (ns_nd _ HN) Hnm o j1 no_evidence Ho J1) as [j2 [x [t [ts [E2 [O _]]]]]].
  { intros i Hi. left. rewrite V1. auto. } { intros i v _ _. unfold no_evidence. discriminate. }
  unfold infer in E2. destruct (initialize j1) as [j3|] eqn:E3; cbn [rbind] in E2, E; [|discriminate]. rewrite E2 in E. cbn [rbind] in E. injection E as <-.
  assert (K : keeps j1 j2). { eapply (keeps_infer o). unfold infer. rewrite E3. exact E2. }
  destruct (oc_fill _ _ _ _ _ _ _ _ _ O) as [_ Fi]. intros i Hi. destruct (assigned_first N nm j1 i J1 Hi) as [c [H1 H2]].
  { intros n Hn. pose proof (reinit_mclq _ _ E1 i) as Q. rewrite Hn in Q. simpl in Q. destruct (dget (jt_heap j) i) as [m|] eqn:Em; simpl in Q; [|discriminate]. rewrite (Hfr i m Em) in Q. congruence. }
  exists c. split. { unfold jt_cliques. cbn [jt_nodes set_jlistener]. rewrite (kp_n _ _ K). exact H1. }
  apply (jn_ids _ _ _ J1) in Hi. unfold homed. change (jt_heap (set_jlistener j2 true)) with (jt_heap j2). rewrite Fi, (proj2 (mem_In _ _) Hi).
  destruct (hg_node _ _ _ _ (jn_hg _ _ _ J1) i Hi) as [n [En' _]]. rewrite En'. simpl. rewrite H2. apply String.eqb_refl.
Qed.
