(** The size of a join tree after any history. *)
From Verif Require Import Py M_Graph M_Node M_Pptc M_Round Spec SpecNet SpecEv SpecRound SpecSize L_Base L_PD L_Table L_Tree L_Walk L_Post L_Forest L_Root L_Good L_Elim L_Init L_Exact L_Apply L_Build L_Net L_Claims L_Evid L_Hist L_Shape L_Shown L_P1 L_Door L_Reapply L_Part L_Part2 L_Round L_Round2 L_Round3 L_Round4 L_Size.
Open Scope nat_scope.

Section Count.
  Context (N : net) (nm : Z -> string) (HN : nshape N) (j : jtree) (HJ : JG j) (HT : tight N j).
  Context (Hids : forall i, In i (jt_bbn_ids j) <-> In i (vars N)) (Hfam : forall i, In i (vars N) -> exists c, In c (jt_cliques j) /\ incl (par N i ++ [i]) (cl_nodes c)).
  Context (Hrip : forall v c d, In c (jt_cliques j) -> In d (jt_cliques j) -> In v (cl_nodes c) -> In v (cl_nodes d) -> conn (map ends (jt_sepsets j)) (cl_id c) (cl_id d)).
  Lemma path_conn u v : path (sym (is_parent N)) u v -> forall c d, In c (jt_cliques j) -> In d (jt_cliques j) -> In u (cl_nodes c) -> In v (cl_nodes d) -> conn (map ends (jt_sepsets j)) (cl_id c) (cl_id d).
  Proof using Hfam Hrip.
    induction 1 as [u|u w v Hs Hw IH]; intros c d Hc Hd Hu Hv; [eapply Hrip; eauto|].
    assert (Hk : exists K, In K (jt_cliques j) /\ In u (cl_nodes K) /\ In w (cl_nodes K)).
    { assert (Hone : forall p q, is_parent N p q -> exists K, In K (jt_cliques j) /\ In p (cl_nodes K) /\ In q (cl_nodes K)).
      { intros p q [Hq Hpq]. destruct (Hfam q Hq) as [K [HK Hin]]. exists K. split; auto. split; apply Hin, in_or_app; simpl; auto. }
      destruct Hs as [Hs|Hs]; apply Hone in Hs; destruct Hs as [K [H1 [H2 H3]]]; exists K; auto. }
    destruct Hk as [K [HK [HuK HwK]]]. eapply conn_trans; [eapply (Hrip u c K); auto|apply IH; auto].
  Qed.
  Lemma conn_path a b : conn (map ends (jt_sepsets j)) a b -> forall c d u v, In c (jt_cliques j) -> In d (jt_cliques j) -> cl_id c = a -> cl_id d = b -> In u (cl_nodes c) -> In v (cl_nodes d) -> path (sym (is_parent N)) u v.
  Proof using HJ HT.
    assert (Inj : forall c d, In c (jt_cliques j) -> In d (jt_cliques j) -> cl_id c = cl_id d -> c = d). { intros c d Hc Hd E. pose proof (jg_get_c j HJ c Hc) as E1. pose proof (jg_get_c j HJ d Hd) as E2. rewrite E, E2 in E1. inversion E1; auto. }
    destruct HT as [T1 [T2 _]]. unfold conn. induction 1 as [a|a w b Hs Hw IH]; intros c d u v Hc Hd Ea Eb Hu Hv.
    - assert (c = d) by (apply Inj; auto; congruence). subst d. apply (T1 c); auto.
    - assert (Hk : exists e x, In e (jt_cliques j) /\ cl_id e = w /\ In x (cl_nodes c) /\ In x (cl_nodes e)).
      { destruct Hs as [Hs|Hs]; apply in_map_iff in Hs; destruct Hs as [s [Es Hs]]; unfold ends in Es; inversion Es as [[Q1 Q2]]; destruct (jg_ends _ HJ s Hs) as [L1 [L2 _]]; destruct (jg_ss _ HJ s Hs) as [_ [I1 I2]]; pose proof (T2 s Hs) as Hne; destruct (ss_nodes s) as [|x l]; try congruence.
        - exists (ss_right s), x. assert (c = ss_left s) by (apply Inj; auto; congruence). subst c. repeat split; auto; [apply I1|apply I2]; left; auto.
        - exists (ss_left s), x. assert (c = ss_right s) by (apply Inj; auto; congruence). subst c. repeat split; auto; [apply I2|apply I1]; left; auto. }
      destruct Hk as [e [x [He [Ew [Hx1 Hx2]]]]]. apply path_trans with x; [apply (T1 c); auto|]. apply (IH e d x v); auto.
  Qed.
  (** one tree per part of the network *)
  Lemma parts_count R : NoDup R -> incl R (vars N) -> (forall v, In v (vars N) -> exists r, In r R /\ path (sym (is_parent N)) v r) -> (forall r r', In r R -> In r' R -> path (sym (is_parent N)) r r' -> r = r') ->
    List.length (jt_sepsets j) + List.length R = List.length (jt_cliques j).
  Proof using HN HJ HT Hids Hfam Hrip.
    intros R1 R2 R3 R4. destruct (jg_forest _ HJ) as [es [P F]].
    assert (Hce : forall a b, conn (map ends es) a b <-> conn (map ends (jt_sepsets j)) a b). { intros a b. split; apply conn_mono; intros p; apply Permutation_in; apply Permutation_map; auto. symmetry; auto. }
    destruct (labelling (map cl_id (jt_cliques j)) (map ends es) (cl_ids_nd j HJ)) as [lab [L0 [_ L]]]. { intros u v H. apply in_map_iff in H. destruct H as [s [E Hs]]. unfold ends in E. inversion E; subst. apply (Permutation_in _ P) in Hs. destruct (jg_ends _ HJ s Hs) as [A1 [A2 _]]. split; apply in_map; auto. }
    specialize (L F). rewrite !map_length, (Permutation_length P) in L. assert (G : classes (map cl_id (jt_cliques j)) lab = List.length R); [|lia].
    assert (Hcl : forall v, In v (vars N) -> exists c, In c (jt_cliques j) /\ In v (cl_nodes c)). { intros v Hv. destruct (Hfam v Hv) as [c [Hc Hi]]. exists c. split; auto. apply Hi. apply in_or_app. simpl. auto. }
    assert (Hpick : exists Cs, Forall2 (fun r c => In c (jt_cliques j) /\ In r (cl_nodes c)) R Cs).
    { clear R1 R3 R4. induction R as [|r R IH]. { exists []. constructor. } destruct IH as [Cs HC]. { intros x Hx. apply R2. right; auto. } destruct (Hcl r (R2 r (or_introl eq_refl))) as [c Hc]. exists (c :: Cs). constructor; auto. }
    destruct Hpick as [Cs HC]. unfold classes. rewrite (F2_length _ _ _ HC). rewrite <- (map_length (fun c => lab (cl_id c)) Cs). apply Permutation_length. apply NoDup_Permutation.
    - apply NoDup_nodup.
    - clear R3. revert R1 R2 R4. induction HC as [|r c R Cs [H1 H2] HC IH]; intros R1 R2 R4; [constructor|]. inversion R1 as [|? ? N1 N2]; subst. simpl. constructor.
      + intros Hin. apply in_map_iff in Hin. destruct Hin as [d [Ed Hd]]. assert (Q : exists r', In r' R /\ In d (jt_cliques j) /\ In r' (cl_nodes d)). { clear - HC Hd. induction HC as [|x y R Cs [A1 A2] HC IH]; [destruct Hd|]. destruct Hd as [<-|Hd]. { exists x. simpl. auto. } destruct (IH Hd) as [r' [B1 B2]]. exists r'. split; auto. right; auto. }
        destruct Q as [r' [Q1 [Q2 Q3]]]. apply N1. replace r with r'; auto. symmetry. apply R4; simpl; auto. apply L0, Hce in Ed. apply psym. apply (conn_path _ _ Ed d c r' r); auto.
      + apply IH; auto. { intros x Hx. apply R2; right; auto. } intros x y Hx Hy. apply R4; right; auto.
    - intros x. rewrite nodup_In. split; intros Hx.
      + apply in_map_iff in Hx. destruct Hx as [a [<- Ha]]. apply in_map_iff in Ha. destruct Ha as [c [<- Hc]]. destruct HT as [_ [_ [T3 _]]]. pose proof (T3 c Hc) as Hne. destruct (cl_nodes c) as [|v l] eqn:Ec; [congruence|]. assert (Hv : In v (cl_nodes c)) by (rewrite Ec; left; auto).
        assert (Vv : In v (vars N)). { apply Hids. unfold jt_bbn_ids. apply sof_In. apply in_flat_map. eauto. } destruct (R3 v Vv) as [r [Hr Hp]]. assert (Q : exists d, In d Cs /\ In d (jt_cliques j) /\ In r (cl_nodes d)). { clear - HC Hr. induction HC as [|x y R Cs [A1 A2] HC IH]; [destruct Hr|]. destruct Hr as [->|Hr]. { exists y. simpl. auto. } destruct (IH Hr) as [d [B1 B2]]. exists d. split; auto. right; auto. }
        destruct Q as [d [Q1 [Q2 Q3]]]. apply in_map_iff. exists d. split; auto. apply L0, Hce. apply (path_conn r v); auto. apply psym; auto.
      + apply in_map_iff in Hx. destruct Hx as [d [<- Hd]]. apply in_map. apply in_map. clear - HC Hd. induction HC as [|x y R Cs [A1 A2] HC IH]; [destruct Hd|]. destruct Hd as [<-|Hd]; auto.
  Qed.
End Count.

(** every network has such a list *)
Lemma reps_of {A} (d : forall x y : A, {x = y} + {x <> y}) (lab : A -> A) l : NoDup l -> exists R, NoDup R /\ incl R l /\ (forall v, In v l -> exists r, In r R /\ lab v = lab r) /\ forall r r', In r R -> In r' R -> lab r = lab r' -> r = r'.
Proof.
  induction l as [|x l IH]; intros Hn. { exists []. repeat split; try constructor; try (intros x []). intros r r' []. }
  inversion Hn as [|? ? H1 H2]; subst. destruct (IH H2) as [R [R1 [R2 [R3 R4]]]]. destruct (in_dec d (lab x) (map lab R)) as [Hin|Hout].
  - exists R. apply in_map_iff in Hin. destruct Hin as [r [Er Hr]]. repeat split; auto. { intros y Hy. right; auto. } intros v [<-|Hv]; eauto.
  - exists (x :: R). repeat split.
    + constructor; auto.
    + intros y [<-|Hy]; [left; auto|right; auto].
    + intros v [<-|Hv]. { exists x. split; auto. left; auto. } destruct (R3 v Hv) as [r [A1 A2]]. exists r. split; auto. right; auto.
    + intros r r' [<-|Hr] [<-|Hr'] E; auto; exfalso; apply Hout; apply in_map_iff; [exists r'|exists r]; auto.
Qed.
Lemma one_each_some N : nshape N -> exists R, one_each N R.
Proof.
  intros HN. set (es := flat_map (fun i => map (fun p => (p, i)) (par N i)) (vars N)).
  assert (He : forall u v, In (u, v) es <-> is_parent N u v).
  { intros u v. unfold es, is_parent. rewrite in_flat_map. split. { intros [i [Hi H]]. apply in_map_iff in H. destruct H as [p [E Hp]]. inversion E; subst. auto. } intros [H1 H2]. exists v. split; auto. apply in_map_iff. eauto. }
  assert (Hc : forall x y, conn es x y <-> path (sym (is_parent N)) x y). { intros x y. unfold conn. split; induction 1 as [x|x w y H K IH]; try constructor; apply path_step with w; auto; destruct H as [H|H]; [left|right|left|right]; apply He; auto. }
  destruct (labelling (vars N) es (ns_nd _ HN)) as [lab [L0 _]]. { intros u v H. apply He in H. destruct H as [_ H]. apply (ns_ends _ HN _ _ H). }
  destruct (reps_of Z.eq_dec lab (vars N) (ns_nd _ HN)) as [R [R1 [R2 [R3 R4]]]]. exists R. split; auto. split; auto. split.
  - intros v Hv. destruct (R3 v Hv) as [r [A1 A2]]. exists r. split; auto. apply Hc, L0; auto.
  - intros r r' Hr Hr' Hp. apply R4; auto. apply L0, Hc; auto.
Qed.

Theorem c91 ops o h : well_shaped ops -> ord_ok o -> valid_history (net_of ops) h -> let N := net_of ops in
  exists j, session o ops h = Ok j /\ 1 <= List.length (jt_cliques j) <= List.length (vars N) /\
    (forall R, one_each N R -> List.length (jt_sepsets j) + List.length R = List.length (jt_cliques j)) /\
    (forall c, In c (jt_cliques j) -> exists p, dget (jt_pots j) (cl_id c) = Some p /\ List.length p = size (dom N) (cl_nodes c) /\ size (dom N) (cl_nodes c) <= size (dom N) (vars N)) /\
    (forall s, In s (jt_sepsets j) -> exists p, dget (jt_pots j) (ss_id s) = Some p /\ List.length p = size (dom N) (ss_nodes s) /\ size (dom N) (ss_nodes s) <= size (dom N) (cl_nodes (ss_left s)) /\ size (dom N) (ss_nodes s) <= size (dom N) (cl_nodes (ss_right s))).
Proof.
  intros HW Ho Hh N. pose proof (net_shape ops HW) as HN. fold N in HN. destruct (session_shows ops o h HW Ho Hh) as [b [j [j' [A1 [A2 [A3 [A4 [A5 A6]]]]]]]]. exists j'. split; [eapply session_eq; eauto|].
  destruct (apply_net _ _ _ o (net_shape ops HW) (build_good ops) (ws_names _ HW) Ho (build_fresh ops HW)) as [j0 [j1 [B1 [B2 [_ [_ [B5 [B6 _]]]]]]]]. rewrite A1 in B6. injection B6 as _ Ej.
  assert (En : jt_nodes j' = jt_nodes j0). { rewrite A4, Ej. apply B5. }
  destruct (compile_len _ _ _ o j0 (net_shape ops HW) (build_good ops) Ho B1) as [L1 L2].
  assert (Ec : jt_cliques j' = jt_cliques j0) by (unfold jt_cliques; rewrite En; auto). assert (Es : jt_sepsets j' = jt_sepsets j0) by (unfold jt_sepsets; rewrite En; auto).
  assert (Hdom : forall i, In i (vars N) -> dom N i <> []) by (intros i Hi; apply (ns_dom _ HN i Hi)).
  assert (Hcv : forall c, In c (jt_cliques j0) -> incl (cl_nodes c) (vars N)). { intros c Hc i Hi. apply (jn_ids _ _ _ B2). unfold jt_bbn_ids. apply sof_In. apply in_flat_map. eauto. }
  split; [|split; [|split]].
  - rewrite Ec. split; auto. pose proof (jn_ne _ _ _ B2) as Hne. destruct (jt_cliques j0); [congruence|]. simpl. lia.
  - intros R [R1 [R2 [R3 R4]]]. rewrite Ec, Es. apply (parts_count N HN j0 L2); auto.
    + eapply compile_tight; eauto. apply build_good.
    + apply (jn_ids _ _ _ B2).
    + intros i Hi. apply (hg_fam _ _ _ _ (jn_hg _ _ _ B2)). apply (jn_ids _ _ _ B2); auto.
    + destruct (tree_build ops o HW Ho) as [b' [jb [D1 [_ [_ [D4 _]]]]]]. rewrite A1 in D1. inversion D1; subst b' jb. intros v c d Hc Hd Hv1 Hv2.
      assert (Ec' : jt_cliques j = jt_cliques j0) by (rewrite <- Ec; unfold jt_cliques; rewrite A4; auto). assert (Es' : jt_sepsets j = jt_sepsets j0) by (rewrite <- Es; unfold jt_sepsets; rewrite A4; auto).
      rewrite Ec', Es' in D4. specialize (D4 v c d Hc Hd Hv1 Hv2). unfold conn. clear - D4. induction D4 as [x|x w y [s [S1 [_ S2]]] K IH]; [constructor|]. apply path_step with w; auto. destruct S2 as [S2|S2]; [left|right]; apply in_map_iff; exists s; split; auto.
  - intros c Hc. rewrite Ec in Hc. assert (Hz : size (dom N) (cl_nodes c) <= size (dom N) (vars N)) by (apply size_sub; auto; apply (jg_cl _ L2); auto).
    destruct (sw_live _ _ _ _ _ A3) as [ev Hl]. destruct (lv_from _ _ _ _ Hl) as [o0 [K1 [k0 [k1 [x [t [ts [_ [HJ [O E]]]]]]]]]].
    assert (Ep : jt_pots j' = jt_pots k1). { change (jt_pots j') with (jt_pots (set_jevid j' ev)). rewrite E. reflexivity. }
    assert (Ek : jt_cliques k0 = jt_cliques j0). { rewrite <- Ec. change (jt_cliques j') with (jt_cliques (set_jevid j' ev)). rewrite E. symmetry. apply (same_cl _ _ (oc_same _ _ _ _ _ _ _ _ _ O)). }
    rewrite Ep. destruct (in_dec string_dec (cl_id c) (map cl_id (cliques_of t))) as [Hin|Hout].
    + apply in_map_iff in Hin. destruct Hin as [c' [Ei Hc']]. assert (c' = c). { assert (Hc0 : In c' (jt_cliques j0)). { rewrite <- Ek. apply (Permutation_in _ (tr_cl _ _ _ _ _ (oc_tr _ _ _ _ _ _ _ _ _ O))). unfold tcliques. simpl. apply in_or_app. auto. }
        pose proof (jg_get_c j0 L2 c Hc) as E1. pose proof (jg_get_c j0 L2 c' Hc0) as E2. rewrite Ei, E1 in E2. inversion E2; auto. } subst c'.
      eexists. split; [apply (oc_c _ _ _ _ _ _ _ _ _ O); auto|]. rewrite tab_len. auto.
    + eexists. split; [apply (oc_co _ _ _ _ _ _ _ _ _ O); [rewrite Ek; auto|]|rewrite tab_len; auto]. intros H. apply Hout. apply in_map; auto.
  - intros s Hs. rewrite Es in Hs. destruct (jg_ss _ L2 s Hs) as [S1 [S2 S3]]. destruct (jg_ends _ L2 s Hs) as [S4 [S5 _]].
    assert (Hz1 : size (dom N) (ss_nodes s) <= size (dom N) (cl_nodes (ss_left s))) by (apply size_sub; auto; intros i Hi; apply Hdom; apply (Hcv _ S4); auto).
    assert (Hz2 : size (dom N) (ss_nodes s) <= size (dom N) (cl_nodes (ss_right s))) by (apply size_sub; auto; intros i Hi; apply Hdom; apply (Hcv _ S5); auto).
    destruct (sw_live _ _ _ _ _ A3) as [ev Hl]. destruct (lv_from _ _ _ _ Hl) as [o0 [K1 [k0 [k1 [x [t [ts [_ [HJ [O E]]]]]]]]]].
    assert (Ep : jt_pots j' = jt_pots k1). { change (jt_pots j') with (jt_pots (set_jevid j' ev)). rewrite E. reflexivity. }
    assert (Ek : jt_sepsets k0 = jt_sepsets j0). { rewrite <- Es. change (jt_sepsets j') with (jt_sepsets (set_jevid j' ev)). rewrite E. symmetry. apply (same_ss _ _ (oc_same _ _ _ _ _ _ _ _ _ O)). }
    rewrite Ep. destruct (in_dec string_dec (ss_id s) (map ss_id (seps_of t))) as [Hin|Hout].
    + apply in_map_iff in Hin. destruct Hin as [s' [Ei Hs']]. assert (s' = s). { assert (Hs0 : In s' (jt_sepsets j0)). { rewrite <- Ek. apply (Permutation_in _ (tr_ss _ _ _ _ _ (oc_tr _ _ _ _ _ _ _ _ _ O))). unfold tseps. simpl. apply in_or_app. auto. }
        pose proof (jg_get_s j0 L2 s Hs) as E1. pose proof (jg_get_s j0 L2 s' Hs0) as E2. rewrite Ei, E1 in E2. inversion E2; auto. } subst s'.
      eexists. split; [apply (oc_s _ _ _ _ _ _ _ _ _ O); auto|]. rewrite tab_len. auto.
    + eexists. split; [apply (oc_so _ _ _ _ _ _ _ _ _ O); [rewrite Ek; auto|]|rewrite tab_len; auto]. intros H. apply Hout. apply in_map; auto.
Qed.
