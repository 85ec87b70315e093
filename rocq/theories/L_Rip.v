(** Running intersection and acyclicity of well-formed join trees. *)
From Verif Require Import Py M_Graph M_Node M_Pptc Spec SpecNet L_Base L_PD L_Sums L_Table L_Tree L_Walk L_Forest L_Root L_Good.

Lemma forest_no_cycle {K} (es : list (K * K)) : forest es -> no_cycle es.
Proof.
  induction es as [|[a b] es IH]; intros Hf es1 u v es2 E Hp; [destruct es1; discriminate|]. apply forest_inv in Hf. destruct Hf as [Hf Hn].
  destruct es1 as [|p es1]; simpl in E; inversion E; subst. { apply Hn. exact Hp. }
  apply (IH Hf es1 u v es2); auto. change (conn (((a, b) :: es1) ++ es2) u v) in Hp. simpl in Hp. apply conn_cons in Hp.
  assert (Hu : conn (es1 ++ (u, v) :: es2) u v) by (apply conn_edge, in_or_app; simpl; auto).
  assert (Hm : forall x y, conn (es1 ++ es2) x y -> conn (es1 ++ (u, v) :: es2) x y) by (intros x y; apply conn_mono; intros z Hz; apply in_or_app; apply in_app_or in Hz; simpl; tauto).
  destruct Hp as [Hp|[[H1 H2]|[H1 H2]]]; auto; exfalso; apply Hn.
  - eapply conn_trans; [apply conn_sym, Hm, H1|]. eapply conn_trans; [exact Hu|]. apply conn_sym; auto.
  - eapply conn_trans; [apply Hm, H2|]. eapply conn_trans; [apply conn_sym, Hu|]. auto.
Qed.

Lemma no_cycle_perm {K} (es es' : list (K * K)) : Permutation es es' -> no_cycle es -> no_cycle es'.
Proof.
  intros P H es1 u v es2 -> Hp. assert (Hi : In (u, v) es). { apply (Permutation_in _ (Permutation_sym P)), in_or_app; simpl; auto. }
  apply in_split in Hi. destruct Hi as [a [b ->]]. apply (H a u v b eq_refl). apply Permutation_app_inv in P.
  eapply path_mono; [|exact Hp]. intros x y [Hx|Hx]; [left|right]; apply (Permutation_in _ (Permutation_sym P)); auto.
Qed.

Section Rip.
  Context (v : Z) (ss : list sepset).
  (** joined by a separation set that contains [v] *)
  Definition via (x y : string) : Prop := exists s, In s ss /\ In v (ss_nodes s) /\ (ends s = (x, y) \/ ends s = (y, x)).
  Definition vconn := path via.
  Lemma via_sym x y : via x y -> via y x.
  Proof. intros [s [H1 [H2 H3]]]. exists s. tauto. Qed.
  Lemma vconn_sym x y : vconn x y -> vconn y x.
  Proof. apply path_sym. apply via_sym. Qed.

  Lemma rip_tree t : okT t -> joinsT t -> incl (seps_of t) ss -> forall S, incl S (cl_nodes (root t)) -> NoDup (el S t) -> (In v S -> ~ In v (el S t)) ->
    forall c d, In c (cliques_of t) -> In d (cliques_of t) -> In v (cl_nodes c) -> In v (cl_nodes d) -> vconn (cl_id c) (cl_id d).
  Proof.
    induction t as [r kids IH] using rt_ind'. intros Hok Hj Hss S HS HN Hv. destruct (okT_inv _ _ Hok) as [_ Hk]. simpl root in *. rewrite el_eq in *.
    assert (Hj' := joinsT_inv _ _ Hj). apply NoDup_app_iff in HN. destruct HN as [_ [HN HD]].
    assert (Hkn : forall s t, In (s, t) kids -> NoDup (el (ss_nodes s) t)).
    { intros s t Hi. clear - HN Hi. induction kids as [|[s' t'] kids IHk]; [destruct Hi|]. unfold elL in HN. simpl in HN. apply NoDup_app_iff in HN. destruct Hi as [E|Hi]; [inversion E; subst; tauto|apply IHk; tauto]. }
    assert (Hks : forall s t, In (s, t) kids -> incl (seps_of t) ss).
    { intros s t Hi x Hx. apply Hss. rewrite seps_eq. unfold sepsL. apply in_flat_map. exists (s, t). split; auto. right; auto. }
    assert (Hin : forall s t x, In (s, t) kids -> In x (el (ss_nodes s) t) -> In x (elL kids)) by (intros s t x Hi Hx; unfold elL; apply in_flat_map; exists (s, t); auto).
    destruct (in_dec Z.eq_dec v (cl_nodes r)) as [Hr|Hr].
    - (* every clique with v is connected to the root *)
      assert (Hno : ~ In v (elL kids)). { intros H. destruct (in_dec Z.eq_dec v S) as [HvS|HvS]; [apply (Hv HvS), in_or_app; auto|]. apply (HD v); auto. apply minus_In; auto. }
      assert (G : forall c, In c (cliques_of (RN r kids)) -> In v (cl_nodes c) -> vconn (cl_id c) (cl_id r)).
      { intros c Hc Hvc. rewrite cliques_eq in Hc. destruct Hc as [<-|Hc]; [constructor|]. unfold cliquesL in Hc. apply in_flat_map in Hc. destruct Hc as [[s t] [Hi Hc]]. simpl in Hc.
        destruct (Hk s t Hi) as [N1 [I1 [I2 Ht]]]. destruct (Hj' s t Hi) as [Js Jt].
        destruct (el_cover t Ht (ss_nodes s) c v Hc Hvc) as [Hs|He]; [|exfalso; apply Hno; eapply Hin; eauto].
        apply path_trans with (cl_id (root t)).
        - apply (IH s t Hi Ht Jt (Hks s t Hi) (ss_nodes s) I2 (Hkn s t Hi)); auto. intros _ He. apply Hno. eapply Hin; eauto. apply root_In.
        - apply path_one. exists s. split; [apply Hss; rewrite seps_eq; unfold sepsL; apply in_flat_map; exists (s, t); split; auto; left; auto|]. split; auto.
          unfold ends. destruct Js as [[-> ->]|[-> ->]]; auto. }
      intros c d Hc Hd Hvc Hvd. apply path_trans with (cl_id r); [apply G; auto|apply vconn_sym, G; auto].
    - intros c d Hc Hd Hvc Hvd. rewrite cliques_eq in Hc, Hd. destruct Hc as [<-|Hc]; [tauto|]. destruct Hd as [<-|Hd]; [tauto|].
      unfold cliquesL in Hc, Hd. apply in_flat_map in Hc. apply in_flat_map in Hd. destruct Hc as [[s t] [Hi Hc]], Hd as [[s' t'] [Hi' Hd]]. simpl in Hc, Hd.
      destruct (Hk s t Hi) as [N1 [I1 [I2 Ht]]]. destruct (Hk s' t' Hi') as [N1' [I1' [I2' Ht']]].
      destruct (el_cover t Ht (ss_nodes s) c v Hc Hvc) as [Hs|He]; [exfalso; auto|]. destruct (el_cover t' Ht' (ss_nodes s') d v Hd Hvd) as [Hs|He']; [exfalso; auto|].
      assert (E : (s, t) = (s', t')).
      { clear - HN Hi Hi' He He'. induction kids as [|p kids IHk]; [destruct Hi|]. unfold elL in HN. simpl in HN. apply NoDup_app_iff in HN. destruct HN as [_ [H2 H3]].
        assert (Hin : forall s t, In (s, t) kids -> In v (el (ss_nodes s) t) -> In v (elL kids)) by (intros s0 t0 Hi0 Hx; unfold elL; apply in_flat_map; exists (s0, t0); auto).
        destruct Hi as [->|Hi], Hi' as [E|Hi']; auto.
        - exfalso. apply (H3 v He). eapply Hin; eauto.
        - subst p. exfalso. apply (H3 v He'). eapply Hin; eauto. }
      inversion E; subst s' t'. destruct (Hj' s t Hi) as [Js Jt].
      apply (IH s t Hi Ht Jt (Hks s t Hi) (ss_nodes s) I2 (Hkn s t Hi)); auto.
  Qed.
End Rip.

Theorem rip o j x t ts v : trees o j x t ts -> forall c d, In c (jt_cliques j) -> In d (jt_cliques j) -> In v (cl_nodes c) -> In v (cl_nodes d) ->
  path (fun a b => exists s, In s (jt_sepsets j) /\ In v (ss_nodes s) /\ (ends s = (a, b) \/ ends s = (b, a))) (cl_id c) (cl_id d).
Proof.
  intros HT c d Hc Hd Hvc Hvd. pose proof (tr_cl _ _ _ _ _ HT) as Pc. pose proof (tr_ss _ _ _ _ _ HT) as Ps.
  apply (Permutation_in _ (Permutation_sym Pc)) in Hc. apply (Permutation_in _ (Permutation_sym Pc)) in Hd. unfold tcliques in Hc, Hd.
  apply in_flat_map in Hc. apply in_flat_map in Hd. destruct Hc as [t1 [H1 Hc]], Hd as [t2 [H2 Hd]].
  pose proof (tr_ok _ _ _ _ _ HT) as Hok. pose proof (tr_j _ _ _ _ _ HT) as Hj. rewrite Forall_forall in Hok, Hj.
  assert (V1 := vlist_cover t1 c v (Hok _ H1) Hc Hvc). assert (V2 := vlist_cover t2 d v (Hok _ H2) Hd Hvd). pose proof (tr_nd _ _ _ _ _ HT) as ND.
  assert (E : t1 = t2 /\ NoDup (vlist t1)).
  { clear - ND H1 H2 V1 V2. induction (t :: ts) as [|a l IH]; [destruct H1|]. simpl in ND. apply NoDup_app_iff in ND. destruct ND as [Na [Nl D]].
    destruct H1 as [->|H1], H2 as [E|H2]; try (subst a); auto.
    - exfalso. apply (D v V1). apply in_flat_map. eauto.
    - exfalso. apply (D v V2). apply in_flat_map. eauto. }
  destruct E as [<- NV]. apply (rip_tree v (jt_sepsets j) t1) with (S := []); auto.
  - intros s Hs. apply (Permutation_in _ Ps). unfold tseps. apply in_flat_map. eauto.
  - intros y [].
  - rewrite el_split, minus_nil. auto.
Qed.
