(** Long chains need deep recursion: inference. *)
From Verif Require Import Py M_Graph M_Node M_Pptc M_Depth Spec SpecNet SpecEv SpecGraph SpecChord SpecDepth L_Base L_PD L_Sums L_Table L_Tree L_Walk L_Forest L_Root L_Good L_Prop L_Init L_Post L_Ids L_Trans L_Elim L_UG L_Build L_Exact L_Apply L_Net L_Evid L_Hist L_Claims L_Shape L_Shown L_P1 L_Reapply L_Part L_Part2 L_Size L_Chord2 L_R18 L_Depth L_Depth2.
Open Scope nat_scope.

(** ** the network *)
Lemma chain_nodes n x : In x (mentioned (chain n)) -> exists i, i <= n /\ x = bead i.
Proof.
  unfold mentioned, chain. intros H. apply in_flat_map in H. destruct H as [op [H1 H2]]. apply in_map_iff in H1. destruct H1 as [i [<- Hi]]. apply in_seq in Hi. simpl in H2. destruct H2 as [<-|[<-|[]]]; [exists i|exists (S i)]; split; auto; lia.
Qed.
Lemma chain_vars n v : 1 <= n -> In v (net_vars (chain n)) <-> exists i, i <= n /\ v = Z.of_nat i.
Proof.
  intros Hn. unfold net_vars. rewrite firsts_In, in_map_iff. split.
  - intros [x [<- Hx]]. destruct (chain_nodes n x Hx) as [i [Hi ->]]. exists i. auto.
  - intros [i [Hi ->]]. exists (bead i). split; auto. unfold mentioned, chain. apply in_flat_map. destruct i as [|i].
    + exists (AddEdge (bead 0) (bead 1)). split; [|left; auto]. apply in_map_iff. exists 0. split; auto. apply in_seq. lia.
    + exists (AddEdge (bead i) (bead (S i))). split; [|right; left; auto]. apply in_map_iff. exists i. split; auto. apply in_seq. lia.
Qed.
Lemma chain_node n i : 1 <= n -> i <= n -> node_of (chain n) (Z.of_nat i) = Some (bead i).
Proof.
  intros Hn Hi. unfold node_of. destruct (find _ (mentioned (chain n))) as [x|] eqn:E.
  - apply find_some in E. destruct E as [E1 E2]. destruct (chain_nodes n x E1) as [k [Hk ->]]. apply Z.eqb_eq in E2. cbn in E2. assert (k = i) by lia. subst; auto.
  - assert (Hv : In (Z.of_nat i) (net_vars (chain n))) by (apply chain_vars; eauto). unfold net_vars in Hv. rewrite firsts_In, in_map_iff in Hv. destruct Hv as [x [Ex Hx]]. pose proof (find_none _ _ E x Hx) as Q. cbn beta in Q. rewrite Ex, Z.eqb_refl in Q. discriminate.
Qed.
Lemma chain_par n a b : In a (net_par (chain n) b) <-> exists i, i < n /\ a = Z.of_nat i /\ b = Z.of_nat (S i).
Proof.
  unfold net_par. rewrite firsts_In, in_flat_map. split.
  - intros [op [H1 H2]]. apply in_map_iff in H1. destruct H1 as [i [<- Hi]]. apply in_seq in Hi. unfold into in H2. destruct (Z.eqb_spec (n_id (bead (S i))) b) as [E|E]; [|destruct H2]. destruct H2 as [<-|[]]. exists i. split; [lia|]. split; auto.
  - intros [i [Hi [-> ->]]]. exists (AddEdge (bead i) (bead (S i))). split. { apply in_map_iff. exists i. split; auto. apply in_seq. lia. } unfold into. cbn [n_id bead new_node]. rewrite Z.eqb_refl. left; auto.
Qed.
Lemma chain_shaped n : 1 <= n -> well_shaped (chain n).
Proof.
  intros Hn. constructor.
  - intros x Hx. destruct (chain_nodes n x Hx) as [i [_ ->]]. reflexivity.
  - intros E. assert (H : In (Z.of_nat 0) (net_vars (chain n))) by (apply chain_vars; eauto; exists 0; split; auto; lia). rewrite E in H. destruct H.
  - intros v Hv. apply chain_vars in Hv; auto. destruct Hv as [i [Hi ->]]. unfold net_dom. rewrite chain_node by auto. cbn. split; [|discriminate]. repeat constructor; simpl; intuition discriminate.
  - intros v Hv. apply chain_vars in Hv; auto. destruct Hv as [i [Hi ->]]. unfold net_cpt. rewrite chain_node by auto. cbn [n_probs bead new_node List.length].
    assert (Hl : List.length (net_par (chain n) (Z.of_nat i)) <= 1).
    { assert (Hn' : NoDup (net_par (chain n) (Z.of_nat i))) by (unfold net_par; apply firsts_NoDup). assert (He : forall a, In a (net_par (chain n) (Z.of_nat i)) -> a = (Z.of_nat i - 1)%Z). { intros a Ha. apply chain_par in Ha. destruct Ha as [k [_ [-> E]]]. lia. }
      destruct (net_par (chain n) (Z.of_nat i)) as [|a [|b l]]; simpl; try lia. exfalso. inversion Hn' as [|? ? N1 N2]; subst. apply N1. rewrite (He a), (He b); simpl; auto. }
    assert (Hs : forall l, incl l (net_vars (chain n)) -> size (net_dom (chain n)) l = Nat.pow 2 (List.length l)).
    { induction l as [|x l IH]; intros Hl'; auto. unfold size in *. simpl. rewrite IH by (intros y Hy; apply Hl'; right; auto). assert (Hx : In x (net_vars (chain n))) by (apply Hl'; left; auto). apply chain_vars in Hx; auto. destruct Hx as [k [Hk ->]]. unfold net_dom. rewrite chain_node by auto. cbn. lia. }
    rewrite Hs.
    + rewrite app_length. cbn [List.length]. destruct (List.length (net_par (chain n) (Z.of_nat i))) as [|[|m]]; simpl; lia.
    + intros x Hx. apply in_app_or in Hx. destruct Hx as [Hx|[<-|[]]]; [|apply chain_vars; eauto]. apply chain_par in Hx. destruct Hx as [k [Hk [-> _]]]. apply chain_vars; auto. exists k. split; auto; lia.
  - intros v q Hv Hq. apply chain_vars in Hv; auto. destruct Hv as [i [Hi ->]]. unfold net_cpt in Hq. rewrite chain_node in Hq by auto. cbn [n_probs bead new_node] in Hq. assert (E : q = qfrac 1 2) by (simpl in Hq; intuition). rewrite E. apply Qcle_alt. vm_compute. discriminate.
  - intros v Hv. apply chain_par in Hv. destruct Hv as [i [_ [H1 H2]]]. lia.
  - assert (Hi : forall l, NoDup l -> incl l (net_vars (chain n)) -> NoDup (map (net_name (chain n)) l)).
    { induction l as [|x l IH]; intros HN HI; simpl; constructor; inversion HN as [|? ? N1 N2]; subst.
      - intros H. apply in_map_iff in H. destruct H as [y [Ey Hy]]. assert (Hx : In x (net_vars (chain n))) by (apply HI; left; auto). assert (Hy' : In y (net_vars (chain n))) by (apply HI; right; auto).
        apply chain_vars in Hx; auto. apply chain_vars in Hy'; auto. destruct Hx as [a [Ha ->]], Hy' as [b [Hb ->]]. unfold net_name in Ey. rewrite !chain_node in Ey by auto. cbn in Ey. apply str_of_Z_inj in Ey. rewrite Ey in Hy. auto.
      - apply IH; auto. intros y Hy. apply HI. right; auto. }
    apply Hi; [unfold net_vars; apply firsts_NoDup|apply incl_refl].
Qed.

(** ** its moral graph *)
Lemma chain_moral n x y : 1 <= n -> moral_edge (net_of (chain n)) x y -> (y = x + 1 \/ x = y + 1)%Z.
Proof.
  intros Hn [Hne [i [Hi [Hx Hy]]]]. cbn [par net_of] in *. apply in_app_or in Hx. apply in_app_or in Hy.
  assert (P : forall a, In a (net_par (chain n) i) -> a = (i - 1)%Z). { intros a Ha. apply chain_par in Ha. destruct Ha as [k [_ [-> ->]]]. lia. }
  destruct Hx as [Hx|[<-|[]]], Hy as [Hy|[<-|[]]]; try apply P in Hx; try apply P in Hy; lia.
Qed.
Lemma chain_joined n : 1 <= n -> connected (chain n).
Proof.
  intros Hn. assert (H0 : forall i, i <= n -> path (sym (is_parent (net_of (chain n)))) (Z.of_nat 0) (Z.of_nat i)).
  { induction i as [|i IH]; intros Hi; [constructor|]. apply path_trans with (Z.of_nat i); [apply IH; lia|]. apply path_step with (Z.of_nat (S i)); [|constructor]. left. split; [apply chain_vars; eauto|]. apply chain_par. exists i. split; [lia|]; auto. }
  intros u v Hu Hv. apply chain_vars in Hu; auto. apply chain_vars in Hv; auto. destruct Hu as [a [Ha ->]], Hv as [b [Hb ->]]. apply path_trans with (Z.of_nat 0); [apply psym|]; auto.
Qed.
Lemma max_at (l : list Z) : l <> [] -> exists k, k < List.length l /\ forall i, i < List.length l -> (nth i l 0 <= nth k l 0)%Z.
Proof.
  induction l as [|x l IH]; [congruence|]. intros _. destruct l as [|y l]. { exists 0. split; [simpl; lia|]. intros [|i] Hi; simpl in *; lia. }
  destruct IH as [k [K1 K2]]; [discriminate|]. destruct (Z_le_gt_dec x (nth k (y :: l) 0%Z)) as [H|H].
  - exists (S k). split; [simpl in *; lia|]. intros [|i] Hi; [exact H|]. apply (K2 i). simpl in *; lia.
  - exists 0. split; [simpl; lia|]. intros [|i] Hi; [simpl; lia|]. change (nth (S i) (x :: y :: l) 0%Z) with (nth i (y :: l) 0%Z). specialize (K2 i). change (nth 0 (x :: y :: l) 0%Z) with x. assert (i < List.length (y :: l)) by (simpl in *; lia). specialize (K2 H0). lia.
Qed.
Lemma last_nth {A} (l : list A) x : l <> [] -> last l x = nth (List.length l - 1) l x.
Proof. induction l as [|a l IH]; [congruence|]. intros _. destruct l as [|b l]; auto. change (last (a :: b :: l) x) with (last (b :: l) x). rewrite IH by discriminate. simpl. rewrite Nat.sub_0_r. auto. Qed.
Lemma hd_nth {A} (l : list A) x : hd x l = nth 0 l x.
Proof. destruct l; auto. Qed.
Lemma chain_chordal n V : 1 <= n -> chordal V (moral_edge (net_of (chain n))).
Proof.
  intros Hn c [C1 [_ [C3 C4]]] Hl. exfalso. assert (Hne : c <> []) by (intros ->; simpl in Hl; lia). destruct (max_at c Hne) as [k [K1 K2]].
  set (L := List.length c) in *. set (E := moral_edge (net_of (chain n))) in *. rewrite (last_nth c _ Hne), (hd_nth c) in C4. fold L in C4.
  assert (M : forall p, p < L -> p <> k -> (E (nth p c 0%Z) (nth k c 0%Z) \/ E (nth k c 0%Z) (nth p c 0%Z)) -> (nth p c 0 = nth k c 0 - 1)%Z).
  { intros p Hp Hpk HE. specialize (K2 p Hp). assert (nth p c 0%Z <> nth k c 0%Z). { intros Q. apply Hpk. apply (proj1 (NoDup_nth c 0%Z) C1); auto. } destruct HE as [HE|HE]; apply chain_moral in HE; auto; lia. }
  assert (U : forall p q, p < L -> q < L -> p <> k -> q <> k -> p <> q -> (E (nth p c 0%Z) (nth k c 0%Z) \/ E (nth k c 0%Z) (nth p c 0%Z)) -> (E (nth q c 0%Z) (nth k c 0%Z) \/ E (nth k c 0%Z) (nth q c 0%Z)) -> False).
  { intros p q Hp Hq Hpk Hqk Hpq H1 H2. apply Hpq. apply (proj1 (NoDup_nth c 0%Z) C1); auto. rewrite (M p), (M q); auto. }
  destruct (Nat.eq_dec k 0) as [->|H0].
  - apply (U 1 (L - 1)); try lia; [right; apply (C3 0); lia|left; exact C4].
  - assert (Hp : E (nth (k - 1) c 0%Z) (nth k c 0%Z)). { replace k with (k - 1 + 1) at 2 by lia. apply C3. lia. }
    destruct (Nat.eq_dec k (L - 1)) as [Ek|H1].
    + apply (U (k - 1) 0); try lia; [left; exact Hp|right; rewrite Ek; exact C4].
    + apply (U (k - 1) (k + 1)); try lia; [left; exact Hp|right; apply C3; lia].
Qed.

(** ** a tree whose cliques span little is high *)
Lemma spread t : okT t -> (forall s, In s (seps_of t) -> ss_nodes s <> []) -> (forall c u v, In c (cliques_of t) -> In u (cl_nodes c) -> In v (cl_nodes c) -> (Z.abs (u - v) <= 1)%Z) ->
  forall c u v, In c (cliques_of t) -> In u (cl_nodes (root t)) -> In v (cl_nodes c) -> (Z.abs (u - v) <= Z.of_nat (height t))%Z.
Proof.
  induction t as [r kids IH] using rt_ind'. intros Hok Hs Hc c u v Hin Hu Hv. apply okT_inv in Hok. destruct Hok as [_ Hk]. simpl root in Hu. simpl cliques_of in Hin. destruct Hin as [<-|Hin].
  - assert (Z.abs (u - v) <= 1)%Z by (apply (Hc r); auto; left; auto). pose proof (height_kid r kids). simpl height. lia.
  - apply in_flat_map in Hin. destruct Hin as [[s t] [Hst Hin]]. simpl in Hin. destruct (Hk s t Hst) as [_ [I1 [I2 I3]]].
    assert (Hsin : In s (seps_of (RN r kids))). { simpl. apply in_flat_map. exists (s, t). split; auto. left; auto. }
    pose proof (Hs s Hsin) as Hne. destruct (ss_nodes s) as [|w l] eqn:Ew; [congruence|]. assert (Hw1 : In w (cl_nodes r)) by (apply I1; left; auto). assert (Hw2 : In w (cl_nodes (root t))) by (apply I2; left; auto).
    assert (Q1 : (Z.abs (u - w) <= 1)%Z) by (apply (Hc r); auto; left; auto).
    assert (Q2 : (Z.abs (w - v) <= Z.of_nat (height t))%Z).
    { apply (IH s t Hst I3) with (c := c); auto. - intros s' Hs'. apply Hs. simpl. apply in_flat_map. exists (s, t). split; auto. right; auto. - intros c' a b Hc' Ha Hb. apply (Hc c'); auto. right. apply in_flat_map. exists (s, t). auto. }
    pose proof (height_kid r kids s t Hst). lia.
Qed.

(** ** inference on it *)
Lemma collect_less d o j st x r : collect o j st x = Ok r -> cut (collect_d d o j st x) (Ok r).
Proof.
  intros E. destruct (le_ge_dec d (walk_fuel j)) as [H|H].
  - rewrite <- E. unfold collect, collect_d. apply cut_bind; [left; auto|]. intros nb. apply cut_foldM. intros s p _. apply walk_more; auto.
  - left. revert E. apply cut_ok. unfold collect, collect_d. apply cut_bind; [left; auto|]. intros nb. apply cut_foldM. intros s p _. apply walk_more; auto.
Qed.
Lemma jg_keep j j' : jt_nodes j' = jt_nodes j -> jt_nbrs j' = jt_nbrs j -> JG j -> JG j'.
Proof.
  intros E1 E2 H. assert (Ec : jt_cliques j' = jt_cliques j) by (unfold jt_cliques; rewrite E1; auto). assert (Es : jt_sepsets j' = jt_sepsets j) by (unfold jt_sepsets; rewrite E1; auto).
  destruct H. constructor; unfold jt_neighbors in *; rewrite ?E2, ?Ec, ?Es, ?E1; auto.
Qed.
Theorem chain_deep d n o h : 2 * d + 3 <= n -> ord_ok o -> session_d d o (chain n) h = Err OutOfFuel.
Proof.
  intros Hn Ho. assert (H1 : 1 <= n) by lia. pose proof (chain_shaped n H1) as HW. set (ops := chain n) in *.
  destruct (apply_net _ _ _ o (net_shape ops HW) (build_good ops) (ws_names _ HW) Ho (build_fresh ops HW)) as [j0 [j1 [B1 [B2 [_ [B4 [B5 [B6 [_ B8]]]]]]]]].
  unfold session_d. rewrite apply_compile_d. destruct (compile_less d o _ _ B1) as [Q|Q]; rewrite Q; [|auto]. cbn [rbind]. unfold infer in B4. apply rbind_Ok in B4. destruct B4 as [ji [I1 I2]]. rewrite I1. cbn [rbind].
  pose proof (keeps_init _ _ I1) as KI. pose proof (keeps_propagate _ _ _ I2) as KP.
  enough (G : propagate_d d o ji = Err OutOfFuel) by (rewrite G; auto).
  assert (HJ : JG ji) by (apply (jg_keep j0); [apply KI|apply KI|apply (jn_JG _ _ _ B2)]).
  assert (Ec : jt_cliques ji = jt_cliques j0) by (unfold jt_cliques; rewrite (kp_n _ _ KI); auto). assert (Es : jt_sepsets ji = jt_sepsets j0) by (unfold jt_sepsets; rewrite (kp_n _ _ KI); auto).
  assert (HC : jcount ji). { unfold jcount, jt_bbn_ids. rewrite Ec, Es. apply (jn_cnt _ _ _ B2). }
  assert (Hconn : jconn ji). { apply jconn_ext with (set_jlistener j1 true); [cbn; symmetry; apply KP|]. apply B8. exact (chain_joined n H1). }
  unfold propagate in I2. unfold propagate_d. destruct (isort cl_leb (jt_cliques ji)) as [|x l] eqn:Ex; [discriminate|]. assert (Hx : In x (jt_cliques ji)) by (apply first_clique_In; exists l; auto).
  destruct (trees_exist o ji x Ho HJ HC Hx) as [t [ts HT]]. pose proof (trees_single o ji x t ts HJ Hconn Hx HT) as Ets. subst ts.
  apply rbind_Ok in I2. destruct I2 as [r [Er _]]. destruct (collect_less d o ji _ x r Er) as [Q2|Q2]; rewrite Q2; [|auto]. exfalso.
  assert (Hroot : root t = x) by apply HT. rewrite <- Hroot in Q2. pose proof (deep_collect o ji d t _ r (tr_w _ _ _ _ _ HT) (trt_cids o ji x t [] HJ HT) Q2) as Hh.
  assert (Pcl : forall c, In c (cliques_of t) <-> In c (jt_cliques j0)). { intros c. rewrite <- Ec. pose proof (tr_cl _ _ _ _ _ HT) as P. unfold tcliques in P. simpl in P. rewrite app_nil_r in P. split; apply Permutation_in; auto. symmetry; auto. }
  pose proof (compile_tight _ _ _ o j0 (net_shape ops HW) (build_good ops) Ho B1) as [T1 [T2 [T3 _]]].
  destruct (c68_no_fill ops o [] HW Ho) as [jn [N1 N2]]. { split; constructor. }
  assert (En : jt_cliques jn = jt_cliques j0). { unfold session in N1. rewrite B6 in N1. cbn [rbind snd do_calls] in N1. inversion N1; subst jn. unfold jt_cliques. cbn. rewrite (kp_n _ _ KP), (kp_n _ _ KI). auto. }
  assert (Hspan : forall c u v, In c (cliques_of t) -> In u (cl_nodes c) -> In v (cl_nodes c) -> (Z.abs (u - v) <= 1)%Z).
  { intros c u v Hc Hu Hv. destruct (Z.eq_dec u v) as [->|Hne]; [lia|]. apply Pcl in Hc. rewrite <- En in Hc. pose proof (proj1 N2 (chain_chordal n _ H1) c Hc u v Hu Hv Hne) as HM. apply chain_moral in HM; auto. lia. }
  assert (Hseps : forall s, In s (seps_of t) -> ss_nodes s <> []). { intros s Hs. apply T2. rewrite <- Es. apply (trt_ss o ji x t [] HT); auto. }
  assert (Hcov : forall i, i <= n -> exists c, In c (cliques_of t) /\ In (Z.of_nat i) (cl_nodes c)).
  { intros i Hi. assert (Hv : In (Z.of_nat i) (jt_bbn_ids j0)) by (apply (jn_ids _ _ _ B2); apply chain_vars; eauto). apply bbn_ids_In in Hv. destruct Hv as [c [Hc Hv]]. exists c. split; auto. apply Pcl; auto. }
  assert (Hr0 : cl_nodes (root t) <> []). { rewrite Hroot. apply T3. rewrite <- Ec. auto. } destruct (cl_nodes (root t)) as [|u l0] eqn:Eu; [congruence|]. assert (Hu : In u (cl_nodes (root t))) by (rewrite Eu; left; auto).
  destruct (Hcov 0 ltac:(lia)) as [c0 [C1 C2]]. destruct (Hcov n ltac:(lia)) as [cn [D1 D2]].
  pose proof (spread t (trt_ok o ji x t [] HT) Hseps Hspan c0 u _ C1 Hu C2) as S1. pose proof (spread t (trt_ok o ji x t [] HT) Hseps Hspan cn u _ D1 Hu D2) as S2. lia.
Qed.
