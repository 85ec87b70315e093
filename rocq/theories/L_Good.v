(** Propagation on a well-formed join tree computes marginals of the product of the clique potentials. *)
From Verif Require Import Py M_Graph M_Node M_Pptc Spec L_Base L_PD L_Sums L_Table L_Tree L_Walk L_Forest L_Root.

Definition clen (c : clique) : nat := List.length (cl_nodes c).
Definition slen (s : sepset) : nat := List.length (ss_nodes s).
(** all variables of a rooted tree, each clique contributing those it does not share with its parent *)
Definition vlist (t : rt) : list Z := cl_nodes (root t) ++ elk t.

Lemma Permutation_list_sum l l' : Permutation l l' -> list_sum l = list_sum l'.
Proof. induction 1; simpl; lia. Qed.
Lemma list_sum_flat {A B} (f : B -> nat) (g : A -> list B) l :
  list_sum (map f (flat_map g l)) = list_sum (map (fun x => list_sum (map f (g x))) l).
Proof. induction l as [|x l IH]; simpl; auto. rewrite map_app, list_sum_app, IH. auto. Qed.

Lemma minus_length A B : NoDup A -> NoDup B -> incl B A -> List.length (minus A B) + List.length B = List.length A.
Proof. intros H1 H2 H3. pose proof (Permutation_length (minus_perm A B H1 H2 H3)) as E. rewrite app_length in E. lia. Qed.

Lemma minus_nil l : minus l [] = l.
Proof. unfold minus. induction l; simpl; auto. f_equal; auto. Qed.

Lemma el_length t : okT t -> forall S, NoDup S -> incl S (cl_nodes (root t)) ->
  List.length (el S t) + List.length S + list_sum (map slen (seps_of t)) = list_sum (map clen (cliques_of t)).
Proof.
  induction t as [c kids IH] using rt_ind'. intros Hok S NS IS. destruct (okT_inv _ _ Hok) as [Hc Hk]. simpl root in *.
  rewrite el_eq, app_length, cliques_eq, seps_eq. simpl. unfold clen at 1. rewrite <- (minus_length _ S Hc NS IS).
  assert (G : List.length (elL kids) + list_sum (map slen (sepsL kids)) = list_sum (map clen (cliquesL kids))).
  { clear IS. induction kids as [|[s t] kids IHk]; auto.
    change (elL ((s, t) :: kids)) with (el (ss_nodes s) t ++ elL kids).
    change (sepsL ((s, t) :: kids)) with (s :: seps_of t ++ sepsL kids). change (cliquesL ((s, t) :: kids)) with (cliques_of t ++ cliquesL kids).
    rewrite app_length. simpl map. rewrite !map_app. simpl list_sum. rewrite !list_sum_app.
    destruct (Hk s t) as [N1 [I1 [I2 Ht]]]; [left; auto|].
    pose proof (IH s t (or_introl eq_refl) Ht (ss_nodes s) N1 I2) as E. unfold slen at 1.
    assert (E2 := IHk (fun s t Hi => IH s t (or_intror Hi)) (okT_node _ _ Hc (fun s t Hi => Hk s t (or_intror Hi))) (fun s t Hi => Hk s t (or_intror Hi))).
    lia. }
  lia.
Qed.

Lemma vlist_length t : okT t -> List.length (vlist t) + list_sum (map slen (seps_of t)) = list_sum (map clen (cliques_of t)).
Proof.
  intros Hok. pose proof (el_length t Hok [] (NoDup_nil _) (incl_nil_l _)) as E. unfold vlist. rewrite el_split in E.
  rewrite minus_nil in E. simpl in E. lia.
Qed.

Lemma el_cover t : okT t -> forall S c v, In c (cliques_of t) -> In v (cl_nodes c) -> In v S \/ In v (el S t).
Proof.
  induction t as [r kids IH] using rt_ind'. intros Hok S c v Hc Hv. destruct (okT_inv _ _ Hok) as [Hr Hk].
  rewrite el_eq, in_app_iff, minus_In. destruct (in_dec Z.eq_dec v S) as [HS|HS]; auto.
  rewrite cliques_eq in Hc. destruct Hc as [<-|Hc]; auto. right.
  unfold cliquesL in Hc. apply in_flat_map in Hc. destruct Hc as [[s t] [Hi Hc]]. simpl in Hc. destruct (Hk s t Hi) as [N1 [I1 [I2 Ht]]].
  destruct (IH s t Hi Ht (ss_nodes s) c v Hc Hv) as [H|H]; auto. right. apply in_flat_map. exists (s, t); auto.
Qed.
Lemma vlist_cover t c v : okT t -> In c (cliques_of t) -> In v (cl_nodes c) -> In v (vlist t).
Proof.
  intros Hok Hc Hv. destruct (el_cover t Hok [] c v Hc Hv) as [[]|H]. rewrite el_split in H. unfold vlist.
  rewrite in_app_iff in *. rewrite minus_In in H. tauto.
Qed.
Lemma el_sub t : forall S v, In v (el S t) -> exists c, In c (cliques_of t) /\ In v (cl_nodes c).
Proof.
  induction t as [r kids IH] using rt_ind'. intros S v Hv. rewrite el_eq, in_app_iff, minus_In in Hv. destruct Hv as [[Hv _]|Hv].
  - exists r. split; auto. left; auto.
  - apply in_flat_map in Hv. destruct Hv as [[s t] [Hi Hv]]. destruct (IH s t Hi _ _ Hv) as [c [Hc Hv']]. exists c. split; auto.
    right. apply in_flat_map. exists (s, t); auto.
Qed.
Lemma vlist_sub t v : In v (vlist t) -> exists c, In c (cliques_of t) /\ In v (cl_nodes c).
Proof.
  intros Hv. apply (el_sub t []). rewrite el_split. unfold vlist in Hv. rewrite in_app_iff in *. rewrite minus_In. simpl. tauto.
Qed.

Lemma seps_tree_ids t : Permutation (ids_of t) (map cl_id (cliques_of t) ++ map ss_id (seps_of t)).
Proof.
  induction t as [c kids IH] using rt_ind'. rewrite ids_of_eq, cliques_eq, seps_eq. simpl. apply perm_skip.
  induction kids as [|[s t] kids IHk]; simpl; auto.
  change (kids_ids ((s, t) :: kids)) with (ss_id s :: ids_of t ++ kids_ids kids).
  change (cliquesL ((s, t) :: kids)) with (cliques_of t ++ cliquesL kids). change (sepsL ((s, t) :: kids)) with (s :: seps_of t ++ sepsL kids).
  rewrite (IH s t) by (left; auto). rewrite IHk by (intros; eapply IH; right; eauto). simpl. rewrite !map_app. perm.
Qed.

Lemma joins_okT cs ss t : joinsT t -> incl (cliques_of t) cs -> incl (seps_of t) ss ->
  (forall c, In c cs -> NoDup (cl_nodes c)) ->
  (forall s, In s ss -> NoDup (ss_nodes s) /\ incl (ss_nodes s) (cl_nodes (ss_left s)) /\ incl (ss_nodes s) (cl_nodes (ss_right s))) ->
  okT t.
Proof.
  intros Hj Hc Hs H1 H2. induction t as [c kids IH] using rt_ind'. pose proof (joinsT_inv _ _ Hj) as Hk. constructor.
  - apply H1, Hc. left; auto.
  - intros s t Hi. destruct (Hk s t Hi) as [J1 J2]. destruct (H2 s) as [N1 [I1 I2]].
    { apply Hs. rewrite seps_eq. apply in_flat_map. exists (s, t); simpl; auto. }
    split; auto. assert (Ht : okT t).
    { apply (IH s t Hi J2).
      - intros d Hd. apply Hc. right. apply in_flat_map. exists (s, t); auto.
      - intros d Hd. apply Hs. rewrite seps_eq. apply in_flat_map. exists (s, t); simpl; auto. }
    destruct J1 as [[E1 E2]|[E1 E2]]; rewrite E1, E2 in *; auto.
Qed.

Definition jcount (j : jtree) : Prop :=
  list_sum (map clen (jt_cliques j)) <= list_sum (map slen (jt_sepsets j)) + List.length (jt_bbn_ids j).

Record trees (o : Ord) (j : jtree) (x : clique) (t : rt) (ts : list rt) : Prop := {
  tr_root : root t = x;
  tr_w : wT o j [] t;
  tr_ok : Forall okT (t :: ts);
  tr_j : Forall joinsT (t :: ts);
  tr_cl : Permutation (tcliques (t :: ts)) (jt_cliques j);
  tr_ss : Permutation (tseps (t :: ts)) (jt_sepsets j);
  tr_nd : NoDup (flat_map vlist (t :: ts));
  tr_vars : forall v, In v (flat_map vlist (t :: ts)) <-> In v (jt_bbn_ids j) }.

Lemma bbn_ids_In j v : In v (jt_bbn_ids j) <-> exists c, In c (jt_cliques j) /\ In v (cl_nodes c).
Proof. unfold jt_bbn_ids. rewrite sof_In, in_flat_map. reflexivity. Qed.
Lemma bbn_ids_NoDup j : NoDup (jt_bbn_ids j).
Proof. apply sof_NoDup. Qed.

Theorem trees_exist o j x : ord_ok o -> JG j -> jcount j -> In x (jt_cliques j) -> exists t ts, trees o j x t ts.
Proof.
  intros Ho HJ Hcount Hx. destruct (jg_forest _ HJ) as [es [Pe Hf]].
  destruct (decompose (jt_cliques j) es Hf) as [ts0 [J1 [J2 J3]]].
  { intros s Hs. apply (Permutation_in _ Pe) in Hs. destruct (jg_ends _ HJ s Hs) as [? [? _]]; auto. }
  destruct (pick_tree ts0 x) as [t0 [ts [P0 Hx0]]]. { apply (Permutation_in _ (Permutation_sym J2)); auto. }
  assert (Jt0 : joinsT t0 /\ Forall joinsT ts).
  { assert (HF : Forall joinsT (t0 :: ts)) by (eapply Permutation_Forall; eauto). inversion HF; auto. }
  destruct Jt0 as [Jt0 Jts].
  destruct (reroot t0 x Jt0 Hx0) as [t1 [R1 [R2 [R3 R4]]]].
  assert (Pc : Permutation (tcliques (t1 :: ts)) (jt_cliques j)).
  { rewrite <- J2. unfold tcliques. rewrite (Permutation_flat_map' cliques_of _ _ P0). simpl. rewrite R3; auto. }
  assert (Ps : Permutation (tseps (t1 :: ts)) (jt_sepsets j)).
  { rewrite <- Pe, <- J3. unfold tseps. rewrite (Permutation_flat_map' seps_of _ _ P0). simpl. rewrite R4; auto. }
  assert (HNc : NoDup (map cl_id (tcliques (t1 :: ts)))).
  { eapply Permutation_NoDup; [symmetry; apply Permutation_map, Pc|]. pose proof (jg_ids_NoDup j HJ) as H. apply NoDup_app_iff in H. tauto. }
  unfold tcliques in HNc. simpl in HNc. rewrite map_app in HNc. apply NoDup_app_iff in HNc. destruct HNc as [HNt [HNts HNd]].
  destruct (reorder j HJ o t1 Ho []) as [t [A1 [A2 [A3 [A4 A5]]]]]; auto.
  { intros c Hc. apply (Permutation_in _ Pc). simpl. apply in_or_app; auto. }
  { intros s p []. }
  { intros d Hd. simpl map. simpl app. rewrite <- (Permutation_filter _ _ _ Ps). unfold tseps. simpl. rewrite filter_app.
    replace (filter (touch d) (flat_map seps_of ts)) with (@nil sepset). rewrite app_nil_r; auto.
    assert (Hdn : ~ In (cl_id d) (map cl_id (flat_map cliques_of ts))). { apply HNd. apply in_map; auto. }
    clear - Jts Hdn. induction ts as [|t ts IH]; simpl; auto. inversion Jts; subst. simpl in Hdn. rewrite map_app, in_app_iff in Hdn.
    rewrite filter_app, touch_outside; auto. }
  simpl in A2.
  assert (Pc' : Permutation (tcliques (t :: ts)) (jt_cliques j)).
  { rewrite <- Pc. unfold tcliques. simpl. rewrite A4. auto. }
  assert (Ps' : Permutation (tseps (t :: ts)) (jt_sepsets j)).
  { rewrite <- Ps. unfold tseps. simpl. rewrite A5. auto. }
  assert (HJT : Forall joinsT (t :: ts)) by (constructor; auto).
  assert (Hok : Forall okT (t :: ts)).
  { rewrite Forall_forall in *. intros t' Ht'. apply (joins_okT (jt_cliques j) (jt_sepsets j)); auto.
    - intros c Hc. apply (Permutation_in _ Pc'). apply in_flat_map. eauto.
    - intros c Hc. apply (Permutation_in _ Ps'). apply in_flat_map. eauto.
    - apply (jg_cl _ HJ).
    - apply (jg_ss _ HJ). }
  exists t, ts.
  assert (Hv : forall v, In v (flat_map vlist (t :: ts)) <-> In v (jt_bbn_ids j)).
  { intros v. rewrite bbn_ids_In. rewrite in_flat_map. rewrite Forall_forall in Hok. split.
    - intros [t' [Ht' Hv]]. apply vlist_sub in Hv. destruct Hv as [c [Hc Hv]]. exists c. split; auto.
      apply (Permutation_in _ Pc'). apply in_flat_map. eauto.
    - intros [c [Hc Hv]]. apply (Permutation_in _ (Permutation_sym Pc')) in Hc. apply in_flat_map in Hc. destruct Hc as [t' [Ht' Hc]].
      exists t'. split; auto. eapply vlist_cover; eauto. }
  constructor; auto.
  - congruence.
  - apply NoDup_incl_NoDup with (jt_bbn_ids j).
    + apply bbn_ids_NoDup.
    + unfold jcount in Hcount. rewrite <- (Permutation_list_sum _ _ (Permutation_map clen Pc')) in Hcount.
      rewrite <- (Permutation_list_sum _ _ (Permutation_map slen Ps')) in Hcount.
      assert (G : forall l, Forall okT l -> List.length (flat_map vlist l) + list_sum (map slen (tseps l)) = list_sum (map clen (tcliques l))).
      { clear. induction l as [|t l IH]; intros Hok; auto. inversion Hok; subst. unfold tseps, tcliques in *. simpl.
        rewrite app_length, !map_app, !list_sum_app. pose proof (vlist_length t H1). specialize (IH H2). lia. }
      specialize (G _ Hok). lia.
    + intros v Hv'. apply Hv; auto.
Qed.
