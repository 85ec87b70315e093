(** The marked walks of EvidenceCollector and EvidenceDistributor follow the rooted tree. *)
From Verif Require Import Py M_Graph M_Node M_Pptc Spec L_Base L_Sums L_Table L_Tree.

Section Walk.
  Context (o : Ord) (j : jtree).
  Notation h := (jt_heap j).

  Definition krt (k : kid) : sepset * clique := (fst k, root (snd k)).

  (** [t] is the part of the join tree seen from its root when the cliques with ids [P] are left out *)
  Inductive wT : list string -> rt -> Prop :=
  | wT_node P c kids nb :
      neighboring o j c = Ok nb ->
      filter (fun p => negb (mem (cl_id (snd p)) P)) nb = map krt kids ->
      (forall s t, In (s, t) kids -> wT [cl_id c] t) ->
      wT P (RN c kids).

  Definition cids (t : rt) : list string := map cl_id (cliques_of t).
  Definition cidsL (l : list kid) : list string := map cl_id (flat_map (fun p : sepset * rt => cliques_of (snd p)) l).
  Lemma cids_eq c kids : cids (RN c kids) = cl_id c :: cidsL kids.
  Proof. reflexivity. Qed.
  Lemma cidsL_cons s t l : cidsL ((s, t) :: l) = cids t ++ cidsL l.
  Proof. unfold cidsL. simpl. rewrite map_app. reflexivity. Qed.
  Lemma cids_root t : In (cl_id (root t)) (cids t).
  Proof. destruct t; simpl; auto. Qed.
  Lemma cidsL_in s t l i : In (s, t) l -> In i (cids t) -> In i (cidsL l).
  Proof.
    intros H Hi. unfold cidsL. apply in_map_iff in Hi. destruct Hi as [c [<- Hc]]. apply in_map. apply in_flat_map. exists (s, t); auto.
  Qed.

  Definition roots (l : list kid) : list string := map (fun k => cl_id (root (snd k))) l.

  Lemma roots_in i l : In i (roots l) -> In i (cidsL l).
  Proof. intros H. apply in_map_iff in H. destruct H as [[s t] [<- Hk]]. eapply cidsL_in; eauto. apply cids_root. Qed.
  Lemma roots_NoDup l : NoDup (cidsL l) -> NoDup (roots l).
  Proof.
    induction l as [|[s t] l IH]; intros HN. constructor. rewrite cidsL_cons in HN. apply NoDup_app_iff in HN. destruct HN as [H1 [H2 H3]].
    simpl. constructor; auto. intros Hc. apply (H3 (cl_id (root t))). apply cids_root. apply roots_in; auto.
  Qed.

  Lemma mark_new_spec P nb : forall l m,
    filter (fun p => negb (mem (cl_id (snd p)) P)) nb = map krt l ->
    incl P m -> (forall i, In i (roots l) -> ~ In i m) -> NoDup (roots l) ->
    exists m', mark_new m nb = (m', map krt l) /\ (forall i, In i m' <-> In i m \/ In i (roots l)).
  Proof.
    induction nb as [|p nb IH]; intros l m E HP Hm HN.
    - destruct l; [|discriminate]. simpl. exists m. split; auto. simpl; tauto.
    - simpl in E. destruct (mem_spec (cl_id (snd p)) P) as [Hi|Hi]; simpl in E.
      + simpl. assert (E1 : mem (cl_id (snd p)) m = true) by (apply mem_In, HP; auto). rewrite E1. apply IH; auto.
      + destruct l as [|k l]; [discriminate|]. simpl in E. injection E as E1 E2. simpl.
        assert (E3 : mem (cl_id (snd p)) m = false).
        { apply mem_false. apply Hm. subst p. left; auto. }
        rewrite E3. destruct (IH l (sadd m (cl_id (snd p))) E2) as [m' [F1 F2]].
        * intros i Hx. apply sadd_In. left; auto.
        * intros i Hx Hc. apply sadd_In in Hc. simpl in HN. inversion HN; subst. destruct Hc as [Hc|Hc]; [apply (Hm i); simpl; auto|].
          subst. apply H1. auto.
        * simpl in HN. inversion HN; auto.
        * rewrite F1. exists m'. subst p. split; auto. intros i. rewrite F2, sadd_In. simpl. intuition.
  Qed.

  Lemma wT_inv P c kids : wT P (RN c kids) -> exists nb, neighboring o j c = Ok nb /\
      filter (fun p => negb (mem (cl_id (snd p)) P)) nb = map krt kids /\ (forall s t, In (s, t) kids -> wT [cl_id c] t).
  Proof. intros H; inversion H; subst; eauto. Qed.

  Lemma length_kid s t l : In (s, t) l -> List.length (cliques_of t) <= List.length (flat_map (fun p : sepset * rt => cliques_of (snd p)) l).
  Proof.
    induction l as [|p l IH]; intros []; simpl; rewrite app_length.
    - subst. simpl. lia.
    - specialize (IH H). lia.
  Qed.

  Lemma collect_foldM (W : pstate -> clique -> sepset -> clique -> res pstate) y kids :
    (forall s t, In (s, t) kids -> forall ps ps' m, NoDup (cids t) -> In (cl_id y) m -> In (cl_id (root t)) m ->
        (forall i, In i (cids t) -> i <> cl_id (root t) -> ~ In i m) -> collectT h ps y s t = Ok ps' ->
        exists m', W (ps, m) y s (root t) = Ok (ps', m') /\ (forall i, In i m' -> In i m \/ In i (cids t)) /\ incl m m') ->
    forall l ps ps1 m1, incl l kids -> NoDup (cidsL l) -> In (cl_id y) m1 -> incl (roots l) m1 ->
      (forall i, In i (cidsL l) -> ~ In i (roots l) -> ~ In i m1) ->
      collectL h y l ps = Ok ps1 ->
      exists m2, foldM (fun st p => W st y (fst p) (snd p)) (map krt l) (ps, m1) = Ok (ps1, m2) /\
        (forall i, In i m2 -> In i m1 \/ In i (cidsL l)) /\ incl m1 m2.
  Proof.
    intros IH. induction l as [|[s t] l IHl]; intros ps ps1 m1 Hincl HN Hy Hr Hm1 EL.
    - unfold collectL in EL. simpl in EL. inv EL. exists m1. split; [reflexivity|]. split; auto using incl_refl.
    - unfold collectL in EL. simpl in EL. apply rbind_Ok in EL. destruct EL as [psa [Ea Eb]].
      rewrite cidsL_cons in HN, Hm1. apply NoDup_app_iff in HN. destruct HN as [N1 [N2 N3]].
      assert (Hin : In (s, t) kids) by (apply Hincl; left; auto).
      destruct (IH s t Hin ps psa m1) as [m' [A1 [A2 A3]]]; auto.
      { apply Hr. left; auto. }
      { intros i Hi Hne. apply Hm1. apply in_or_app; auto. simpl. intros [Hc|Hc]; [congruence|]. apply roots_in in Hc. apply (N3 i); auto. }
      destruct (IHl psa ps1 m') as [m2 [B1 [B2 B3]]]; auto.
      { intros p Hp; apply Hincl; right; auto. }
      { intros i Hi. apply A3, Hr. right; auto. }
      { intros i Hi Hri Hc. destruct (A2 i Hc) as [Hc'|Hc'].
        - revert Hc'. apply Hm1. apply in_or_app; auto. simpl. intros [Hc''|Hc'']; auto. apply (N3 i); auto. rewrite <- Hc''. apply cids_root.
        - apply (N3 i); auto. }
      exists m2. split; [|split].
      + simpl. rewrite A1. simpl. exact B1.
      + intros i Hi. rewrite cidsL_cons, in_app_iff. destruct (B2 i Hi) as [Hi'|Hi']; auto. destruct (A2 i Hi'); auto.
      + eapply incl_tran; eauto.
  Qed.

  Lemma collect_walk_tree t : forall fuel ps ps' m x s, wT [cl_id x] t -> NoDup (cids t) ->
    List.length (cliques_of t) <= fuel ->
    In (cl_id x) m -> In (cl_id (root t)) m -> (forall i, In i (cids t) -> i <> cl_id (root t) -> ~ In i m) ->
    collectT h ps x s t = Ok ps' ->
    exists m', collect_walk o j fuel (ps, m) x s (root t) = Ok (ps', m') /\ (forall i, In i m' -> In i m \/ In i (cids t)) /\ incl m m'.
  Proof.
    induction t as [y kids IH] using rt_ind'. intros fuel ps ps' m x s Hw HN Hf Hx Hr Hm HC.
    destruct fuel as [|fuel]. { simpl in Hf; lia. }
    apply wT_inv in Hw. destruct Hw as [nb [E1 [E2 Hk]]]. rewrite cids_eq in *. inversion HN as [|? ? HN1 HN2]; subst.
    simpl root in *. simpl collect_walk. rewrite E1. simpl.
    destruct (mark_new_spec _ _ _ m E2) as [m1 [F1 F2]].
    { intros i [<-|[]]; auto. }
    { intros i Hi. apply roots_in in Hi. apply Hm; simpl; auto. intros ->. auto. }
    { apply roots_NoDup; auto. }
    rewrite F1. rewrite collectT_eq in HC.
    destruct (collectL h y kids ps) as [ps1|] eqn:EL; [|discriminate]. simpl in HC.
    destruct (collect_foldM (collect_walk o j fuel) y kids) with (l := kids) (ps := ps) (ps1 := ps1) (m1 := m1) as [m2 [A1 [A2 A3]]]; auto using incl_refl.
    { intros s' t' Hin ps2 ps2' m' H1 H2 H3 H4 H5. eapply IH; eauto. pose proof (length_kid s' t' kids Hin). simpl in Hf. lia. }
    { apply F2; auto. }
    { intros i Hi. apply F2; auto. }
    { intros i Hi Hri Hc. apply F2 in Hc. destruct Hc as [Hc|Hc]; auto. revert Hc. apply Hm; simpl; auto. intros ->; auto. }
    rewrite A1. simpl. rewrite HC. simpl. exists m2. split; auto. split.
    + intros i Hi. destruct (A2 i Hi) as [Hi'|Hi']; [|simpl; auto]. apply F2 in Hi'. destruct Hi' as [Hi'|Hi']; auto. right. right. apply roots_in; auto.
    + intros i Hi. apply A3, F2; auto.
  Qed.

  Lemma mark_all_In nb : forall m i, In i (mark_all m nb) <-> In i m \/ In i (map (fun p => cl_id (snd p)) nb).
  Proof.
    unfold mark_all. induction nb as [|p nb IH]; intros m i; simpl; [tauto|]. rewrite IH, sadd_In. intuition.
  Qed.
  Lemma filter_all {A} (f : A -> bool) l : (forall x, f x = true) -> filter f l = l.
  Proof. intros H. induction l; simpl; auto. rewrite H, IHl; auto. Qed.
  Lemma roots_krt l : map (fun p => cl_id (snd p)) (map krt l) = roots l.
  Proof. unfold roots. rewrite map_map. reflexivity. Qed.

  Lemma collect_tree x kids ps ps' : wT [] (RN x kids) -> NoDup (cids (RN x kids)) ->
    List.length (cliques_of (RN x kids)) <= walk_fuel j ->
    collectL h x kids ps = Ok ps' ->
    exists m', collect o j (ps, []) x = Ok (ps', m').
  Proof.
    intros Hw HN Hf HC. apply wT_inv in Hw. destruct Hw as [nb [E1 [E2 Hk]]]. rewrite cids_eq in *. inversion HN as [|? ? HN1 HN2]; subst.
    rewrite filter_all in E2 by auto. subst nb. unfold collect. rewrite E1. simpl.
    destruct (collect_foldM (collect_walk o j (walk_fuel j)) x kids) with (l := kids) (ps := ps) (ps1 := ps') (m1 := mark_all [cl_id x] (map krt kids)) as [m2 [A1 _]]; auto using incl_refl.
    - intros s' t' Hin ps2 ps2' m' H1 H2 H3 H4 H5. eapply collect_walk_tree; eauto. pose proof (length_kid s' t' kids Hin). simpl in Hf. lia.
    - apply mark_all_In; left; left; auto.
    - intros i Hi. apply mark_all_In. right. rewrite roots_krt. auto.
    - intros i Hi Hr Hc. apply mark_all_In in Hc. rewrite roots_krt in Hc. destruct Hc as [[<-|[]]|Hc]; auto.
    - eauto.
  Qed.

  Lemma dist_foldM (W : pstate -> clique -> res pstate) y kids :
    (forall s t, In (s, t) kids -> forall ps ps' m, NoDup (cids t) -> In (cl_id y) m -> In (cl_id (root t)) m ->
        (forall i, In i (cids t) -> i <> cl_id (root t) -> ~ In i m) -> distT h ps t = Ok ps' ->
        exists m', W (ps, m) (root t) = Ok (ps', m') /\ (forall i, In i m' -> In i m \/ In i (cids t)) /\ incl m m') ->
    forall l ps ps1 m1, incl l kids -> NoDup (cidsL l) -> In (cl_id y) m1 -> incl (roots l) m1 ->
      (forall i, In i (cidsL l) -> ~ In i (roots l) -> ~ In i m1) ->
      distL h y l ps = Ok ps1 ->
      exists m2, foldM (fun st p => ps <- pass_message h (fst st) y (fst p) (snd p) ;; W (ps, snd st) (snd p)) (map krt l) (ps, m1) = Ok (ps1, m2) /\
        (forall i, In i m2 -> In i m1 \/ In i (cidsL l)) /\ incl m1 m2.
  Proof.
    intros IH. induction l as [|[s t] l IHl]; intros ps ps1 m1 Hincl HN Hy Hr Hm1 EL.
    - unfold distL in EL. simpl in EL. inv EL. exists m1. split; [reflexivity|]. split; auto using incl_refl.
    - unfold distL in EL. simpl in EL. apply rbind_Ok in EL. destruct EL as [psa [Ea Eb]].
      apply rbind_Ok in Ea. destruct Ea as [ps0 [E0 Ea]].
      rewrite cidsL_cons in HN, Hm1. apply NoDup_app_iff in HN. destruct HN as [N1 [N2 N3]].
      assert (Hin : In (s, t) kids) by (apply Hincl; left; auto).
      destruct (IH s t Hin ps0 psa m1) as [m' [A1 [A2 A3]]]; auto.
      { apply Hr. left; auto. }
      { intros i Hi Hne. apply Hm1. apply in_or_app; auto. simpl. intros [Hc|Hc]; [congruence|]. apply roots_in in Hc. apply (N3 i); auto. }
      destruct (IHl psa ps1 m') as [m2 [B1 [B2 B3]]]; auto.
      { intros p Hp; apply Hincl; right; auto. }
      { intros i Hi. apply A3, Hr. right; auto. }
      { intros i Hi Hri Hc. destruct (A2 i Hc) as [Hc'|Hc'].
        - revert Hc'. apply Hm1. apply in_or_app; auto. simpl. intros [Hc''|Hc'']; auto. apply (N3 i); auto. rewrite <- Hc''. apply cids_root.
        - apply (N3 i); auto. }
      exists m2. split; [|split].
      + simpl. rewrite E0. simpl. rewrite A1. simpl. exact B1.
      + intros i Hi. rewrite cidsL_cons, in_app_iff. destruct (B2 i Hi) as [Hi'|Hi']; auto. destruct (A2 i Hi'); auto.
      + eapply incl_tran; eauto.
  Qed.

  Lemma dist_walk_tree t : forall fuel ps ps' m x, wT [x] t -> NoDup (cids t) ->
    List.length (cliques_of t) <= fuel ->
    In x m -> In (cl_id (root t)) m -> (forall i, In i (cids t) -> i <> cl_id (root t) -> ~ In i m) ->
    distT h ps t = Ok ps' ->
    exists m', distribute_walk o j fuel (ps, m) (root t) = Ok (ps', m') /\ (forall i, In i m' -> In i m \/ In i (cids t)) /\ incl m m'.
  Proof.
    induction t as [y kids IH] using rt_ind'. intros fuel ps ps' m x Hw HN Hf Hx Hr Hm HC.
    destruct fuel as [|fuel]. { simpl in Hf; lia. }
    apply wT_inv in Hw. destruct Hw as [nb [E1 [E2 Hk]]]. rewrite cids_eq in *. inversion HN as [|? ? HN1 HN2]; subst.
    simpl root in *. simpl distribute_walk. rewrite E1. simpl.
    destruct (mark_new_spec _ _ _ m E2) as [m1 [F1 F2]].
    { intros i [<-|[]]; auto. }
    { intros i Hi. apply roots_in in Hi. apply Hm; simpl; auto. intros ->. auto. }
    { apply roots_NoDup; auto. }
    rewrite F1. rewrite distT_eq in HC.
    destruct (dist_foldM (distribute_walk o j fuel) y kids) with (l := kids) (ps := ps) (ps1 := ps') (m1 := m1) as [m2 [A1 [A2 A3]]]; auto using incl_refl.
    { intros s' t' Hin ps2 ps2' m' H1 H2 H3 H4 H5. eapply IH; eauto. pose proof (length_kid s' t' kids Hin). simpl in Hf. lia. }
    { apply F2; auto. }
    { intros i Hi. apply F2; auto. }
    { intros i Hi Hri Hc. apply F2 in Hc. destruct Hc as [Hc|Hc]; auto. revert Hc. apply Hm; simpl; auto. intros ->; auto. }
    rewrite A1. exists m2. split; auto. split.
    + intros i Hi. destruct (A2 i Hi) as [Hi'|Hi']; [|simpl; auto]. apply F2 in Hi'. destruct Hi' as [Hi'|Hi']; auto. right. right. apply roots_in; auto.
    + intros i Hi. apply A3, F2; auto.
  Qed.

  Lemma distribute_tree x kids ps ps' : wT [] (RN x kids) -> NoDup (cids (RN x kids)) ->
    List.length (cliques_of (RN x kids)) <= walk_fuel j ->
    distL h x kids ps = Ok ps' ->
    exists m', distribute o j (ps, []) x = Ok (ps', m').
  Proof.
    intros Hw HN Hf HC. apply wT_inv in Hw. destruct Hw as [nb [E1 [E2 Hk]]]. rewrite cids_eq in *. inversion HN as [|? ? HN1 HN2]; subst.
    rewrite filter_all in E2 by auto. subst nb. unfold distribute. rewrite E1. simpl.
    destruct (dist_foldM (distribute_walk o j (walk_fuel j)) x kids) with (l := kids) (ps := ps) (ps1 := ps') (m1 := mark_all [cl_id x] (map krt kids)) as [m2 [A1 _]]; auto using incl_refl.
    - intros s' t' Hin ps2 ps2' m' H1 H2 H3 H4 H5. eapply dist_walk_tree; eauto. pose proof (length_kid s' t' kids Hin). simpl in Hf. lia.
    - apply mark_all_In; left; left; auto.
    - intros i Hi. apply mark_all_In. right. rewrite roots_krt. auto.
    - intros i Hi Hr Hc. apply mark_all_In in Hc. rewrite roots_krt in Hc. destruct Hc as [[<-|[]]|Hc]; auto.
    - eauto.
  Qed.
End Walk.
