(** The potentials of a propagated tree represent the joint distribution: product of the cliques against product of the
    separation sets. *)
From Verif Require Import Py M_Graph M_Node M_Pptc Spec L_Base L_PD L_Sums L_Table L_Tree.
Open Scope Qc_scope.

Section Num.
  Context (h : heap).
  Notation dom := (h_values h).
  Notation sums := (sums dom).
  Context (F : string -> asg -> Qc) (All : list Z) (PT : asg -> Qc) (HAll : NoDup All) (HPT : dep All PT).
  Notation M := (M h All PT).
  Notation phi := (phi h F).
  Notation mu := (mu h F).

  Lemma root_M t R Pout a : okT t -> Fok F t -> dep (cl_nodes (root t) ++ R) Pout -> Permutation All (cl_nodes (root t) ++ elk t ++ R) ->
    (forall a, PT a = prodT F t a * Pout a) -> M (cl_nodes (root t)) a = phi t a * sums R Pout a.
  Proof using HAll HPT.
    intros Ht HF Hout HP HE. rewrite (M_perm h All PT HAll HPT _ _ a HP). unfold L_Tree.phi.
    assert (HN := Permutation_NoDup HP HAll). apply NoDup_app_iff in HN. destruct HN as [N1 [N2 N3]].
    apply NoDup_app_iff in N2. destruct N2 as [N4 [N5 N6]].
    erewrite sums_prod.
    - apply sums_ext. intros b. apply HE.
    - apply prodT_dep; auto.
    - exact Hout.
    - intros v Hv Hv'. apply in_app_or in Hv'. destruct Hv' as [Hv'|Hv'].
      + apply (N3 v); auto. apply in_or_app; auto.
      + apply (N6 v); auto.
    - intros v Hv Hv'. apply in_app_or in Hv'. destruct Hv' as [Hv'|Hv'].
      + apply (N3 v); auto. apply in_or_app; auto.
      + apply (N6 v); auto.
  Qed.

  Definition cprod (a : asg) (l : list clique) : Qc := qprod (map (fun c => M (cl_nodes c) a) l).
  Definition sprod (a : asg) (l : list sepset) : Qc := qprod (map (fun s => M (ss_nodes s) a) l).
  Lemma cprod_app a l l' : cprod a (l ++ l') = cprod a l * cprod a l'.
  Proof. unfold cprod. rewrite map_app, qprod_app. auto. Qed.
  Lemma sprod_app a l l' : sprod a (l ++ l') = sprod a l * sprod a l'.
  Proof. unfold sprod. rewrite map_app, qprod_app. auto. Qed.

  Lemma tree_joint t a : forall R Pout, okT t -> Fok F t -> dep (cl_nodes (root t) ++ R) Pout -> Permutation All (cl_nodes (root t) ++ elk t ++ R) ->
    (forall a, PT a = prodT F t a * Pout a) ->
    cprod a (cliques_of t) = prodT F t a * sums R Pout a * sprod a (seps_of t).
  Proof using HAll HPT.
    induction t as [c kids IH] using rt_ind'. intros R Pout Hok HF Hout HP HE.
    pose proof (root_M _ R Pout a Hok HF Hout HP HE) as ER. simpl root in *. rewrite elk_eq in *.
    destruct (okT_inv _ _ Hok) as [H2 H3].
    assert (HFc : dep (cl_nodes c) (F (cl_id c))) by (apply HF; simpl; auto).
    assert (Hk : kidsok F (cl_nodes c) kids).
    { intros s' t' Hi. destruct (H3 s' t' Hi) as [? [? [? ?]]]. repeat split; auto. eapply Fok_kid; eauto. }
    assert (ND : NoDup (cl_nodes c ++ elL kids)).
    { pose proof (Permutation_NoDup HP HAll) as HN. rewrite app_assoc in HN. apply NoDup_app_iff in HN. tauto. }
    rewrite (phi_eq h F c kids a Hok HF ND) in ER.
    assert (G : forall l2 l1, kids = l1 ++ l2 ->
      qprod (map (fun p => mu (fst p) (snd p) a) l2) * cprod a (flat_map (fun p => cliques_of (snd p)) l2) =
      prodL F l2 a * sprod a (flat_map (fun p => fst p :: seps_of (snd p)) l2)).
    { induction l2 as [|[s t] l2 IHl]; intros l1 E.
      - unfold prodL, cprod, sprod. simpl. rewrite !qprod_nil. ring.
      - assert (Hin : In (s, t) kids) by (rewrite E; apply in_or_app; right; left; auto).
        destruct (Hk s t Hin) as [Ns [I1 [I2 [Ht HFt]]]].
        specialize (IHl (l1 ++ [(s, t)])). rewrite <- app_assoc in IHl. specialize (IHl E).
        assert (HE' : forall a, PT a = F (cl_id c) a * prodL F (l1 ++ (s, t) :: l2) a * Pout a).
        { intros b. rewrite HE, prodT_eq, E. reflexivity. }
        rewrite E in Hk, HP.
        pose proof (kid_M_sep h F All PT HAll HPT c l1 l2 s t R Pout H2 HFc Hk Hout HP HE' a) as ES.
        assert (EC : cprod a (cliques_of t) = prodT F t a * sums (R' c l1 l2 s R) (Pout' F c l1 l2 Pout) a * sprod a (seps_of t)).
        { apply (IH s t Hin); auto.
          - eapply dep_mono; [|apply (kid_dep F c l1 l2 s t R Pout); auto]. intros v Hv. apply in_app_or in Hv. apply in_or_app. destruct Hv; auto.
          - apply (kid_perm F All c l1 l2 s t R); auto.
          - intros b. apply (kid_PT F PT c l1 l2 s t Pout); auto. }
        simpl. rewrite cprod_app. change (prodL F ((s, t) :: l2) a) with (qprod (prodT F t a :: map (fun p => prodT F (snd p) a) l2)).
        unfold sprod at 1. simpl. rewrite !qprod_cons. fold (sprod a (seps_of t ++ flat_map (fun p => fst p :: seps_of (snd p)) l2)).
        fold (prodL F l2 a). rewrite sprod_app, EC, ES.
        set (X := sums (R' c l1 l2 s R) (Pout' F c l1 l2 Pout) a). set (Y := cprod a _) in *. set (Z0 := sprod a (flat_map _ l2)) in *.
        set (U := qprod (map (fun p => mu (fst p) (snd p) a) l2)) in *.
        transitivity (mu s t a * prodT F t a * X * sprod a (seps_of t) * (U * Y)); [ring|]. rewrite IHl. ring. }
    specialize (G kids [] eq_refl). simpl cliques_of. simpl seps_of. unfold cprod. simpl map. rewrite qprod_cons. fold (cprod a (flat_map (fun p => cliques_of (snd p)) kids)).
    rewrite ER, prodT_eq. set (Y := cprod a _) in *. set (Z0 := sprod a _) in *.
    set (U := qprod (map (fun p => mu (fst p) (snd p) a) kids)) in *.
    transitivity (F (cl_id c) a * sums R Pout a * (U * Y)); [ring|]. rewrite G. ring.
  Qed.
End Num.
Close Scope Qc_scope.
