(** Variables that are neither observed nor asked for, nor causes of such, do not matter. *)
From Verif Require Import Py M_Graph M_Node M_Pptc Spec SpecNet SpecEv SpecPot SpecSub L_Base L_PD L_Sums L_Table L_Exact L_Apply L_Net L_Claims L_P1 L_P4 L_Iso L_Sep2.
Open Scope nat_scope.

Section Sub.
  Context (N N' : net) (HN : nshape N) (HN' : nshape N') (HI : subnetwork N N').
  Context (HA : acyclic (is_parent N')) (HS : stochastic N').

  Definition keeps (L L' : likelihood) : Prop :=
    (forall i v, In i (vars N) -> In v (dom N i) -> L' i v = L i v) /\ (forall i v, In i (vars N') -> ~ In i (vars N) -> In v (dom N' i) -> L' i v = 1%Qc).

  Lemma sb_dom i : In i (vars N) -> dom N' i = dom N i. Proof using HI. intros H. apply (HI i H). Qed.
  Lemma sb_in i : In i (vars N) -> In i (vars N'). Proof using HI. intros H. apply (HI i H). Qed.

  Section Mass.
    Variables (L L' : likelihood) (R : keeps L L') (y : Z) (Hy : In y (vars N)).
    Lemma sub_mass v : mass_of N' L' y v = mass_of N L y v.
    Proof using HN HN' HI HA HS R Hy.
      rewrite (mass_A N' HN' HA HS (fun i => mem i (vars N)) y) with (L := L').
      - assert (P : Permutation (filter (fun i => mem i (vars N)) (vars N')) (vars N)).
        { apply NoDup_Permutation. apply NoDup_filter, (ns_nd _ HN'). apply (ns_nd _ HN). intros i. rewrite filter_In, mem_In. split; [tauto|]. intros Hi. split; auto. apply sb_in; auto. }
        set (W := filter _ _) in *.
        assert (Hd : forall i, In i W -> dom N' i = dom N i). { intros i Hi. apply sb_dom. apply (Permutation_in _ P Hi). }
        assert (Pr : proper (fun a => at_y y v a * (prods N' W a * likes L' W a))%Qc).
        { assert (PW : incl W (vars N')) by (intros i Hi; apply filter_In in Hi; tauto). exact (all_proper N' HN' y (sb_in y Hy) L' W v PW). }
        rewrite (sums_perm _ _ _ _ _ Pr P). unfold mass_of. 
        transitivity (sums (dom N) (vars N) (fun a => at_y y v a * (prods N' W a * likes L' W a))%Qc no_asg).
        { assert (G : forall vs f a, incl vs (vars N) -> sums (dom N') vs f a = sums (dom N) vs f a).
          { induction vs as [|u vs IH]; intros f a Hi; auto. cbn [sums]. rewrite (sb_dom u) by (apply Hi; left; auto). apply qsum_map_ext. intros x _. apply IH. intros w Hw. apply Hi; right; auto. }
          apply G, incl_refl. }
        apply sums_ext_gen. intros b _ Hb. unfold at_y. destruct (string_dec (b y) v); [|ring].
        rewrite (prods_perm N' _ _ b P), (likes_perm L' _ _ b P). unfold weight, prods, likes.
        rewrite Qcmult_1_l. f_equal.
        + apply qprod_map_ext. intros i Hi. apply (HI i Hi). auto.
        + apply qprod_map_ext. intros i Hi. apply R; auto.
      - intros i p Hi Hm Hp. apply mem_In in Hm. apply mem_In. destruct (HI i Hm) as [_ [_ [E _]]]. rewrite E in Hp. apply (ns_ends _ HN p i Hp).
      - apply sb_in; auto.
      - apply mem_In; auto.
      - intros i w Hi Hm Hw. apply R; auto. intros Hc. apply mem_In in Hc. congruence.
    Qed.
  End Mass.

  Lemma sub_total L L' y : keeps L L' -> In y (vars N) -> total N' L' = total N L.
  Proof using HN HN' HI HA HS.
    intros R Hy. rewrite <- (mass_total N' L' HN' y (sb_in y Hy)), <- (mass_total N L HN y Hy). rewrite (sb_dom y Hy). f_equal. apply map_ext. intros v. apply sub_mass; auto.
  Qed.
  Lemma sub_posterior L L' y v : keeps L L' -> In y (vars N) -> exact_posterior N' L' y v = exact_posterior N L y v.
  Proof using HN HN' HI HA HS. intros R Hy. unfold exact_posterior. rewrite (sub_total L L' y R Hy), (sub_mass L L' R y Hy v). auto. Qed.

  (** ** evidence *)
  Lemma keeps_assimilate L L' e : keeps L L' -> In (ev_node e) (vars N) -> keeps (assimilate L e) (assimilate L' e).
  Proof using.
    intros [R1 R2] Hn. split; intros i v Hi.
    - intros Hv. unfold assimilate. destruct (Z.eqb i (ev_node e)); auto.
    - intros Hi' Hv. unfold assimilate. destruct (Z.eqb_spec i (ev_node e)) as [Q|]; [|auto]. destruct Hi'. rewrite Q; auto.
  Qed.
  Lemma keeps_fold es : forall L L', keeps L L' -> (forall e, In e es -> In (ev_node e) (vars N)) -> keeps (fold_left assimilate es L) (fold_left assimilate es L').
  Proof using. induction es as [|e es IH]; intros L L' R Hn; auto. simpl. apply IH; [apply keeps_assimilate; auto; apply Hn; left; auto|intros; apply Hn; right; auto]. Qed.
  Lemma keeps_withdraw L L' ns : keeps L L' -> keeps (withdraw L ns) (withdraw L' ns).
  Proof using. intros [R1 R2]. split; intros i v Hi; unfold withdraw; destruct (mem i ns); auto. Qed.
  Lemma sub_toggles L L' e : keeps L L' -> In (ev_node e) (vars N) -> toggles N' L' e = toggles N L e.
  Proof using HI.
    intros [R _] Hn. unfold toggles. rewrite (sb_dom _ Hn). rewrite (filter_ext_in (fun v => qeqb 1%Qc (L' (ev_node e) v)) (fun v => qeqb 1%Qc (L (ev_node e) v))); auto.
    intros v Hv. rewrite R; auto.
  Qed.
  Lemma keeps_effect L L' c : keeps L L' -> valid_call N c -> keeps (effect N L c) (effect N' L' c).
  Proof using HI.
    intros R HV. destruct c as [es|ns| |e]; simpl in *.
    - apply keeps_fold; auto. intros e He. rewrite Forall_forall in HV. apply (HV e He).
    - apply keeps_withdraw; auto.
    - split; intros; auto.
    - destruct HV as [[HV _] _]. rewrite (sub_toggles L L' e R HV). destruct (toggles N L e); [apply keeps_withdraw|apply keeps_assimilate]; auto.
  Qed.
  Lemma sub_quiet L L' e : keeps L L' -> In (ev_node e) (vars N) -> quiet N' L' e = quiet N L e.
  Proof using HI.
    intros [R _] Hn. unfold quiet, sole. rewrite (sb_dom _ Hn). f_equal.
    - apply forallb_ext_in. intros v Hv. rewrite R; auto.
    - rewrite (filter_ext_in (fun v => qeqb 1%Qc (L' (ev_node e) v)) (fun v => qeqb 1%Qc (L (ev_node e) v))); auto. intros v Hv. rewrite R; auto.
  Qed.
  Lemma sub_nothing i : In i (vars N) -> nothing N' i = nothing N i.
  Proof using HI. intros Hi. unfold nothing. rewrite sb_dom; auto. Qed.
  Lemma sub_about L L' c : keeps L L' -> valid_call N c -> forallb (quiet N' L') (about N' L' c) = forallb (quiet N L) (about N L c).
  Proof using HI.
    intros R HV. destruct c as [es|ns| |e]; simpl in *.
    - apply forallb_ext_in. intros e He. apply sub_quiet; auto. rewrite Forall_forall in HV. apply (HV e He).
    - rewrite !forallb_map'. apply forallb_ext_in. intros n Hn. rewrite Forall_forall in HV. destruct (HV n Hn) as [Hn' _]. rewrite sub_nothing by auto. apply sub_quiet; auto.
    - rewrite !forallb_map'.
      assert (G : forall i, In i (vars N) -> quiet N' L' (nothing N' i) = quiet N L (nothing N i)). { intros i Hi. rewrite sub_nothing by auto. apply sub_quiet; auto. }
      assert (E : forall i, In i (vars N') -> ~ In i (vars N) -> quiet N' L' (nothing N' i) = true).
      { intros i Hi Hn. unfold quiet. apply orb_true_iff. left. apply forallb_forall. intros v Hv. simpl in Hv. simpl. destruct R as [_ R]. rewrite R by auto. reflexivity. }
      destruct (forallb (fun x => quiet N L (nothing N x)) (vars N)) eqn:F.
      + rewrite forallb_forall in F. apply forallb_forall. intros i Hi. destruct (in_dec Z.eq_dec i (vars N)) as [Hn|Hn]; [rewrite G; auto|auto].
      + apply not_true_iff_false. apply not_true_iff_false in F. intros T. apply F. rewrite forallb_forall in T. apply forallb_forall. intros i Hi. rewrite <- G by auto. apply T. apply sb_in; auto.
    - destruct HV as [[HV _] _]. rewrite (sub_toggles L L' e R HV). destruct (toggles N L e); simpl; f_equal; [rewrite sub_nothing by auto|]; apply sub_quiet; auto.
  Qed.
  Lemma keeps_shown h : Forall (valid_call N) h -> keeps (shown N h) (shown N' h).
  Proof using HI.
    intros HV. unfold shown.
    assert (G : forall s s', keeps (fst s) (fst s') -> keeps (snd s) (snd s') -> keeps (snd (fold_left (step N) h s)) (snd (fold_left (step N') h s'))).
    { induction HV as [|c h H1 H2 IH]; intros s s' R1 R2; auto. simpl. apply IH; unfold step; simpl.
      - apply keeps_effect; auto.
      - rewrite (sub_about (fst s) (fst s') c) by auto. destruct (forallb _ _); auto. apply keeps_effect; auto. }
    apply G; simpl; split; intros; auto.
  Qed.
  Lemma sub_valid c : valid_call N c -> valid_call N' c.
  Proof using HI.
    assert (K : forall e, known N e -> known N' e). { intros e [K1 [K2 [K3 K4]]]. split; [apply sb_in; auto|]. rewrite sb_dom; auto. }
    destruct c as [es|ns| |e]; simpl; auto.
    - apply Forall_impl; auto.
    - apply Forall_impl. intros n [A B]. split; [apply sb_in; auto|rewrite sb_dom; auto].
    - intros [A B]; auto.
  Qed.
End Sub.

Lemma c71 ops ops' o o' h h' : well_shaped ops -> well_shaped ops' -> connected ops -> connected ops' -> ord_ok o -> ord_ok o' ->
  subnetwork (net_of ops) (net_of ops') -> (forall i, In i (net_vars ops) -> net_name ops' i = net_name ops i) ->
  acyclic (is_parent (net_of ops')) -> stochastic (net_of ops') ->
  valid_history (net_of ops) h -> Forall (fun p => ord_ok (fst p)) h' -> calls h' = calls h ->
  exists j t j' t', session o ops h = Ok j /\ get_posteriors j = Ok t /\ session o' ops' h' = Ok j' /\ get_posteriors j' = Ok t' /\
    forall i, In i (net_vars ops) -> exists m, dget t (net_name ops i) = Some m /\ dget t' (net_name ops i) = Some m.
Proof.
  intros HW HW' Hc Hc' Ho Ho' HI Hnm HA HS Hh Hoh E.
  assert (Hh' : valid_history (net_of ops') h').
  { split; auto. rewrite E. eapply Forall_impl; [|apply Hh]. intros c. apply sub_valid; auto. }
  destruct (session_exact ops o h HW Hc Ho Hh) as [j [t [A1 [A2 [A3 A4]]]]].
  destruct (session_exact ops' o' h' HW' Hc' Ho' Hh') as [j' [t' [B1 [B2 [B3 B4]]]]].
  exists j, t, j', t'. split; [exact A1|]. split; [exact A2|]. split; [exact B1|]. split; [exact B2|].
  intros i Hi. eexists. split; [apply (A4 i Hi)|]. rewrite <- (Hnm i Hi). rewrite (B4 i (sb_in (net_of ops) (net_of ops') HI i Hi)). f_equal.
  rewrite (sb_dom (net_of ops) (net_of ops') HI i Hi). apply map_ext. intros y. f_equal. rewrite E.
  apply (sub_posterior (net_of ops) (net_of ops') (net_shape ops HW) (net_shape ops' HW') HI HA HS); auto.
  apply keeps_shown; auto. apply Hh.
Qed.
