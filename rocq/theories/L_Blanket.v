(** A variable whose Markov blanket is known. *)
From Verif Require Import Py M_Graph M_Node M_Pptc Spec SpecNet SpecEv SpecBlanket L_Base L_PD L_Sums L_Table L_Tree L_UG L_Dag L_Exact L_Apply L_Net L_Claims L_P1 L_P4 L_Hist L_Evid L_Sep2.
Open Scope Qc_scope.

Section Blanket.
  Context (N : net) (HN : nshape N) (L : likelihood) (y : Z) (a : asg) (Hy : In y (vars N)).
  Hypothesis BK : blanket_known N L y a.
  Let isC c := existsb (Z.eqb y) (par N c).
  Let U := filter (fun i => negb (Z.eqb i y)) (vars N).
  Let C := filter isC (vars N).
  Let R := filter (fun i => negb (Z.eqb i y) && negb (isC i)) (vars N).

  Lemma isC_In c : isC c = true <-> In y (par N c).
  Proof using Type. unfold isC. rewrite existsb_exists. split; [intros [x [H E]]; apply Z.eqb_eq in E; rewrite E; auto|]. intros H. exists y. split; auto. apply Z.eqb_refl. Qed.
  Lemma y_not_own : ~ In y (par N y).
  Proof using HN Hy BK. intros H. pose proof (ns_par _ HN y) as ND. apply NoDup_app_iff in ND. destruct ND as [_ [_ ND]]. apply (ND y H). left; auto. Qed.
  Lemma bV_perm : Permutation (vars N) (U ++ [y]).
  Proof using HN Hy BK.
    apply NoDup_Permutation; [apply (ns_nd _ HN)| |].
    - apply NoDup_app_iff. split; [apply NoDup_filter, (ns_nd _ HN)|]. split; [constructor; [tauto|constructor]|]. intros x Hx [<-|[]]. unfold U in Hx. apply filter_In in Hx. rewrite Z.eqb_refl in Hx. destruct Hx as [_ Hx]. discriminate.
    - intros x. rewrite in_app_iff. unfold U. rewrite filter_In. simpl. destruct (Z.eqb_spec x y) as [->|Hne]; simpl; split; try tauto. intros [[H _]|[H|[]]]; auto. congruence.
  Qed.
  Lemma bU_perm : Permutation (vars N) ((y :: C) ++ R).
  Proof using HN Hy BK.
    assert (Ey : isC y = false). { destruct (isC y) eqn:E; auto. apply isC_In in E. destruct (y_not_own E). }
    apply NoDup_Permutation; [apply (ns_nd _ HN)| |].
    - simpl. constructor.
      + rewrite in_app_iff. unfold C, R. rewrite !filter_In, Z.eqb_refl, Ey. simpl. intros [[_ H]|[_ H]]; discriminate.
      + apply NoDup_app_iff. split; [apply NoDup_filter, (ns_nd _ HN)|]. split; [apply NoDup_filter, (ns_nd _ HN)|]. intros x. unfold C, R. rewrite !filter_In. intros [_ H1] [_ H2]. rewrite H1, andb_false_r in H2. discriminate.
    - intros x. simpl. rewrite in_app_iff. unfold C, R. rewrite !filter_In. destruct (Z.eqb_spec x y) as [->|Hne]; simpl; [tauto|]. destruct (isC x); simpl; split; try tauto; [intros [H|[H|H]]; try tauto; congruence|intros [H|[H|H]]; try tauto; congruence].
  Qed.
  Definition around (b : asg) : Qc := prods N R b * likes L U b.
  Definition outside : Qc := sums (dom N) U around no_asg.
  Lemma outside_keep b v : around (upd b y v) = around b.
  Proof using HN Hy BK.
    unfold around. assert (HyU : ~ In y U). { unfold U. rewrite filter_In, Z.eqb_refl. intros [_ H]. discriminate. }
    assert (EU : forall f, dep U f -> f (upd b y v) = f b). { intros f Hf. apply Hf. intros u Hu. apply upd_neq. intros ->. auto. }
    rewrite (EU (likes L U) (likes_dep L U)). rewrite (EU (prods N R)); auto. apply prods_dep. intros i Hi x Hx. unfold R in Hi. apply filter_In in Hi. destruct Hi as [Hi Hb]. apply andb_true_iff in Hb. destruct Hb as [H1 H2].
    unfold U. apply filter_In. apply in_app_or in Hx. destruct Hx as [Hx|[<-|[]]]; [|auto]. split; [apply (ns_ends _ HN x i Hx)|]. apply negb_true_iff. destruct (Z.eqb_spec x y) as [->|]; auto. apply negb_true_iff in H2. apply isC_In in Hx. congruence.
  Qed.
  Lemma likes_zero b p : In p U -> L p (b p) = 0 -> likes L U b = 0.
  Proof. clear. unfold likes. induction U as [|u l IH]; intros P3 P4; [destruct P3|]. cbn [map]. rewrite qprod_cons. destruct P3 as [->|H]; [rewrite P4; ring|rewrite IH; auto; ring]. Qed.
  Lemma score_same b v : (forall p, blanket N y p -> b p = a p) -> prods N (y :: C) (upd b y v) = local_score N a y v.
  Proof using HN Hy BK.
    intros E. unfold prods, local_score. cbn [map]. rewrite qprod_cons. fold isC. fold C.
    assert (G : forall i, In i (vars N) -> (i = y \/ isC i = true) -> cpt_entry N i (upd b y v) = cpt_entry N i (upd a y v)).
    { intros i Hi H. apply cpt_dep. intros u Hu. unfold upd. destruct (Z.eqb_spec u y) as [->|Hn]; auto. apply E. split; auto. apply in_app_or in Hu.
      destruct H as [->|H]; [destruct Hu as [Hu|[<-|[]]]; [left; split; auto|congruence]|]. apply isC_In in H. destruct Hu as [Hu|[<-|[]]]; [|right; left; split; auto]. right. right. exists i. split; split; auto. }
    rewrite (G y) by auto. f_equal. f_equal. apply map_ext_in. intros c Hc. unfold C in Hc. apply filter_In in Hc. apply G; tauto.
  Qed.
  Lemma blanket_mass v : In v (dom N y) -> mass_of N L y v = local_score N a y v * L y v * outside.
  Proof using HN Hy BK.
    intros Hv. destruct (ns_dom _ HN y Hy) as [Hd _]. unfold mass_of.
    assert (PR : proper (fun b => if string_dec (b y) v then weight N L b else 0)). { intros b c E. rewrite (E y), (weight_proper N L b c E). auto. }
    rewrite (sums_perm _ _ _ _ _ PR bV_perm), sums_app. unfold outside. rewrite <- sums_mult_const. apply sums_ext_gen. intros b _ Hb.
    rewrite (sums_select (dom N) y (weight N L) v b Hd Hv).
    assert (EW : weight N L (upd b y v) = prods N (y :: C) (upd b y v) * L y v * around b).
    { rewrite <- (outside_keep b v). change (weight N L (upd b y v)) with (prods N (vars N) (upd b y v) * likes L (vars N) (upd b y v)). rewrite (prods_perm N _ _ _ bU_perm), (likes_perm L _ _ _ bV_perm), prods_app, likes_app.
      unfold likes at 2. cbn [map]. rewrite qprod_cons, qprod_nil, upd_eq. unfold around. ring. }
    rewrite EW. destruct (forallb (fun p => String.eqb (b p) (a p) || negb (mem p (par N y) || isC p || existsb (fun c => isC c && mem p (par N c)) (vars N))) U) eqn:Eb.
    - rewrite (score_same b v); auto. intros p [Hn Hp]. assert (HpU : In p U). { unfold U. apply filter_In. split; [|apply negb_true_iff, Z.eqb_neq; auto]. destruct Hp as [Hp|[Hp|(c & _ & Hp)]]; try (apply (ns_ends _ HN p _ (proj2 Hp))). apply Hp. }
      rewrite forallb_forall in Eb. specialize (Eb p HpU). apply orb_true_iff in Eb. destruct Eb as [Eb|Eb]; [apply String.eqb_eq; auto|]. exfalso. apply negb_true_iff in Eb. apply orb_false_iff in Eb. destruct Eb as [Eb E3]. apply orb_false_iff in Eb. destruct Eb as [E1 E2].
      destruct Hp as [Hp|[Hp|(c & Hc & Hp)]].
      + assert (X : mem p (par N y) = true) by (apply mem_In; apply Hp). congruence.
      + assert (X : isC p = true) by (apply isC_In; apply Hp). congruence.
      + assert (X : existsb (fun c => isC c && mem p (par N c)) (vars N) = true); [|congruence]. apply existsb_exists. exists c. split; [apply Hc|]. apply andb_true_iff. split; [apply isC_In; apply Hc|apply mem_In; apply Hp].
    - assert (X : exists p, In p U /\ blanket N y p /\ b p <> a p).
      { assert (HU : forall p, In p U -> In p (vars N) /\ p <> y). { intros p Hp. unfold U in Hp. apply filter_In in Hp. destruct Hp as [H1 H2]. split; auto. intros ->. rewrite Z.eqb_refl in H2. discriminate. }
        revert HU Eb. generalize U as l. induction l as [|p l IH]; intros HU Eb; simpl in Eb; [discriminate|]. apply andb_false_iff in Eb. destruct Eb as [Eb|Eb].
        - apply orb_false_iff in Eb. destruct Eb as [E1 E2]. apply negb_false_iff in E2. destruct (HU p (or_introl eq_refl)) as [Hp Hn]. exists p. split; [left; auto|]. split; [|apply String.eqb_neq; auto]. split; auto.
          apply orb_true_iff in E2. destruct E2 as [E2|E2]; [apply orb_true_iff in E2; destruct E2 as [E2|E2]|].
          + left. split; [exact Hy|apply mem_In; auto].
          + right. left. split; auto. apply isC_In; auto.
          + right. right. apply existsb_exists in E2. destruct E2 as [c [Hc E2]]. apply andb_true_iff in E2. exists c. split; split; auto; [apply isC_In|apply mem_In]; tauto.
        - destruct IH as [q [Q1 Q2]]; auto. { intros q Hq. apply HU. right; auto. } exists q. split; [right; auto|auto]. }
      destruct X as [p [P1 [P2 P3]]]. assert (Z0 : likes L U b = 0). { apply (likes_zero b p P1). apply (BK p P2); auto. }
      unfold around. rewrite Z0. ring.
  Qed.
End Blanket.

Theorem c111_blanket ops o h y a : well_shaped ops -> connected ops -> ord_ok o -> valid_history (net_of ops) h ->
  let N := net_of ops in let L := shown N (calls h) in possible N L -> In y (vars N) -> blanket_known N L y a ->
  let s := fun v => local_score N a y v * L y v in
  exists j t, session o ops h = Ok j /\ get_posteriors j = Ok t /\ qsum (map s (dom N y)) <> 0 /\
    dget t (net_name ops y) = Some (map (fun v => (v, s v / qsum (map s (dom N y)))) (dom N y)).
Proof.
  intros HW Hc Ho Hh N L HP Hy BK s. pose proof (net_shape ops HW) as HN. destruct (session_exact ops o h HW Hc Ho Hh) as [j [t [A1 [A2 [_ A4]]]]]. exists j, t. split; auto. split; auto.
  pose proof (mass_total N L HN y Hy) as T. assert (M : forall v, In v (dom N y) -> mass_of N L y v = outside N L y * s v). { intros v Hv. rewrite (blanket_mass N HN L y a Hy BK v Hv). unfold s. ring. }
  rewrite (qsum_map_ext _ (fun v => outside N L y * s v)) in T by exact M. rewrite qsum_map_mult in T. unfold possible in HP.
  assert (NO : outside N L y <> 0). { intros E. apply HP. rewrite <- T, E. ring. } assert (NS : qsum (map s (dom N y)) <> 0). { intros E. apply HP. rewrite <- T, E. ring. }
  assert (PE : forall v, In v (dom N y) -> exact_posterior N L y v = s v / qsum (map s (dom N y))).
  { intros v Hv. unfold exact_posterior. destruct (Qc_eq_dec (total N L) 0) as [E|_]; [contradiction|]. rewrite (M v Hv), <- T. field. auto. }
  split; auto. rewrite (A4 y Hy). f_equal. apply map_ext_in. intros v Hv. f_equal. exact (PE v Hv).
Qed.
Theorem c111_screen ops o o' h h' y a : well_shaped ops -> connected ops -> ord_ok o -> ord_ok o' -> valid_history (net_of ops) h -> valid_history (net_of ops) h' ->
  let N := net_of ops in let L := shown N (calls h) in let L' := shown N (calls h') in possible N L -> possible N L' -> In y (vars N) -> blanket_known N L y a -> blanket_known N L' y a ->
  (forall v, In v (dom N y) -> L' y v = L y v) ->
  exists j t j' t', session o ops h = Ok j /\ get_posteriors j = Ok t /\ session o' ops h' = Ok j' /\ get_posteriors j' = Ok t' /\ dget t' (net_name ops y) = dget t (net_name ops y).
Proof.
  intros HW Hc Ho Ho' Hh Hh' N L L' HP HP' Hy BK BK' E. destruct (c111_blanket ops o h y a HW Hc Ho Hh HP Hy BK) as [j [t [A1 [A2 [_ A4]]]]]. destruct (c111_blanket ops o' h' y a HW Hc Ho' Hh' HP' Hy BK') as [j' [t' [B1 [B2 [_ B4]]]]].
  exists j, t, j', t'. split; auto. split; auto. split; auto. split; auto. rewrite A4, B4. f_equal. fold N L L'.
  assert (Q : forall v, In v (dom N y) -> local_score N a y v * L' y v = local_score N a y v * L y v) by (intros v Hv; rewrite (E v Hv); auto).
  rewrite (qsum_map_ext _ (fun v => local_score N a y v * L y v)) by exact Q. apply map_ext_in. intros v Hv. f_equal. rewrite (Q v Hv). auto.
Qed.
