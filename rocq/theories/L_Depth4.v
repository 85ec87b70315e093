(** Enough depth when reapply is called in between; long chains in a Pdag. *)
From Verif Require Import Py M_Graph M_Node M_Pptc M_Depth Spec SpecNet SpecEv SpecRe SpecGraph SpecDepth L_Base L_PD L_Sums L_Table L_Tree L_Walk L_Forest L_Root L_Good L_Prop L_Init L_Post L_Ids L_Trans L_Elim L_UG L_Build L_Exact L_Apply L_Net L_Evid L_Hist L_Claims L_Shape L_Shown L_P1 L_P3 L_Reapply L_Part L_Part2 L_Size L_Part5 L_Depth L_Depth2 L_Chain2.
Open Scope nat_scope.

Section Deeds.
  Context (d : nat).
  Lemma reapply_more o j cpts j' : walk_fuel j <= d -> reapply o j cpts = Ok j' -> reapply_d d o j cpts = Ok j'.
  Proof using.
    intros Hd. unfold reapply, reapply_d, apply_from_serde, apply_from_serde_d. destruct (pot_reinit _) as [j1|] eqn:E1; cbn [rbind]; [|discriminate].
    destruct (initialize j1) as [j2|] eqn:E2; cbn [rbind]; [|discriminate]. intros E. apply rbind_Ok in E. destruct E as [j3 [E3 E4]].
    assert (H : walk_fuel j2 <= d). { unfold walk_fuel. rewrite (kp_n _ _ (keeps_init _ _ E2)), (sy_n _ _ (reinit_stays _ _ E1)). exact Hd. }
    rewrite (cut_ok _ _ _ (propagate_more d o j2 H) E3). exact E4.
  Qed.
  Lemma deed_more j a j' : walk_fuel j <= d -> do_deed j a = Ok j' -> do_deed_d d j a = Ok j'.
  Proof using.
    intros Hd. destruct a as [o c|o cpts]; simpl; [|apply reapply_more; auto]. destruct (do_call o j c) as [j1 [x|]] eqn:E; [discriminate|]. intros Q. rewrite (call_more d _ _ _ _ Hd E). exact Q.
  Qed.
  Lemma deeds_more ds : forall j j', walk_fuel j <= d -> foldM do_deed ds j = Ok j' -> foldM (do_deed_d d) ds j = Ok j'.
  Proof using.
    induction ds as [|a ds IH]; intros j j' Hd E; simpl in *; auto. apply rbind_Ok in E. destruct E as [j1 [E1 E2]]. rewrite (deed_more _ _ _ Hd E1). cbn [rbind]. apply IH; auto.
    unfold walk_fuel. rewrite (sy_n _ _ (deed_stays _ _ _ E1)). exact Hd.
  Qed.
End Deeds.

Theorem adventure_more ops o ds d : well_shaped ops -> ord_ok o -> deeds_ok (start ops) ds -> 2 * List.length (vars (net_of ops)) + 2 <= d -> adventure_d d o ops ds = adventure o ops ds.
Proof.
  intros HW Ho Hh Hd. destruct (c18_described ops o ds HW Ho Hh) as [b [j [j' [t [A1 [A2 _]]]]]].
  pose proof (session_more ops o [] d HW Ho ltac:(split; constructor) ltac:(lia)) as S. unfold session_d, session in S. rewrite A1 in S. cbn [rbind do_calls do_calls_d snd] in S.
  destruct (apply_d d o (build ops)) as [[b1 j1]|x] eqn:E; cbn [rbind snd] in S; [|discriminate]. injection S as ->.
  destruct (apply_net _ _ _ o (net_shape ops HW) (build_good ops) (ws_names _ HW) Ho (build_fresh ops HW)) as [j0 [j1 [B1 [B2 [_ [B4 [B5 [B6 _]]]]]]]]. rewrite A1 in B6. injection B6 as Eb Ej.
  destruct (compile_len _ _ _ o j0 (net_shape ops HW) (build_good ops) Ho B1) as [L1 L2]. pose proof (seps_fewer _ L2) as L3. pose proof (nodes_len j0) as L4.
  assert (Hj : walk_fuel j <= d). { rewrite Ej. unfold walk_fuel. cbn. rewrite (kp_n _ _ (keeps_infer _ _ _ B4)). lia. }
  unfold adventure_d. rewrite E. cbn [rbind snd]. rewrite A2. apply deeds_more; auto. unfold adventure in A2. rewrite A1 in A2. exact A2.
Qed.

(** ** Pdag *)
Section Back.
  Context (o : Ord) (Ho : ord_ok o).
  Notation same_id := (fun x : Z => x).
  Lemma from_parcs m : forall i, exists g, pdag_run same_id (from o m i) = Ok g /\ pinv same_id g /\ forall x y, arc g x y <-> exists k, i <= k < i + m /\ x = Z.of_nat k /\ y = Z.of_nat (S k).
  Proof using Ho.
    induction m as [|m IH]; intros i. { exists g_empty. split; auto. split; [split; [apply ginv_empty|intros x y [[] _]]|]. intros x y. split; [intros []|]. intros [k [Hk _]]. lia. }
    destruct (IH (S i)) as [g [E [P A]]]. rewrite from_S. destruct (pinv_step same_id g (o, AddE (arrow i)) Ho P) as [g1 [E1 P1]].
    destruct (@c24 Z same_id (from o m (S i)) (from_ok o Ho m (S i))) as [g0 [E0 [_ Q]]]. rewrite E in E0. inversion E0; subst g0. destruct (Q o (arrow i) Ho) as [g' [E' [[_ F]|[F _]]]].
    - assert (g1 = g') by (unfold pdag_run in E, E'; rewrite (foldM_snoc _ _ _ _ _ E) in E'; congruence). subst g1.
      exists g'. split; auto. split; auto. intros x y. rewrite F, A. unfold leads. cbn [arrow e_i e_j e_t]. split.
      + intros [[k [Hk Ek]]|[Ek|[Ek _]]]; [exists k|exists i|discriminate]; split; auto; try lia.
      + intros [k [Hk [-> ->]]]. destruct (Nat.eq_dec k i) as [->|Hne]; [right; left; auto|left]. exists k. split; auto. lia.
    - exfalso. apply F. cbn [arrow e_i e_j e_t]. split; [lia|]. rewrite !A. split; [intros [k Hk]; lia|]. split; [intros [k Hk]; lia|].
      intros Hp. apply up_path in Hp; [lia|]. intros x y [Hxy _]. apply A in Hxy. destruct Hxy as [k Hk]. lia.
  Qed.
End Back.
Section Less.
  Context (d : nat) {N : Type} (nid : N -> Z).
  Lemma pdag_step_less g op g' : pdag_step nid g op = Ok g' -> cut (pdag_step_d d nid g op) (Ok g').
  Proof using.
    destruct op as [o [n|e|i]]; unfold pdag_step, pdag_step_d; cbn [fst snd]; intros E; try (left; exact E). unfold pdag_add_edge in E. unfold pdag_add_edge_d. apply rbind_Ok in E. destruct E as [b [E1 E2]]. rewrite <- E2. clear E2.
    assert (C : cut (pdag_shouldadd_d d nid o (add_ends nid g e) e) (Ok b)); [|destruct C as [C|C]; rewrite C; [left|right]; auto]. revert E1. unfold pdag_shouldadd, pdag_shouldadd_d.
    destruct (Z.eqb _ _); [intros <-; left; auto|]. destruct (_ && _); [|intros <-; left; auto]. intros E. apply rbind_Ok in E. destruct E as [b' [E1 E2]]. destruct (exists_less d _ _ _ _ _ E1) as [C|C]; rewrite C; [left|right]; auto.
  Qed.
  Lemma pdag_run_less ops : forall g g', foldM (pdag_step nid) ops g = Ok g' -> cut (foldM (pdag_step_d d nid) ops g) (Ok g').
  Proof using.
    induction ops as [|op ops IH]; intros g g' E; simpl in *; [left; auto|]. apply rbind_Ok in E. destruct E as [g1 [E1 E2]]. destruct (pdag_step_less _ _ _ E1) as [C|C]; rewrite C; [|right; auto]. cbn [rbind]. apply IH; auto.
  Qed.
End Less.
Theorem back_pdag d n o : d < n -> ord_ok o -> pdag_run_d d (fun x : Z => x) (backwards o n) = Err OutOfFuel /\ exists g, pdag_run (fun x : Z => x) (backwards o n) = Ok g.
Proof.
  intros Hd Ho. assert (Hb : backwards o n = from o n 0) by reflexivity. rewrite Hb. split; [|destruct (from_parcs o Ho n 0) as [g [E _]]; eauto].
  destruct n as [|m]; [lia|]. rewrite from_S. unfold pdag_run_d. rewrite foldM_app. destruct (from_parcs o Ho m 1) as [g [E [P A]]]. destruct (pdag_run_less d _ _ _ _ E) as [C|C]; rewrite C; [|auto]. cbn [rbind foldM]. unfold pdag_step_d. cbn [fst snd]. unfold pdag_add_edge_d.
  set (g1 := add_ends (fun x : Z => x) g (arrow 0)). assert (A1 : forall x y, arc g1 x y <-> arc g x y). { intros x y. unfold g1, add_ends, arc, emap, add_node. repeat (destruct (dmem _ _)); reflexivity. }
  assert (B1 : nb_ok g1). { destruct P as [G _]. unfold g1, add_ends. intros x y. apply (gi_nb (fun x : Z => x)). apply ginv_node. apply ginv_node. exact G. }
  unfold pdag_shouldadd_d. cbn [arrow e_t e_i e_j]. change (Z.eqb (Z.of_nat 0) (Z.of_nat 1)) with false. cbn iota.
  assert (M1 : mem (Z.of_nat 1) (emap g1 (Z.of_nat 0)) = false). { apply mem_false. intros H. apply A1, A in H. destruct H as [k Hk]. lia. }
  assert (M2 : mem (Z.of_nat 0) (emap g1 (Z.of_nat 1)) = false). { apply mem_false. intros H. apply A1, A in H. destruct H as [k Hk]. lia. }
  rewrite M1, M2. cbn [negb andb]. unfold pd_exists. destruct (eqb_spec (Z.of_nat 1) (Z.of_nat 0)) as [H|H]; [lia|]. rewrite (find_deep _ _ (1 + m) d 1 []); [reflexivity| | lia | intros x [] | lia].
  intros k Hk. assert (Hin : forall c, In c (get_out_nodes o g1 (Z.of_nat k)) <-> c = Z.of_nat (S k)).
  { intros c. rewrite (outs_In o g1 _ _ Ho B1). unfold directed. rewrite !A1, !A. split; [intros [[k' Hk'] _]; lia|]. intros ->. split; [exists k; split; auto; lia|]. intros [k' Hk']. lia. }
  split; [|intros c Hc; apply Hin; auto]. intros E0. assert (Hx : In (Z.of_nat (S k)) (get_out_nodes o g1 (Z.of_nat k))) by (apply Hin; auto). rewrite E0 in Hx. destruct Hx.
Qed.
