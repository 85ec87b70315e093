(** A join tree put together from a list of separation sets alone. *)
From Verif Require Import Py M_Graph M_Node M_Pptc Spec L_Base L_PD L_Forest L_Table L_Root L_Good L_Ids L_Trans.
Open Scope nat_scope.

Definition seps_in (ns : list (string * jnode)) : list sepset := flat_map (fun n => match n with JS s => [s] | JC _ => [] end) (dvals ns).
Definition cliques_in (ns : list (string * jnode)) : list clique := flat_map (fun n => match n with JC c => [c] | JS _ => [] end) (dvals ns).
Definition addn (ns : list (string * jnode)) (n : jnode) := if dmem ns (j_id n) then ns else dset ns (j_id n) n.
Lemma add_node_set j ns n : jt_add_node (set_jnodes j ns) n = set_jnodes j (addn ns n).
Proof. unfold jt_add_node, addn. simpl. destruct (dmem ns (j_id n)); reflexivity. Qed.

Record keyed (ns : list (string * jnode)) : Prop := { ky_nd : NoDup (dkeys ns); ky_id : forall k n, In (k, n) ns -> k = j_id n }.

Lemma addn_new ns n : keyed ns -> ~ In (j_id n) (dkeys ns) -> addn ns n = ns ++ [(j_id n, n)] /\ keyed (addn ns n).
Proof.
  intros [K1 K2] H. unfold addn. rewrite (proj2 (dmem_false _ _) H). rewrite dkeys_dset_notin by auto. split; auto. constructor.
  - unfold dkeys. rewrite map_app. simpl. apply NoDup_app_intro; auto. constructor; auto; constructor. intros x Hx [<-|[]]; auto.
  - intros k m Hm. apply in_app_or in Hm. destruct Hm as [Hm|[Hm|[]]]; auto. inversion Hm; subst; auto.
Qed.
Lemma addn_old ns n : In (j_id n) (dkeys ns) -> addn ns n = ns.
Proof. intros H. unfold addn. rewrite (proj2 (dmem_In _ _) H). auto. Qed.

Section Rebuild.
  Context (cs : list clique) (Hcl : forall c, In c cs -> cl_ok c) (HN : NoDup (map cl_id cs)) (o : Ord) (Ho : ord_ok o) (h : heap).

  Record ninv (ns : list (string * jnode)) (F : list sepset) : Prop := {
    ni_key : keyed ns;
    ni_ss : seps_in ns = rev F;
    ni_cl : forall c, In c (cliques_in ns) <-> exists s, In s F /\ (c = ss_left s \/ c = ss_right s) }.

  Lemma cliques_in_In ns c : In c (cliques_in ns) <-> exists k, In (k, JC c) ns.
  Proof. apply (jt_cliques_In (set_jnodes (jt_empty []) ns)). Qed.
  Lemma seps_in_In ns c : In c (seps_in ns) <-> exists k, In (k, JS c) ns.
  Proof. apply (jt_sepsets_In (set_jnodes (jt_empty []) ns)). Qed.

  Lemma add_clique_ok ns c : keyed ns -> In c cs -> (forall d, In d (cliques_in ns) -> In d cs) -> (forall s, In s (seps_in ns) -> sgood cs s) ->
    keyed (addn ns (JC c)) /\ seps_in (addn ns (JC c)) = seps_in ns /\ forall d, In d (cliques_in (addn ns (JC c))) <-> In d (cliques_in ns) \/ d = c.
  Proof using Hcl HN.
    intros K Hc Hd Hs. destruct (in_dec string_dec (cl_id c) (dkeys ns)) as [Hi|Hi].
    - rewrite addn_old by exact Hi. split; auto. split; auto. intros d. split; auto. intros [H| ->]; auto.
      unfold dkeys in Hi. apply in_map_iff in Hi. destruct Hi as [[k n] [E Hn]]. simpl in E. pose proof (ky_id _ K k n Hn) as Ek. destruct n as [d|s].
      + assert (Hd' : In d (cliques_in ns)) by (apply cliques_in_In; eauto). replace c with d; auto. apply (id_inj cs HN); auto. simpl in Ek. congruence.
      + exfalso. assert (Hs' : In s (seps_in ns)) by (apply seps_in_In; eauto). simpl in Ek. apply (sgood_cl cs Hcl s c (Hs s Hs') Hc). congruence.
    - destruct (addn_new ns (JC c) K Hi) as [E K']. split; auto. rewrite E. split.
      + unfold seps_in, dvals. rewrite map_app, flat_map_app. simpl. rewrite app_nil_r. auto.
      + intros d. unfold cliques_in, dvals. rewrite map_app, flat_map_app. simpl. rewrite in_app_iff. simpl. intuition congruence.
  Qed.

  Lemma rebuild_step j ns F s : tinv cs h j F -> ninv ns F -> sgood cs s -> ~ conn (map ends F) (cl_id (ss_left s)) (cl_id (ss_right s)) ->
    exists j' ns', jt_add_edge o (set_jnodes j ns) s = Ok (set_jnodes j' ns') /\ tinv cs h j' (s :: F) /\ ninv ns' (s :: F).
  Proof using Hcl HN Ho.
    intros T I Hs Hc. destruct (shouldadd_ok cs Hcl HN o Ho h j F T s Hs) as [b [Eb Hb]]. assert (Hbt : b = true) by (apply Hb; auto). rewrite Hbt in Eb. clear b Hb Hbt.
    destruct (add_edge_ok cs Hcl HN o Ho h j F T s Hs) as [j' [E [[Hc' _]|[_ T']]]]; [contradiction|].
    unfold jt_add_edge in *. change (jt_shouldadd o (set_jnodes j ns) s) with (jt_shouldadd o j s). rewrite Eb in *. cbn [rbind] in *.
    set (ns' := addn (addn (addn ns (JS s)) (JC (ss_left s))) (JC (ss_right s))). exists j', ns'. split; [|split; auto].
    - rewrite !add_node_set. fold ns'. inversion E; subst j'. clear E.
      assert (A : forall a b c d, jt_nbrs (jt_add_node (jt_add_node (jt_add_node a b) c) d) = jt_nbrs a /\ jt_edges (jt_add_node (jt_add_node (jt_add_node a b) c) d) = jt_edges a /\
         jt_pots (jt_add_node (jt_add_node (jt_add_node a b) c) d) = jt_pots a /\ jt_evid (jt_add_node (jt_add_node (jt_add_node a b) c) d) = jt_evid a /\
         jt_listener (jt_add_node (jt_add_node (jt_add_node a b) c) d) = jt_listener a /\ jt_pinfo (jt_add_node (jt_add_node (jt_add_node a b) c) d) = jt_pinfo a /\
         jt_heap (jt_add_node (jt_add_node (jt_add_node a b) c) d) = jt_heap a).
      { intros a b c d. assert (B : forall a b, exists x, jt_add_node a b = set_jnodes a x). { intros a' b'. unfold jt_add_node. destruct (dmem _ _); eauto. exists (jt_nodes a'). destruct a'; auto. }
        destruct (B a b) as [x1 E1]. rewrite E1. destruct (B (set_jnodes a x1) c) as [x2 E2]. rewrite E2. destruct (B (set_jnodes (set_jnodes a x1) x2) d) as [x3 E3]. rewrite E3. simpl. auto 10. }
      destruct (A j (JS s) (JC (ss_left s)) (JC (ss_right s))) as [A1 [A2 [A3 [A4 [A5 [A6 A7]]]]]]. unfold set_jnodes at 1 2 3 4 5 6 7 8. cbn [jt_nodes jt_edges jt_nbrs jt_pots jt_evid jt_listener jt_pinfo jt_heap].
      rewrite A1, A2, A3, A4, A5, A6, A7. reflexivity.
    - destruct I as [K I1 I2]. assert (Hg : forall t, In t F -> sgood cs t) by apply (ti_good _ _ _ _ T).
      assert (Hcs : forall d, In d (cliques_in ns) -> In d cs). { intros d Hd. apply I2 in Hd. destruct Hd as [t [Ht [-> | ->]]]; [apply sgood_left|apply sgood_right]; auto. }
      assert (Hn : ~ In (j_id (JS s)) (dkeys ns)).
      { intros Hi. unfold dkeys in Hi. apply in_map_iff in Hi. destruct Hi as [[k n] [Ek Hn]]. simpl in Ek. subst k. pose proof (ky_id _ K _ _ Hn) as Ek. destruct n as [d|t]; simpl in Ek.
        - assert (Hd : In d (cliques_in ns)) by (apply cliques_in_In; eauto). apply (sgood_cl cs Hcl s d); auto.
        - assert (Ht : In t (seps_in ns)) by (apply seps_in_In; eauto). rewrite I1 in Ht. apply in_rev in Ht. apply (sgood_id cs Hcl HN) in Ek; auto. subst t.
          apply Hc. apply conn_edge, in_map_iff. exists s; auto. }
      destruct (addn_new ns (JS s) K Hn) as [E1 K1].
      assert (S1 : seps_in (addn ns (JS s)) = rev (s :: F)). { rewrite E1. unfold seps_in, dvals. rewrite map_app, flat_map_app. simpl. f_equal. exact I1. }
      assert (C1 : cliques_in (addn ns (JS s)) = cliques_in ns). { rewrite E1. unfold cliques_in, dvals. rewrite map_app, flat_map_app. simpl. apply app_nil_r. }
      assert (Hsg : forall t, In t (rev (s :: F)) -> sgood cs t). { intros t Ht. apply in_rev in Ht. destruct Ht as [<-|Ht]; auto. }
      destruct (add_clique_ok (addn ns (JS s)) (ss_left s)) as [K2 [S2 C2]]; auto. { apply sgood_left; auto. } { rewrite C1; auto. } { rewrite S1; auto. }
      destruct (add_clique_ok (addn (addn ns (JS s)) (JC (ss_left s))) (ss_right s)) as [K3 [S3 C3]]; auto. { apply sgood_right; auto. }
      { intros d Hd. apply C2 in Hd. rewrite C1 in Hd. destruct Hd as [Hd| ->]; auto. apply sgood_left; auto. } { rewrite S2, S1; auto. }
      constructor; auto. { unfold ns'. rewrite S3, S2. auto. }
      intros c. unfold ns'. rewrite C3, C2, C1, I2. split.
      + intros [[[t [Ht Hct]]| ->]| ->]; [exists t; simpl; auto|exists s; simpl; auto|exists s; simpl; auto].
      + intros [t [[<-|Ht] Hct]]; [destruct Hct; auto|]. left; left; eauto.
  Qed.

  Lemma rebuild_all L : forall j ns F, tinv cs h j F -> ninv ns F -> (forall s, In s L -> sgood cs s) -> forest (map ends (rev L ++ F)) ->
    exists j' ns', foldM (jt_add_edge o) L (set_jnodes j ns) = Ok (set_jnodes j' ns') /\ tinv cs h j' (rev L ++ F) /\ ninv ns' (rev L ++ F).
  Proof using Hcl HN Ho.
    induction L as [|s L IH]; intros j ns F T I HL Hf. { exists j, ns. auto. }
    simpl in Hf. rewrite <- app_assoc in Hf. simpl in Hf.
    assert (Hs : ~ conn (map ends F) (cl_id (ss_left s)) (cl_id (ss_right s))).
    { clear -Hf. induction (rev L) as [|x l IHl]; simpl in Hf; [|apply IHl]; apply forest_inv in Hf; tauto. }
    destruct (rebuild_step j ns F s T I) as [j1 [n1 [E1 [T1 I1]]]]; auto. { apply HL; left; auto. }
    cbn [foldM]. rewrite E1. cbn [rbind]. destruct (IH j1 n1 (s :: F) T1 I1) as [j2 [n2 [E2 [T2 I2]]]]; auto. { intros; apply HL; right; auto. }
    exists j2, n2. simpl rev. rewrite <- app_assoc. auto.
  Qed.

  Theorem rebuild L : (forall s, In s L -> sgood cs s) -> forest (map ends (rev L)) ->
    exists j ns, foldM (jt_add_edge o) L (jt_empty h) = Ok (set_jnodes j ns) /\ tinv cs h j (rev L) /\ ninv ns (rev L).
  Proof using Hcl HN Ho.
    intros HL Hf. destruct (rebuild_all L (fold_left (fun j c => jt_add_node j (JC c)) cs (jt_empty h)) [] [] (tinv_start cs HN h)) as [j [ns [E [T I]]]]; auto.
    - constructor; [constructor; simpl; [constructor|intros k n []]|reflexivity|]. intros c. simpl. split; [intros []|]. intros [s [[] _]].
    - rewrite app_nil_r; auto.
    - rewrite app_nil_r in T, I. exists j, ns. split; auto.
      assert (E0 : forall l j, jt_nodes j = [] -> set_jnodes (fold_left (fun j c => jt_add_node j (JC c)) l j) [] = j).
      { assert (G : forall l j, set_jnodes (fold_left (fun j c => jt_add_node j (JC c)) l j) [] = set_jnodes j []).
        { induction l as [|c l IH]; intros j0; simpl; auto. rewrite IH. unfold jt_add_node. destruct (dmem _ _); reflexivity. }
        intros l j0 Hj. rewrite G. destruct j0; simpl in *; subst; auto. }
      rewrite E0 in E by reflexivity. exact E.
  Qed.

  (** the tree has the invariants of a compiled tree *)
  Theorem rebuilt_good L j ns : tinv cs h j (rev L) -> ninv ns (rev L) -> forest (map ends (rev L)) ->
    JG (set_jnodes j ns) /\ jt_sepsets (set_jnodes j ns) = L /\ jt_edges (set_jnodes j ns) = map (fun s => (jt_edge_key s, s)) L /\
    (forall c, In c (jt_cliques (set_jnodes j ns)) <-> exists s, In s L /\ (c = ss_left s \/ c = ss_right s)).
  Proof using Hcl HN.
    intros T [[K1 K2] I1 I2] Hf.
    assert (Es : jt_sepsets (set_jnodes j ns) = L) by (rewrite <- (rev_involutive L); exact I1).
    assert (Ec : forall c, In c (jt_cliques (set_jnodes j ns)) <-> exists s, In s L /\ (c = ss_left s \/ c = ss_right s)).
    { intros c. change (jt_cliques (set_jnodes j ns)) with (cliques_in ns). rewrite I2. split; intros [s [Hs Hc]]; exists s; split; auto; [apply in_rev|rewrite in_rev in Hs]; auto. }
    assert (Hg : forall s, In s L -> sgood cs s). { intros s Hs. apply (ti_good _ _ _ _ T). rewrite <- in_rev; auto. }
    assert (Hin : forall c, In c (jt_cliques (set_jnodes j ns)) -> In c cs). { intros c Hc. apply Ec in Hc. destruct Hc as [s [Hs [-> | ->]]]; [apply sgood_left|apply sgood_right]; auto. }
    split; [|split; [auto|split; [|auto]]]. 2:{ simpl. rewrite (ti_edges _ _ _ _ T), rev_involutive. auto. }
    constructor; auto.
    - intros s Hs. rewrite Es in Hs. split; [apply Ec; exists s; auto|]. split; [apply Ec; exists s; auto|]. apply (sgood_neq cs); auto.
    - intros s Hs. rewrite Es in Hs. change (jt_neighbors (set_jnodes j ns)) with (jt_neighbors j). rewrite (ti_nbs _ _ _ _ T); auto. rewrite <- in_rev; auto.
    - intros c Hc. rewrite Es. change (jt_neighbors (set_jnodes j ns)) with (jt_neighbors j). rewrite (ti_nbc _ _ _ _ T), rev_involutive; auto.
    - exists (rev L). rewrite Es. split; auto. symmetry. apply Permutation_rev.
    - intros c Hc. apply Hcl; auto.
    - intros s Hs. rewrite Es in Hs. destruct (Hg s Hs) as [a [b [-> [Ha [Hb [_ _]]]]]]. rewrite mk_sepset_nodes, mk_sepset_left, mk_sepset_right. split; [|split].
      + apply NoDup_filter. apply Hcl; auto.
      + intros x Hx. apply inter_In in Hx. tauto.
      + intros x Hx. apply inter_In in Hx. tauto.
  Qed.
End Rebuild.
