(** Networks in which several variables may carry the same name, and networks with too short tables. *)
From Verif Require Import Py M_Graph M_Node M_Pptc Spec SpecNet SpecEv SpecPot SpecName L_Base L_PD L_Sums L_Table L_Tree L_Walk L_Forest L_Root L_Good L_Prop L_Init L_Post L_Read
  L_Ids L_Trans L_Elim L_UG L_Tri L_Moral L_Build L_Exact L_Apply L_Net L_Evid L_Hist L_Rip L_Claims L_Shape L_Shown L_P1 L_P4.
Open Scope nat_scope.

Lemma shaped_shape ops : shaped ops -> nshape (net_of ops).
Proof.
  intros H. pose proof (build_inv ops) as B. constructor; simpl.
  - apply firsts_NoDup.
  - apply (sp_some _ H).
  - apply (sp_dom _ H).
  - apply (sp_cpt _ H).
  - apply (sp_pos _ H).
  - intros i. apply NoDup_app_intro.
    + apply firsts_NoDup.
    + constructor; [intros []|constructor].
    + intros x Hx [<-|[]]. revert Hx. apply (sp_loop _ H).
  - intros i k. apply (bi_ends _ _ B).
Qed.
Lemma shaped_fresh ops : shaped ops -> forall i n, In (i, n) (g_nodes (b_g (build ops))) -> n_mclq n = None.
Proof.
  intros H i n Hn. pose proof (build_inv ops) as B.
  assert (E : node_of ops i = Some n).
  { rewrite <- (bi_get _ _ B). apply dget_In_NoDup; auto. change (NoDup (ids (b_g (build ops)))). rewrite (bi_ids _ _ B). apply firsts_NoDup. }
  apply (sp_fresh _ H). apply (node_of_Some _ _ _ E).
Qed.
Lemma well_shaped_iff ops : well_shaped ops <-> shaped ops /\ NoDup (map (net_name ops) (net_vars ops)).
Proof. split; [intros []; split; [constructor|]; auto|intros [[] ?]; constructor; auto]. Qed.

Lemma shaped_shows ops o h : shaped ops -> ord_ok o -> valid_history (net_of ops) h ->
  exists j, session o ops h = Ok j /\ shows (net_of ops) (net_name ops) (in_force (net_of ops) (calls h)) (shown (net_of ops) (calls h)) j /\ (connected ops -> jconn j).
Proof.
  intros HW Ho [H1 H2].
  destruct (apply_gen0 _ _ _ o (shaped_shape ops HW) (build_good ops) Ho) as [j0 [j [A1 [A2 [A3 [A4 [A5 [A6 [A7 A8]]]]]]]]].
  { intros j0 _ i n k Hn E. rewrite (shaped_fresh _ HW i n Hn) in E. discriminate. }
  destruct (calls_shows0 (net_of ops) (net_name ops) (firsts_NoDup _) (sp_dom _ HW) h H1 (no_evidence, no_evidence) (set_jlistener j true)) as [j' [B1 [B2 B3]]]; auto.
  { apply live_shows; auto. apply unit_none. }
  exists j'. split; [eapply session_eq; eauto|]. split. { unfold in_force, shown. rewrite step_fst in B2. exact B2. }
  intros Hc. apply jconn_ext with (set_jlistener j true); auto.
Qed.

(** ** reading a tree by id and by name *)
Lemma last_fold {V} (nm : Z -> string) (v : Z -> V) x l : forall d,
  dget (fold_left (fun d i => dset d (nm i) (v i)) l d) x = match last_named nm l x with Some k => Some (v k) | None => dget d x end.
Proof.
  induction l as [|i l IH] using rev_ind; intros d; auto. rewrite fold_left_app. unfold last_named. rewrite rev_app_distr. cbn [fold_left rev app find].
  destruct (String.eqb_spec (nm i) x) as [<-|E]. { apply dget_dset_eq. }
  rewrite dget_dset_neq by congruence. apply IH.
Qed.
Lemma fold_names_any {V} (nm : Z -> string) (f : Z -> res V) (v : Z -> V) l : (forall i, In i l -> f i = Ok (v i)) ->
  forall d, foldM (fun d i => p <- f i ;; Ok (dset d (nm i) p)) l d = Ok (fold_left (fun d i => dset d (nm i) (v i)) l d).
Proof.
  induction l as [|i l IH]; intros Hf d; simpl; auto. rewrite Hf by (left; auto). cbn [rbind]. apply IH. intros; apply Hf; right; auto.
Qed.
Lemma fold_find {V} (p : Z -> bool) (v : Z -> option V) l : forall z,
  fold_left (fun acc i => if p i then v i else acc) l z = match find p (rev l) with Some k => v k | None => z end.
Proof.
  induction l as [|i l IH] using rev_ind; intros z; auto. rewrite fold_left_app, rev_app_distr. cbn [fold_left rev app find]. destruct (p i); auto.
Qed.
Lemma find_ext_in {A} (p q : A -> bool) l : (forall x, In x l -> p x = q x) -> find p l = find q l.
Proof. induction l as [|x l IH]; intros H; simpl; auto. rewrite (H x) by (left; auto). destruct (q x); auto. apply IH. intros; apply H; right; auto. Qed.

Section Named.
  Context (N : net) (nm : Z -> string) (HV : NoDup (vars N)) (HD : forall i, In i (vars N) -> NoDup (dom N i) /\ dom N i <> []).

  Lemma members_In j : jnet N nm j -> forall i, In i (members j) -> In i (vars N).
  Proof. clear HV HD. intros H i Hi. apply (jn_ids _ _ _ H). unfold jt_bbn_ids. apply sof_In. exact Hi. Qed.

  Lemma by_name_last j x : jnet N nm j -> option_map n_id (get_bbn_node_by_name j x) = last_named nm (members j) x.
  Proof.
    clear HV HD. intros H. unfold get_bbn_node_by_name, last_named, members.
    rewrite (fold_find (fun i => eqb (h_name (jt_heap j) i) x) (dget (jt_heap j))).
    rewrite (find_ext_in _ (fun k => String.eqb (nm k) x)).
    2:{ intros i Hi. apply in_rev in Hi. rewrite (jn_nm _ _ _ H) by (apply (members_In j H); auto). reflexivity. }
    destruct (find _ _) as [k|] eqn:E; auto. apply find_some in E. destruct E as [Hi _]. apply in_rev in Hi. apply (members_In j H) in Hi.
    apply (jn_ids _ _ _ H) in Hi. destruct (hg_node _ _ _ _ (jn_hg _ _ _ H) k Hi) as [n [E1 [E2 _]]]. rewrite E1. simpl. congruence.
  Qed.

  Lemma by_name_node j x n : jnet N nm j -> get_bbn_node_by_name j x = Some n -> node_in N n /\ nm (n_id n) = x.
  Proof.
    clear HV HD. intros H Hn. pose proof (by_name_last j x H) as Hb. revert Hn Hb. unfold get_bbn_node_by_name, last_named.
    rewrite (fold_find (fun i => eqb (h_name (jt_heap j) i) x) (dget (jt_heap j))). destruct (find _ _) as [k|] eqn:E; [|discriminate]. intros Hn Hb. rewrite Hn in Hb. symmetry in Hb.
    apply find_some in Hb. destruct Hb as [B1 B2]. apply in_rev, (members_In j H) in B1. apply String.eqb_eq in B2. split; [|exact B2]. split; [exact B1|].
    apply find_some in E. destruct E as [E _]. apply in_rev in E. apply (members_In j H) in E. apply (jn_ids _ _ _ H) in E.
    destruct (hg_node _ _ _ _ (jn_hg _ _ _ H) k E) as [m [E1 [E2 [E3 _]]]]. rewrite E1 in Hn. injection Hn as ->. rewrite E3. congruence.
  Qed.

  Lemma live_named L j : live N nm L j -> jconn j ->
    (forall i, In i (vars N) -> exists p, get_bbn_potential j i = Ok p /\ is_table (dom N) [i] (fun a => exact_posterior N L i (a i)) p) /\
    exists t, get_posteriors j = Ok t /\
      (forall x, dget t x = option_map (fun k => map (fun y => (y, exact_posterior N L k y)) (dom N k)) (last_named nm (jt_bbn_ids j) x)).
  Proof using HV HD.
    intros Hl Hj. destruct (lv_from _ _ _ _ Hl) as [o [L1 [j0 [j1 [x [t [ts [Ag [H [O ->]]]]]]]]]].
    change (jt_bbn_ids (set_jlistener j1 true)) with (jt_bbn_ids j1). change (get_posteriors (set_jlistener j1 true)) with (get_posteriors j1).
    assert (Hc : jconn j0). { apply jconn_ext with (set_jlistener j1 true); auto. destruct (oc_same _ _ _ _ _ _ _ _ _ O) as [S _]. simpl. auto. }
    assert (HL' : forall i v, In i (jt_bbn_ids j0) -> In v (dom N i) -> (0 <= L1 i v)%Qc).
    { intros i v Hi Hv. apply (jn_ids _ _ _ H) in Hi. rewrite (Ag i v Hi Hv). apply (lv_pos _ _ _ _ Hl); auto. }
    pose proof (oc_tr _ _ _ _ _ _ _ _ _ O) as HT.
    pose proof (trees_single _ _ _ _ _ (jn_JG _ _ _ H) Hc (x_clique _ _ (oc_x _ _ _ _ _ _ _ _ _ O)) HT) as Ets. subst ts.
    pose proof (vlist_perm N nm HV _ _ _ _ H HT) as P.
    assert (Hp : forall i, In i (vars N) -> get_bbn_potential j1 i = Ok (tab (dom N) [i] (fun a => exact_posterior N L i (a i)))).
    { intros i Hi. assert (Hv : In i (vlist t)) by (apply (Permutation_in _ (Permutation_sym P)); auto).
      rewrite (get_pot_tree _ _ _ L1 j0 j1 (jn_JG _ _ _ H) (jn_hg _ _ _ H) HL' o x t [] O i Hv). f_equal. rewrite !tab_one. apply map_ext_in. intros y Hy. f_equal.
      unfold postf, asg_of. simpl. rewrite Z.eqb_refl. rewrite postv_exact; auto; [|apply HD; auto].
      apply posterior_agree; auto. }
    split.
    - intros i Hi. exists (tab (dom N) [i] (fun a => exact_posterior N L i (a i))). split; [exact (Hp i Hi)|]. apply tab_is_table.
      + split; [repeat constructor; simpl; auto|]. intros v [<-|[]]. apply HD; auto.
      + intros a b E. rewrite (E i); simpl; auto.
    - eexists. unfold get_posteriors.
      assert (Hs : jt_bbn_ids j1 = jt_bbn_ids j0) by apply (same_ids _ _ (oc_same _ _ _ _ _ _ _ _ _ O)).
      assert (Hi1 : forall i, In i (jt_bbn_ids j1) -> In i (vars N)) by (intros i Hi; rewrite Hs in Hi; apply (jn_ids _ _ _ H); auto).
      split.
      + transitivity (foldM (fun d i => p <- (q <- get_bbn_potential j1 i ;; Ok (pot_to_map q)) ;; Ok (dset d (nm i) p)) (jt_bbn_ids j1) []).
        * apply foldM_ext. intros d i Hi. rewrite (Hp i) by auto. cbn [rbind]. do 3 f_equal. apply (jn_nm _ _ _ (lv_net _ _ _ _ Hl)). auto.
        * apply (fold_names_any nm _ (fun i => map (fun y => (y, exact_posterior N L i y)) (dom N i))).
          intros i Hi. rewrite (Hp i) by auto. cbn [rbind]. f_equal. rewrite pot_to_map_tab by (apply HD; auto). apply map_ext. intros y. unfold asg_of. simpl. rewrite Z.eqb_refl. auto.
      + intros y. rewrite last_fold. destruct (last_named nm (jt_bbn_ids j1) y); auto.
  Qed.
End Named.

Lemma c84 ops o h : shaped ops -> connected ops -> ord_ok o -> valid_history (net_of ops) h ->
  let N := net_of ops in let nm := net_name ops in let L := shown N (calls h) in
  exists j t, session o ops h = Ok j /\ Permutation (jt_bbn_ids j) (vars N) /\
    (forall i, In i (vars N) -> exists p, get_bbn_potential j i = Ok p /\ is_table (dom N) [i] (fun a => exact_posterior N L i (a i)) p) /\
    get_posteriors j = Ok t /\
    (forall x, dget t x = option_map (fun k => map (fun y => (y, exact_posterior N L k y)) (dom N k)) (last_named nm (jt_bbn_ids j) x)) /\
    (forall x, option_map n_id (get_bbn_node_by_name j x) = last_named nm (members j) x).
Proof.
  intros HW Hc Ho Hh N nm L. destruct (shaped_shows ops o h HW Ho Hh) as [j [A1 [A2 A3]]]. destruct (sw_live _ _ _ _ _ A2) as [ev Hl].
  destruct (live_named N nm (firsts_NoDup _) (sp_dom _ HW) L _ Hl (A3 Hc)) as [B1 [t [B2 B3]]].
  exists j, t. split; auto. split. { apply (jn_perm N nm (firsts_NoDup _) _ (lv_net _ _ _ _ Hl)). }
  split; [exact B1|]. split; [exact B2|]. split; [exact B3|]. intros x. apply (by_name_last N nm (set_jevid j ev) x). apply (lv_net _ _ _ _ Hl).
Qed.

(** ** too short tables *)
Lemma mapM_one {A B} (f : A -> res B) e l : (forall a, In a l -> (exists b, f a = Ok b) \/ f a = Err e) -> (exists a, In a l /\ f a = Err e) -> mapM f l = Err e.
Proof.
  intros H [a [Ha E]]. induction l as [|x l IH]; [destruct Ha|]. simpl. destruct (H x) as [[b Eb]|Eb]; [left; auto| |rewrite Eb; auto].
  rewrite Eb. cbn [rbind]. rewrite IH; auto. { intros; apply H; right; auto. }
  destruct Ha as [->|Ha]; auto. congruence.
Qed.
Lemma fill_probs_cases p : forall ps, (exists q, fill_probs p ps = Ok q) \/ fill_probs p ps = Err IndexError.
Proof. induction p as [|e p IH]; intros ps; simpl; eauto. destruct ps as [|q ps]; auto. destruct (IH ps) as [[r E]|E]; rewrite E; cbn [rbind]; eauto. Qed.
Lemma size_nodes dm l : (forall n, In n l -> n_values n = dm (n_id n)) -> List.length (potential_from_nodes (map nv l)) = size dm (map n_id l).
Proof.
  intros H. unfold potential_from_nodes. rewrite map_length.
  assert (E : map snd (map nv l) = map dm (map n_id l)). { rewrite !map_map. apply map_ext_in. intros n Hn. apply (H n Hn). }
  rewrite E, cartesian_len, <- size_vsize. auto.
Qed.
Lemma mapM_nodes g l : (forall i, In i l -> exists n, dget (g_nodes g) i = Some n /\ n_id n = i) ->
  exists ns, mapM (get_node g) l = Ok ns /\ map n_id ns = l /\ forall n, In n ns -> In n (dvals (g_nodes g)).
Proof.
  induction l as [|i l IH]; intros H. { exists []. repeat split; auto. intros ? []. }
  destruct (H i) as [n [E1 E2]]; [left; auto|]. destruct IH as [ns [I1 [I2 I3]]]; [intros; apply H; right; auto|].
  exists (n :: ns). split. { simpl. unfold get_node at 1. unfold dgetE. rewrite E1. cbn [rbind]. rewrite I1. auto. }
  split; [simpl; congruence|]. intros m [<-|Hm]; auto. apply dget_In in E1. apply in_map_iff. exists (i, n). auto.
Qed.

Lemma c84_short ops o : (exists i, In i (net_vars ops) /\ List.length (net_cpt ops i) < size (net_dom ops) (net_par ops i ++ [i])) -> apply o (build ops) = Err IndexError.
Proof.
  intros [i [Hi Hs]]. pose proof (build_inv ops) as B. unfold apply.
  assert (Hnd : NoDup (dkeys (g_nodes (b_g (build ops))))). { change (NoDup (ids (b_g (build ops)))). rewrite (bi_ids _ _ B). apply firsts_NoDup. }
  assert (Hn : forall k n, In (k, n) (g_nodes (b_g (build ops))) -> n_id n = k /\ net_dom ops k = n_values n /\ net_cpt ops k = n_probs n).
  { intros k n Hk. split; [apply (bi_kid _ _ B); auto|]. assert (E : node_of ops k = Some n) by (rewrite <- (bi_get _ _ B); apply dget_In_NoDup; auto).
    unfold net_dom, net_cpt. rewrite E. auto. }
  assert (Hg : forall k, In k (net_vars ops) -> exists n, dget (g_nodes (b_g (build ops))) k = Some n /\ n_id n = k).
  { intros k Hk. rewrite <- (bi_ids _ _ B) in Hk. destruct (dget (g_nodes (b_g (build ops))) k) as [n|] eqn:E.
    - exists n. split; auto. apply (bi_kid _ _ B). apply dget_In; auto.
    - exfalso. apply dget_None in E. auto. }
  assert (Hp : forall k n, In (k, n) (g_nodes (b_g (build ops))) -> exists ns, mapM (get_node (b_g (build ops))) (dgets (b_parents (build ops)) (n_id n)) = Ok ns /\
    map n_id ns = net_par ops k /\ forall m, In m (ns ++ [n]) -> n_values m = net_dom ops (n_id m)).
  { intros k n Hk. destruct (Hn _ _ Hk) as [E1 [E2 E3]]. rewrite E1, (bi_par _ _ B).
    destruct (mapM_nodes (b_g (build ops)) (net_par ops k)) as [ns [I1 [I2 I3]]]. { intros m Hm. apply Hg. apply (bi_ends _ _ B m k Hm). }
    exists ns. split; auto. split; auto. intros m Hm. apply in_app_or in Hm. destruct Hm as [Hm|[<-|[]]]; [|rewrite E1; auto].
    apply I3 in Hm. unfold dvals in Hm. apply in_map_iff in Hm. destruct Hm as [[k' m'] [Em Hm]]. simpl in Em. subst m'. destruct (Hn _ _ Hm) as [F1 [F2 F3]]. rewrite F1. auto. }
  replace (pot_init (build ops)) with (Err IndexError : res heap); auto. symmetry. unfold pot_init. apply mapM_one.
  - intros [k n] Hk. cbn [fst snd]. unfold init_node_pot. destruct (Hp k n Hk) as [ns [I1 _]]. rewrite I1. cbn [rbind]. unfold get_potential.
    destruct (fill_probs_cases (potential_from_nodes (map nv (ns ++ [n]))) (n_probs n)) as [[q E]|E]; rewrite E; cbn [rbind]; eauto.
  - destruct (Hg i Hi) as [n [E _]]. apply dget_In in E. exists (i, n). split; auto. cbn [fst snd]. unfold init_node_pot. destruct (Hp i n E) as [ns [I1 [I2 I3]]]. rewrite I1. cbn [rbind].
    unfold get_potential. rewrite fill_probs_short; auto. rewrite (size_nodes (net_dom ops)) by auto. rewrite map_app, I2. cbn [map].
    destruct (Hn _ _ E) as [F1 [F2 F3]]. rewrite F1, <- F3. auto.
Qed.

Lemma c84_empty ops o : net_vars ops = [] -> apply o (build ops) = Err IndexError.
Proof. intros E. destruct ops as [|[n|i j] ops]; [reflexivity|discriminate E|discriminate E]. Qed.

(** exactly which of the networks without numbers out of range can be used *)
Lemma c84_iff ops o : (forall n, In n (mentioned ops) -> n_mclq n = None) ->
  (forall i, In i (net_vars ops) -> NoDup (net_dom ops i) /\ net_dom ops i <> []) ->
  (forall i q, In i (net_vars ops) -> In q (net_cpt ops i) -> (0 <= q)%Qc) -> (forall i, ~ In i (net_par ops i)) -> ord_ok o ->
  (exists r, apply o (build ops) = Ok r) <-> net_vars ops <> [] /\ forall i, In i (net_vars ops) -> size (net_dom ops) (net_par ops i ++ [i]) <= List.length (net_cpt ops i).
Proof.
  intros H1 H2 H3 H4 Ho. split.
  - intros [r E]. split.
    + intros E0. rewrite (c84_empty ops o E0) in E. discriminate.
    + intros i Hi. destruct (Nat.le_gt_cases (size (net_dom ops) (net_par ops i ++ [i])) (List.length (net_cpt ops i))) as [Hle|Hlt]; auto.
      rewrite (c84_short ops o) in E by (exists i; auto). discriminate.
  - intros [H5 H6]. assert (HW : shaped ops) by (constructor; auto).
    destruct (apply_gen0 _ _ _ o (shaped_shape ops HW) (build_good ops) Ho) as [j0 [j [A1 [A2 [A3 [A4 [A5 [A6 _]]]]]]]].
    { intros j0 _ i n k Hn E. rewrite (shaped_fresh _ HW i n Hn) in E. discriminate. }
    eexists. exact A6.
Qed.
