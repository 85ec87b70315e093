(** Generated parameters and the network made of them. *)
From Verif Require Import Py M_Graph M_Node M_Pptc M_Nx M_Gen Spec SpecNet SpecEv SpecPot SpecNx SpecSamp L_Base L_Sums L_Table L_PD L_Forest L_UG L_Ids L_Build L_Check L_Apply L_Samp L_Samp2 L_P1 L_Nx L_Gen.
Open Scope nat_scope.

Lemma foldM_dset {V} (F : list (Z * V) -> Z -> res (list (Z * V))) (h : Z -> V) ks :
  (forall d i, In i ks -> F d i = Ok (dset d i (h i))) -> NoDup ks -> foldM F ks [] = Ok (map (fun i => (i, h i)) ks).
Proof.
  intros HF HN. assert (G : forall ks1 ks2, ks = ks1 ++ ks2 -> foldM F ks2 (map (fun i => (i, h i)) ks1) = Ok (map (fun i => (i, h i)) ks)).
  { intros ks1 ks2. revert ks1. induction ks2 as [|k ks2 IH]; intros ks1 E. { rewrite app_nil_r in E. subst. auto. }
    cbn [foldM]. rewrite HF by (rewrite E; apply in_or_app; simpl; auto). cbn [rbind].
    assert (Ed : dset (map (fun i => (i, h i)) ks1) k (h k) = map (fun i => (i, h i)) (ks1 ++ [k])).
    { rewrite map_app. simpl. assert (~ In k ks1). { rewrite E in HN. apply NoDup_remove_2 in HN. rewrite in_app_iff in HN. tauto. }
      clear - H. induction ks1 as [|a ks1 IH]; simpl; auto. destruct (Z.eq_dec a k) as [->|Hn]; [simpl in H; tauto|].
      match goal with |- context [Z.eqb ?a ?b] => destruct (Z.eqb_spec a b); [congruence|] end. rewrite IH; auto. simpl in H; tauto. }
    rewrite Ed. apply IH. rewrite E, <- app_assoc. auto. }
  apply (G [] ks); auto.
Qed.
Lemma dget_keys {V} (h : Z -> V) ks i : In i ks -> dgetE (map (fun i => (i, h i)) ks) i = Ok (h i).
Proof.
  intros H. apply dgetE_Ok. induction ks as [|k ks IH]; [destruct H|]. simpl. destruct (Z.eq_dec k i) as [->|Hn]; [rewrite Z.eqb_refl; auto|].
  match goal with |- context [Z.eqb ?a ?b] => destruct (Z.eqb_spec a b); [congruence|] end. destruct H; [congruence|auto].
Qed.

Section Params.
  Variables (n : nat) (g : digraph) (nv : list nat).
  Hypothesis G : dgood g.
  Hypothesis HN : dg_nodes g = upto n.
  Hypothesis Hnv : List.length nv = n.
  Hypothesis Hn2 : Forall (fun k => 2 <= k) nv.
  Variable dir : Z -> nat -> nat -> list Qc.
  Hypothesis Hdir : forall i k m, 2 <= m -> prob_vector m (dir i k m).

  Definition nvi (i : Z) : nat := nth (Z.to_nat i) nv 0.
  Lemma index_ok i : In i (dg_nodes g) -> indexE nv i = Ok (nvi i) /\ 2 <= nvi i.
  Proof.
    intros H. rewrite HN in H. apply upto_In in H. unfold below_n in H. unfold indexE, nvi. destruct (Z.ltb_spec i 0); [lia|].
    assert (Hl : Z.to_nat i < List.length nv) by lia. rewrite (nth_error_nth' nv 0 Hl). split; auto. rewrite Forall_forall in Hn2. apply Hn2, nth_In; auto.
  Qed.
  Definition npi (ps : list Z) : nat := fold_left (fun acc pa => acc * nvi pa) ps 1.
  Lemma npi_ok ps : incl ps (dg_nodes g) -> num_parent_instantiations ps nv = Ok (npi ps).
  Proof.
    unfold num_parent_instantiations, npi. generalize 1 as acc. induction ps as [|p ps IH]; intros acc H; simpl; auto.
    destruct (index_ok p) as [E _]. { apply H; simpl; auto. } rewrite E. cbn [rbind]. apply IH. intros x Hx; apply H; simpl; auto.
  Qed.
  Definition gp_of (i : Z) : gparams := mkGp (preds g i) (map (fun k => dir i k (nvi i)) (seq 0 (npi (preds g i)))) (npi (preds g i), nvi i).
  Lemma params_fold : foldM (fun d i =>
           parents <- predecessors g i ;;
           params <- dirichlet_parameters dir i parents nv ;;
           m <- num_parent_instantiations parents nv ;;
           n <- indexE nv i ;;
           Ok (dset d i (mkGp parents params (m, n)))) (dg_nodes g) [] = Ok (map (fun i => (i, gp_of i)) (dg_nodes g)).
  Proof.
    apply foldM_dset; [|apply G]. intros d i Hi. unfold predecessors. rewrite (proj2 (mem_In _ _) Hi). cbn [rbind]. unfold dirichlet_parameters.
    rewrite npi_ok by (intros p Hp; apply preds_In, (dg_in _ G) in Hp; tauto). cbn [rbind]. destruct (index_ok i Hi) as [E _]. rewrite E. cbn [rbind]. auto.
  Qed.

  Definition gnode (i : Z) : bnode := new_node i (str_of_Z i) (map state_name (seq 0 (nvi i))) (List.concat (gp_params (gp_of i))).
  Definition gops : list bop := map AddNode (map gnode (dg_nodes g)) ++ map (fun e => AddEdge (gnode (fst e)) (gnode (snd e))) (edge_list g).
  Lemma convert_ok : convert_calls g (map (fun i => (i, gp_of i)) (dg_nodes g)) = Ok gops.
  Proof.
    unfold convert_calls. rewrite (foldM_dset _ gnode); [|intros d i Hi|apply G].
    - cbn [rbind]. rewrite (mapM_all _ (fun e => AddEdge (gnode (fst e)) (gnode (snd e)))).
      + cbn [rbind]. unfold gops. rewrite !map_map. auto.
      + intros [a b] He. apply (edge_list_In g G) in He. destruct (dg_in _ G a b He). simpl fst; simpl snd. rewrite !dget_keys by auto. auto.
    - unfold exact_node. rewrite dget_keys by auto. auto.
  Qed.

  Lemma gmentioned : mentioned gops = map gnode (dg_nodes g) ++ flat_map (fun e => [gnode (fst e); gnode (snd e)]) (edge_list g).
  Proof.
    unfold gops, mentioned. rewrite flat_map_app. f_equal.
    - generalize (dg_nodes g) as l. induction l as [|a l IH]; [reflexivity|]. cbn [map flat_map op_nodes app]. rewrite IH. reflexivity.
    - generalize (edge_list g) as l. induction l as [|a l IH]; [reflexivity|]. cbn [map flat_map op_nodes app]. rewrite IH. reflexivity.
  Qed.
  Lemma mentioned_form m : In m (mentioned gops) -> exists i, In i (dg_nodes g) /\ m = gnode i.
  Proof.
    rewrite gmentioned, in_app_iff, in_map_iff, in_flat_map. intros [(i & <- & H)|([a b] & H1 & H2)]; eauto.
    apply (edge_list_In g G), (dg_in _ G) in H1. destruct H2 as [<-|[<-|[]]]; simpl; eexists; split; try reflexivity; tauto.
  Qed.
  Lemma gvars : net_vars gops = dg_nodes g.
  Proof.
    unfold net_vars. rewrite gmentioned, map_app, map_map. simpl. rewrite map_id.
    assert (Hl : incl (map n_id (flat_map (fun e => [gnode (fst e); gnode (snd e)]) (edge_list g))) (dg_nodes g)).
    { intros x Hx. apply in_map_iff in Hx as (m & <- & Hm). assert (In m (mentioned gops)) as H by (rewrite gmentioned, in_app_iff; auto).
      apply mentioned_form in H as (i & Hi & ->). auto. }
    revert Hl. generalize (map n_id (flat_map (fun e => [gnode (fst e); gnode (snd e)]) (edge_list g))) as l. intros l.
    induction l as [|x l IH] using rev_ind; intros Hl.
    - rewrite app_nil_r. apply firsts_id, G.
    - rewrite app_assoc, firsts_snoc. assert (mem x (dg_nodes g ++ l) = true) as ->. { apply mem_In, in_or_app. left. apply Hl, in_or_app; simpl; auto. }
      apply IH. intros y Hy. apply Hl, in_or_app; auto.
  Qed.
  Lemma gnode_of i : In i (dg_nodes g) -> node_of gops i = Some (gnode i).
  Proof.
    intros H. destruct (node_of gops i) as [m|] eqn:E; [|apply node_of_None in E; rewrite gvars in E; tauto].
    apply node_of_Some in E as [H1 H2]. apply mentioned_form in H1 as (k & Hk & ->). simpl in H2. congruence.
  Qed.
  Lemma gpar_In i j : In i (net_par gops j) <-> In (i, j) (dg_edges g).
  Proof.
    unfold net_par. rewrite firsts_In. unfold gops. rewrite flat_map_app, in_app_iff, !in_flat_map. rewrite <- (edge_list_In g G (i, j)). split.
    - intros [(op & H1 & H2)|(op & H1 & H2)].
      + rewrite map_map in H1. apply in_map_iff in H1 as (k & <- & _). destruct H2.
      + apply in_map_iff in H1 as ([a b] & <- & H1). simpl in H2. destruct (Z.eqb_spec b j) as [->|]; [|destruct H2]. destruct H2 as [<-|[]]. auto.
    - intros H. right. exists (AddEdge (gnode i) (gnode j)). split. { apply in_map_iff. exists (i, j). auto. } simpl. rewrite Z.eqb_refl. simpl; auto.
  Qed.
  Lemma preds_NoDup j : NoDup (preds g j).
  Proof.
    unfold preds. pose proof (dg_ne _ G) as H. revert H. generalize (dg_edges g) as l. induction l as [|[a b] l IH]; intros H; simpl; [constructor|].
    inversion_clear H as [|? ? H1 H2]. destruct (Z.eqb_spec b j) as [->|]; auto. simpl. constructor; auto. intros C. apply in_map_iff in C as ([c d] & Ec & Hc).
    apply filter_In in Hc as [Hc Hd]. simpl in *. apply Z.eqb_eq in Hd. subst. auto.
  Qed.
  Lemma gpar_perm j : Permutation (net_par gops j) (preds g j).
  Proof. apply NoDup_Permutation. apply firsts_NoDup. apply preds_NoDup. intros i. rewrite gpar_In, preds_In. tauto. Qed.
  Lemma gdom i : In i (dg_nodes g) -> net_dom gops i = map state_name (seq 0 (nvi i)).
  Proof. intros H. unfold net_dom. rewrite gnode_of by auto. reflexivity. Qed.
  Lemma gcpt i : In i (dg_nodes g) -> net_cpt gops i = List.concat (map (fun k => dir i k (nvi i)) (seq 0 (npi (preds g i)))).
  Proof. intros H. unfold net_cpt. rewrite gnode_of by auto. reflexivity. Qed.
  Lemma npi_size ps : incl ps (dg_nodes g) -> npi ps = size (net_dom gops) ps.
  Proof.
    intros H. unfold npi. assert (Ga : forall acc, fold_left (fun acc pa => acc * nvi pa) ps acc = acc * size (net_dom gops) ps).
    { revert H. induction ps as [|p ps IH]; intros H acc; simpl; [lia|]. rewrite IH by (intros x Hx; apply H; simpl; auto).
      rewrite gdom by (apply H; simpl; auto). rewrite map_length, seq_length. lia. }
    rewrite Ga. lia.
  Qed.
  Lemma preds_incl i : incl (preds g i) (dg_nodes g).
  Proof. intros p Hp. apply preds_In, (dg_in _ G) in Hp. tauto. Qed.
  Lemma gsize i : In i (dg_nodes g) -> size (net_dom gops) (net_par gops i ++ [i]) = npi (preds g i) * nvi i.
  Proof.
    intros H. rewrite size_app, (size_perm _ _ _ (gpar_perm i)), <- npi_size by apply preds_incl. simpl. rewrite gdom, map_length, seq_length by auto. lia.
  Qed.
  Lemma concat_length (L : list (list Qc)) m : Forall (fun l => List.length l = m) L -> List.length (List.concat L) = List.length L * m.
  Proof. induction 1; simpl; auto. rewrite app_length. lia. Qed.
  Lemma concat_row (L : list (list Qc)) m : Forall (fun l => List.length l = m) L -> forall r, r < List.length L ->
    firstn m (skipn (r * m) (List.concat L)) = nth r L [].
  Proof.
    induction 1 as [|l L H1 H2 IH]; intros r Hr; simpl in Hr; [lia|]. destruct r as [|r]; simpl.
    - rewrite firstn_app, H1, Nat.sub_diag. rewrite firstn_all2 by lia. simpl. apply app_nil_r.
    - rewrite skipn_app, H1. rewrite (skipn_all2 l) by lia. simpl. replace (m + r * m - m) with (r * m) by lia. apply IH. lia.
  Qed.
  Lemma grows i : In i (dg_nodes g) -> Forall (prob_vector (nvi i)) (map (fun k => dir i k (nvi i)) (seq 0 (npi (preds g i)))).
  Proof. intros H. apply Forall_forall. intros l Hl. apply in_map_iff in Hl as (k & <- & _). apply Hdir. apply index_ok; auto. Qed.
  Lemma gcpt_length i : In i (dg_nodes g) -> List.length (net_cpt gops i) = size (net_dom gops) (net_par gops i ++ [i]).
  Proof.
    intros H. rewrite gcpt, gsize by auto. rewrite (concat_length _ (nvi i)). rewrite map_length, seq_length. auto.
    eapply Forall_impl; [|apply grows; auto]. intros l [? _]; auto.
  Qed.
  Lemma state_inj a b : state_name a = state_name b -> a = b.
  Proof. unfold state_name. simpl. intros E. injection E as E. apply str_of_Z_inj in E. lia. Qed.
  Lemma gdom_NoDup i : In i (dg_nodes g) -> NoDup (net_dom gops i).
  Proof. intros H. rewrite gdom by auto. apply NoDup_map_inj; [intros; apply state_inj; auto|apply seq_NoDup]. Qed.

  Hypothesis Hn : n <> 0.
  Hypothesis HC : connected_on (dg_nodes g) (dg_edges g).
  Hypothesis HA : acyclic (E g).

  Lemma gparent i j : is_parent (net_of gops) i j <-> In (i, j) (dg_edges g).
  Proof.
    unfold is_parent. simpl. rewrite gvars. split.
    - intros [_ H]. apply gpar_In in H; auto.
    - intros H. split; [apply (dg_in _ G i j H)|apply gpar_In; auto].
  Qed.
  Lemma gacyclic : acyclic (is_parent (net_of gops)).
  Proof.
    intros x y H Hp. apply (HA x y). apply gparent; auto. revert Hp. apply path_mono. intros a b. apply gparent.
  Qed.
  Lemma gshaped : well_shaped gops.
  Proof.
    constructor.
    - intros m Hm. apply mentioned_form in Hm as (i & _ & ->). auto.
    - rewrite gvars, HN. destruct n; [tauto|]. discriminate.
    - rewrite gvars. intros i Hi. split; [apply gdom_NoDup; auto|]. rewrite gdom by auto. destruct (index_ok i Hi) as [_ H]. destruct (nvi i); [lia|]. discriminate.
    - rewrite gvars. intros i Hi. rewrite gcpt_length; auto.
    - rewrite gvars. intros i q Hi Hq. rewrite gcpt in Hq by auto. apply in_concat in Hq as (l & Hl & Hq). pose proof (grows i Hi) as Gr. rewrite Forall_forall in Gr.
      apply Gr in Hl as (_ & Hf & _). rewrite Forall_forall in Hf. auto.
    - intros i Hi. apply gpar_In in Hi. apply (HA i i Hi). apply path_refl.
    - rewrite gvars. rewrite (map_ext_in _ str_of_Z). { apply NoDup_map_inj; [intros; apply str_of_Z_inj; auto|apply G]. }
      intros i Hi. unfold net_name. rewrite gnode_of by auto. auto.
  Qed.
  Lemma gconnected : connected gops.
  Proof.
    intros u v. rewrite gvars. intros Hu Hv. specialize (HC u v Hu Hv). revert HC. apply path_mono. intros a b [H|H]; [left|right]; apply gparent; auto.
  Qed.
  Lemma gstochastic : stochastic (net_of gops).
  Proof.
    intros v a Hv Ha. simpl in Hv. rewrite gvars in Hv. simpl in Ha. change (qsum (row_for (net_dom gops) (net_cpt gops v) (net_par gops v) v a) = 1%Qc).
    rewrite <- slice_row; auto.
    - rewrite gcpt by auto. rewrite gdom, map_length, seq_length by auto. rewrite concat_row.
      + pose proof (grows v Hv) as Gr. rewrite Forall_forall in Gr. apply Gr, nth_In. rewrite map_length, seq_length, npi_size by apply preds_incl. rewrite <- (size_perm _ _ _ (gpar_perm v)). apply row_index_lt; auto.
      + eapply Forall_impl; [|apply grows; auto]. intros l [? _]; auto.
      + rewrite map_length, seq_length, npi_size by apply preds_incl. rewrite <- (size_perm _ _ _ (gpar_perm v)). apply row_index_lt; auto.
    - intros C. apply gpar_In in C. apply (HA v v C). apply path_refl.
    - apply gdom_NoDup; auto.
    - rewrite gcpt_length; auto.
  Qed.
End Params.

Lemma num_values_ok n mv draws : mv <> 0 -> match num_values n mv draws with Ok nv => List.length nv = n /\ Forall (fun k => 2 <= k) nv | Err x => x = OutOfFuel end.
Proof.
  intros Hm. unfold num_values. destruct (Nat.eqb_spec mv 0); [tauto|]. simpl andb. destruct (Nat.ltb_spec (List.length draws) n); auto.
  split. rewrite map_length, firstn_length. lia. apply Forall_forall. intros k Hk. apply in_map_iff in Hk as (d & <- & _). lia.
Qed.

Lemma generated_valid n g dir mv draws : n <> 0 -> mv <> 0 -> (forall i k m, 2 <= m -> prob_vector m (dir i k m)) ->
  dgood g -> dg_nodes g = upto n -> connected_on (dg_nodes g) (dg_edges g) -> acyclic (E g) ->
  match generate_parameters dir g mv draws with
  | Ok p => exists ops, convert_for_exact_inference g p = Ok (build ops) /\ valid_net n (dg_edges g) ops
  | Err x => x = OutOfFuel
  end.
Proof.
  intros Hn Hm Hd G HN HC HA. unfold generate_parameters. pose proof (num_values_ok (List.length (dg_nodes g)) mv draws Hm) as Hv.
  destruct (num_values _ mv draws) as [nv|x]; cbn [rbind]; auto. destruct Hv as [H1 H2]. rewrite HN, upto_length in H1.
  rewrite (params_fold n g nv G HN H1 H2 dir). exists (gops g nv dir). split.
  - unfold convert_for_exact_inference. rewrite (convert_ok g nv G dir). auto.
  - split; [apply (gshaped n); auto|]. split; [apply gconnected; auto|]. split; [apply gacyclic; auto|]. split; [apply (gstochastic n); auto|].
    rewrite gvars by auto. split; auto. split; [apply gparent; auto|]. intros i Hi. split.
    + rewrite gdom, map_length, seq_length by auto. eapply index_ok; eauto.
    + eapply gcpt_length; eauto.
Qed.

Lemma c41_multi : forall dir n max_iter max_values ints draws, n <> 0 -> max_values <> 0 -> Forall (below_n n) ints ->
  (forall i k m, 2 <= m -> prob_vector m (dir i k m)) ->
  match generate_multi_bbn dir n max_iter max_values ints draws with
  | Ok (g, p) => exists ops, convert_for_exact_inference g p = Ok (build ops) /\ valid_net n (dg_edges g) ops /\
      forall o, ord_ok o -> exists b j t, apply o (build ops) = Ok (b, j) /\ get_posteriors j = Ok t /\ exact_table (net_of ops) (net_name ops) no_evidence t
  | Err x => x = OutOfFuel
  end.
Proof.
  intros dir n mi mv ints draws Hn Hm Hi Hd. unfold generate_multi_bbn. destruct (tree_start n) as (G & (_ & HN & HC & _) & HA).
  pose proof (multi_loop_ok n Hn mi ints (simple_ordered_tree n) Hi (conj G (conj HN (conj HC HA)))) as H. unfold multi_structure.
  destruct (multi_loop mi n ints (simple_ordered_tree n)) as [g|]; cbn [rbind]; auto. destruct H as (G' & H1 & H2 & H3).
  pose proof (generated_valid n g dir mv draws Hn Hm Hd G' H1 H2 H3) as K. destruct (generate_parameters dir g mv draws) as [p|]; cbn [rbind]; auto.
  destruct K as (ops & K1 & K2). exists ops. split; auto. split; auto. intros o Ho. destruct K2 as (W & C & _). apply c01; auto.
Qed.
Lemma c41_singly : forall dir n max_iter max_values ints units draws, n <> 0 -> max_values <> 0 -> Forall (below_n n) ints ->
  (forall i k m, 2 <= m -> prob_vector m (dir i k m)) ->
  match generate_singly_bbn dir n max_iter max_values ints units draws with
  | Ok (g, p) => exists ops, convert_for_exact_inference g p = Ok (build ops) /\ valid_net n (dg_edges g) ops /\
      forall o, ord_ok o -> exists b j t, apply o (build ops) = Ok (b, j) /\ get_posteriors j = Ok t /\ exact_table (net_of ops) (net_name ops) no_evidence t
  | Err x => x = OutOfFuel
  end.
Proof.
  intros dir n mi mv ints units draws Hn Hm Hi Hd. unfold generate_singly_bbn. destruct (tree_start n) as (_ & HT & _).
  pose proof (singly_loop_ok n Hn mi ints units (simple_ordered_tree n) Hi HT) as H. unfold singly_structure.
  destruct (singly_loop mi n ints units (simple_ordered_tree n)) as [g|]; cbn [rbind]; auto. destruct H as (G' & H1 & H2 & H3).
  assert (HL : List.length (dg_edges g) = List.length (dg_nodes g) - 1) by (rewrite H1, upto_length; auto).
  assert (HA : acyclic (E g)) by (apply (tree_acyclic (dg_nodes g)); auto; apply G').
  pose proof (generated_valid n g dir mv draws Hn Hm Hd G' H1 H2 HA) as K. destruct (generate_parameters dir g mv draws) as [p|]; cbn [rbind]; auto.
  destruct K as (ops & K1 & K2). exists ops. split; auto. split; auto. intros o Ho. destruct K2 as (W & C & _). apply c01; auto.
Qed.

(** ** progress *)
Lemma pair_draw n i j rest : n <> 0 -> i <> j -> random_node_pair n (i :: j :: rest) = Ok (i, j, rest).
Proof.
  intros Hn Hij. unfold random_node_pair, randint. destruct (Nat.eqb_spec n 0); [tauto|]. cbn [rbind fst snd other_than]. simpl.
  destruct (Z.eqb_spec j i); [congruence|]. auto.
Qed.
Lemma multi_progress : forall n pairs, n <> 0 -> Forall (fun e => below_n n (fst e) /\ below_n n (snd e) /\ fst e <> snd e) pairs ->
  exists g, multi_structure n (List.length pairs) (flat_map (fun e => [fst e; snd e]) pairs) = Ok g.
Proof.
  intros n pairs Hn H. unfold multi_structure. destruct (tree_start n) as (G & (_ & HN & HC & _) & HA).
  assert (K : conn_dag n (simple_ordered_tree n)) by exact (conj G (conj HN (conj HC HA))).
  revert K. generalize (simple_ordered_tree n). induction H as [|[i j] l (H1 & H2 & H3) HF IH]; intros g Hg; [exists g; auto|].
  simpl List.length. simpl flat_map. cbn [multi_loop]. rewrite pair_draw by auto. cbn [rbind]. simpl in H1, H2.
  destruct (multi_step n Hn g i j Hg H1 H2) as (g' & Eg & Hg'). rewrite Eg. cbn [rbind]. apply IH; auto.
Qed.
Lemma singly_progress : forall n pairs units, n <> 0 -> Forall (fun e => below_n n (fst e) /\ below_n n (snd e) /\ fst e <> snd e) pairs ->
  List.length pairs <= List.length units ->
  exists g, singly_structure n (List.length pairs) (flat_map (fun e => [fst e; snd e]) pairs) units = Ok g.
Proof.
  intros n pairs units Hn H. unfold singly_structure. destruct (tree_start n) as (_ & HT & _). revert units.
  revert HT. generalize (simple_ordered_tree n). induction H as [|[i j] l (H1 & H2 & H3) HF IH]; intros g Hg units Hu; [exists g; auto|].
  simpl List.length in *. simpl flat_map. cbn [singly_loop]. rewrite pair_draw by auto. cbn [rbind]. simpl in H1, H2.
  destruct (dg_has_edge g i j || dg_has_edge g j i) eqn:Ee; [apply IH; auto; lia|]. apply orb_false_iff in Ee as [E1 E2]. apply has_edge_false in E1, E2.
  destruct units as [|u units]; [simpl in Hu; lia|]. destruct (singly_step_ok n Hn g i j u Hg H1 H2 H3 E1 E2) as (g' & Eg & Hg'). rewrite Eg. cbn [rbind].
  apply IH; auto. simpl in Hu; lia.
Qed.
Lemma one_node_stuck : forall k ints units, Forall (below_n 1) ints ->
  multi_structure 1 (S k) ints = Err OutOfFuel /\ singly_structure 1 (S k) ints units = Err OutOfFuel.
Proof.
  intros k ints units H. assert (E : random_node_pair 1 ints = Err OutOfFuel).
  { destruct (random_node_pair 1 ints) as [[[i j] l]|x] eqn:Ep; [|f_equal; apply (pair_err 1 ints x); auto].
    apply draws_in in Ep; auto. unfold below_n in Ep. lia. }
  unfold multi_structure, singly_structure. cbn [multi_loop singly_loop]. rewrite E. auto.
Qed.

Lemma c49_part : forall dir n max_iter max_values ints draws g p ops i x, n <> 0 -> max_values <> 0 -> Forall (below_n n) ints ->
  generate_multi_bbn dir n max_iter max_values ints draws = Ok (g, p) -> convert_calls g p = Ok ops -> dget p i = Some x ->
  Permutation (gp_parents x) (net_par ops i) /\ gp_shape x = (size (net_dom ops) (net_par ops i), List.length (net_dom ops i)).
Proof.
  intros dir n mi mv ints draws g p ops i x Hn Hm Hi E Ec Ex. unfold generate_multi_bbn in E. destruct (tree_start n) as (G & (_ & HN & HC & _) & HA).
  pose proof (multi_loop_ok n Hn mi ints (simple_ordered_tree n) Hi (conj G (conj HN (conj HC HA)))) as H. unfold multi_structure in E.
  destruct (multi_loop mi n ints (simple_ordered_tree n)) as [g0|]; cbn [rbind] in E; [|discriminate]. destruct H as (G' & H1 & _).
  unfold generate_parameters in E. pose proof (num_values_ok (List.length (dg_nodes g0)) mv draws Hm) as Hv.
  destruct (num_values _ mv draws) as [nv|y]; cbn [rbind] in E; [|discriminate]. destruct Hv as [L1 L2]. rewrite H1, upto_length in L1.
  rewrite (params_fold n g0 nv G' H1 L1 L2 dir) in E. cbn [rbind] in E. injection E as <- <-. rewrite (convert_ok g0 nv G' dir) in Ec. injection Ec as <-.
  assert (Hin : In i (dg_nodes g0)). { apply dget_Some_key in Ex. unfold dkeys in Ex. rewrite map_map, map_id in Ex. auto. }
  apply dgetE_Ok in Ex. rewrite dget_keys in Ex by auto. injection Ex as <-. simpl gp_parents. simpl gp_shape. split.
  - apply Permutation_sym, (gpar_perm n); auto.
  - rewrite (size_perm _ _ _ (gpar_perm n g0 nv G' H1 L1 dir i)), <- (npi_size n g0 nv G' L1 dir) by (apply preds_incl; auto). rewrite gdom, map_length, seq_length by auto. auto.
Qed.
