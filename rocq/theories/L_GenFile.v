(** Files of generated networks. *)
From Coq Require Import Ascii.
From Verif Require Import Py M_Graph M_Node M_Pptc M_Nx M_GraphNx M_Gen M_Serde M_Csv M_GenFile Spec SpecNet SpecEv SpecPot SpecNx SpecDo SpecSer SpecCsv SpecSep L_Base L_UG L_Nx L_Gen L_Gen2 L_Ids L_Csv L_Csv2 L_R1 L_P8 L_R13 L_Part6 L_Sep4.
Open Scope nat_scope.

Lemma state_clean k : clean (state_name k).
Proof.
  unfold state_name. destruct (int_clean (Z.of_nat k)) as [C1 C2 C3 C4]. assert (L : forall s, list_ascii_of_string ("state" ++ s)%string = ["s"; "t"; "a"; "t"; "e"]%char ++ list_ascii_of_string s) by reflexivity. constructor.
  - discriminate.
  - intros c Hc. rewrite L in Hc. apply in_app_or in Hc. destruct Hc as [Hc|Hc]; auto. simpl in Hc. intros S. unfold special in S. destruct Hc as [<-|[<-|[<-|[<-|[<-|[]]]]]]; vm_compute in S; lia.
  - intros c l E. rewrite L in E. injection E as <- _. intros S. unfold white in S. vm_compute in S. lia.
  - intros c l E. rewrite L in E. destruct (list_ascii_of_string (str_of_Z (Z.of_nat k))) as [|d r] eqn:Ed.
    + exfalso. apply C1. destruct (str_of_Z (Z.of_nat k)); [auto|discriminate].
    + destruct (exists_last (l := d :: r)) as (r' & z & Ez); [discriminate|]. rewrite Ez in *. rewrite app_assoc in E. apply app_inj_tail in E. destruct E as [_ <-]. exact (C4 z r' eq_refl).
Qed.

Lemma generated_ops n g dir mv draws : n <> 0 -> mv <> 0 -> (forall i k m, 2 <= m -> prob_vector m (dir i k m)) ->
  dgood g -> dg_nodes g = upto n -> connected_on (dg_nodes g) (dg_edges g) -> acyclic (arc (dg_edges g)) ->
  match generate_parameters dir g mv draws with
  | Ok p => exists ops, convert_calls g p = Ok ops /\ valid_net n (dg_edges g) ops /\ clean_texts ops
  | Err x => x = OutOfFuel
  end.
Proof.
  intros Hn Hm Hd G HN HC HA. pose proof (generated_valid n g dir mv draws Hn Hm Hd G HN HC HA) as V. revert V. unfold generate_parameters. pose proof (num_values_ok (List.length (dg_nodes g)) mv draws Hm) as Hv.
  destruct (num_values _ mv draws) as [nv|x]; cbn [rbind]; auto. destruct Hv as [H1 H2]. rewrite HN, upto_length in H1.
  rewrite (params_fold n g nv G HN H1 H2 dir). intros _. exists (gops g nv dir). split; [apply (convert_ok g nv G dir)|]. split.
  - split; [apply (gshaped n); auto|]. split; [apply gconnected; auto|]. split; [apply gacyclic; auto|]. split; [apply (gstochastic n); auto|].
    rewrite gvars by auto. split; auto. split; [apply gparent; auto|]. intros i Hi. split.
    + rewrite gdom, map_length, seq_length by auto. eapply index_ok; eauto.
    + eapply gcpt_length; eauto.
  - intros i Hi. rewrite gvars in Hi by auto. split.
    + unfold net_name. rewrite gnode_of by auto. apply int_clean.
    + rewrite gdom by auto. intros v Hv. apply in_map_iff in Hv. destruct Hv as (k & <- & _). apply state_clean.
Qed.

Lemma generate_ops bbn_type dir n mi mv ints units draws : n <> 0 -> mv <> 0 -> Forall (below_n n) ints -> (forall i k m, 2 <= m -> prob_vector m (dir i k m)) ->
  match generate bbn_type dir n mi mv ints units draws with
  | Ok (g, p) => dg_nodes g = upto n /\ generate_parameters dir g mv draws = Ok p /\ exists ops, convert_calls g p = Ok ops /\ valid_net n (dg_edges g) ops /\ clean_texts ops
  | Err x => x = OutOfFuel
  end.
Proof.
  intros Hn Hm Hi Hd. unfold generate. destruct (String.eqb bbn_type "singly").
  - unfold generate_singly_bbn. destruct (tree_start n) as (_ & HT & _).
    pose proof (singly_loop_ok n Hn mi ints units (simple_ordered_tree n) Hi HT) as H. unfold singly_structure.
    destruct (singly_loop mi n ints units (simple_ordered_tree n)) as [g|]; cbn [rbind]; auto. destruct H as (G' & H1 & H2 & H3).
    assert (HL : List.length (dg_edges g) = List.length (dg_nodes g) - 1) by (rewrite H1, upto_length; auto).
    assert (HA : acyclic (E g)) by (apply (tree_acyclic (dg_nodes g)); auto; apply G').
    pose proof (generated_ops n g dir mv draws Hn Hm Hd G' H1 H2 HA) as K. destruct (generate_parameters dir g mv draws) as [p|] eqn:Ep; cbn [rbind]; auto.
  - unfold generate_multi_bbn. destruct (tree_start n) as (G & (_ & HN & HC & _) & HA).
    pose proof (multi_loop_ok n Hn mi ints (simple_ordered_tree n) Hi (conj G (conj HN (conj HC HA)))) as H. unfold multi_structure.
    destruct (multi_loop mi n ints (simple_ordered_tree n)) as [g|]; cbn [rbind]; auto. destruct H as (G' & H1 & H2 & H3).
    pose proof (generated_ops n g dir mv draws Hn Hm Hd G' H1 H2 H3) as K. destruct (generate_parameters dir g mv draws) as [p|] eqn:Ep; cbn [rbind]; auto.
Qed.

Lemma c63 : forall show read dir n path bbn_type max_iter max_values ints units draws, number_format show read -> n <> 0 -> max_values <> 0 -> Forall (below_n n) ints ->
  (forall i k m, 2 <= m -> prob_vector m (dir i k m)) ->
  match generate_bbn_to_file show dir n path bbn_type max_iter max_values ints units draws with
  | Ok f => exists g p ops ops', generate bbn_type dir n max_iter max_values ints units draws = Ok (g, p) /\ convert_calls g p = Ok ops /\ valid_net n (dg_edges g) ops /\
      bbn_from_file read f = Ok (build ops') /\ same_network ops ops' /\
      forall o h, ord_ok o -> valid_history (net_of ops) h ->
        exists b2 j j' t, apply o (build ops') = Ok (b2, j) /\ do_calls j h = (j', None) /\ get_posteriors j' = Ok t /\
          exact_table (net_of ops) (net_name ops) (shown (net_of ops) (calls h)) t
  | Err x => x = OutOfFuel
  end.
Proof.
  intros show read dir n path bt mi mv ints units draws Hf Hn Hm Hi Hd. unfold generate_bbn_to_file.
  pose proof (generate_ops bt dir n mi mv ints units draws Hn Hm Hi Hd) as H. destruct (generate bt dir n mi mv ints units draws) as [[g p]|x] eqn:Eg; cbn [rbind]; auto.
  destruct H as (_ & _ & ops & Hc & V & C). cbn [fst snd]. unfold convert_for_exact_inference. rewrite Hc. cbn [rbind]. exists g, p, ops.
  assert (K : exists ops', bbn_from_file read (if endswith path "csv" then CsvFile (to_csv show (build ops)) else JsonFile (json_bbn (bbn_to_dict (build ops)))) = Ok (build ops') /\ same_network ops ops').
  { destruct (endswith path "csv"); [exact (c21 show read ops Hf C)|exact (c20 ops true)]. }
  destruct K as (ops' & K1 & K2). exists ops'. split; auto. split; auto. split; auto. split; auto. split; auto. intros o h. destruct V as (W & Cn & _). apply same_posteriors; auto.
Qed.

Lemma c64 : forall bbn_type dir n max_iter max_values ints units draws g p pretty, n <> 0 -> max_values <> 0 -> Forall (below_n n) ints ->
  (forall i k m, 2 <= m -> prob_vector m (dir i k m)) -> generate bbn_type dir n max_iter max_values ints units draws = Ok (g, p) -> gen_to_json g p pretty = Err TypeError.
Proof.
  intros bt dir n mi mv ints units draws g p pretty Hn Hm Hi Hd E. pose proof (generate_ops bt dir n mi mv ints units draws Hn Hm Hi Hd) as H. rewrite E in H. destruct H as (HN & Ep & ops & Hc & _).
  assert (Hp : p <> []). { intros ->. unfold convert_calls in Hc. rewrite HN in Hc. destruct n; [tauto|]. discriminate. }
  destruct p as [|[k x] p]; [tauto|]. unfold gen_to_json, json_dumps. cbn. rewrite !andb_false_r. auto.
Qed.

Lemma drawing_nx b : convert_for_drawing b = fst (to_nx_graph n_id n_name (b_g b)).
Proof. reflexivity. Qed.
Lemma c65 : forall bbn_type dir n max_iter max_values ints units draws, n <> 0 -> max_values <> 0 -> Forall (below_n n) ints ->
  (forall i k m, 2 <= m -> prob_vector m (dir i k m)) ->
  match generate bbn_type dir n max_iter max_values ints units draws with
  | Ok (g, p) => exists b, convert_for_exact_inference g p = Ok b /\ dg_nodes (convert_for_drawing b) = dg_nodes g /\
      NoDup (dg_edges (convert_for_drawing b)) /\ forall e, In e (dg_edges (convert_for_drawing b)) <-> In e (dg_edges g)
  | Err x => x = OutOfFuel
  end.
Proof.
  intros bt dir n mi mv ints units draws Hn Hm Hi Hd. pose proof (generate_ops bt dir n mi mv ints units draws Hn Hm Hi Hd) as H.
  destruct (generate bt dir n mi mv ints units draws) as [[g p]|x]; auto. destruct H as (HN & _ & ops & Hc & (W & _ & _ & _ & V1 & V2 & _) & _).
  exists (build ops). unfold convert_for_exact_inference. rewrite Hc. split; auto. rewrite drawing_nx. fold (net_graph ops). destruct (net_graph_ok ops W) as (G1 & G2 & G3).
  split; [rewrite G1, V1, HN; reflexivity|]. split; [apply G2|]. intros [u v]. rewrite (G3 u v). apply V2.
Qed.
Lemma edge_exists_ok g i j : edge_exists i j g = if mem i (dg_nodes g) then Ok (dg_has_edge g i j) else Err NetworkXError.
Proof.
  unfold edge_exists, successors. destruct (mem i (dg_nodes g)); auto. cbn [rbind]. f_equal. unfold dg_has_edge, succs. apply Bool.eq_iff_eq_true. rewrite mem_In, in_map_iff, existsb_exists. split.
  - intros ([a b] & <- & H). apply filter_In in H. destruct H as [H1 H2]. exists (a, b). split; auto. rewrite H2. simpl. apply Z.eqb_refl.
  - intros ([a b] & H1 & H2). apply andb_true_iff in H2. destruct H2 as [H2 H3]. exists (a, b). split; [|apply filter_In; auto]. simpl in *. apply Z.eqb_eq. auto.
Qed.
