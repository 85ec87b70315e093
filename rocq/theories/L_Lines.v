(** CSV files with their lines in any order. *)
From Coq Require Import Ascii.
From Verif Require Import Py M_Graph M_Node M_Pptc M_Serde M_Factory M_Csv Spec SpecNet SpecEv SpecSer SpecCsv SpecShuf SpecLines L_Base L_Ids L_UG L_Moral L_Serde L_Build L_Table L_P8 L_Plain L_Csv L_Csv2 L_Shuf4 L_Check Ex L_R1 L_R7 L_R13.
Open Scope nat_scope.

Definition nodes_of (l : list csv_item) : list bnode := flat_map (fun x => match x with ANode n => [n] | AnEdge _ => [] end) l.
Definition edges_of (l : list csv_item) : list (edge bnode) := flat_map (fun x => match x with ANode _ => [] | AnEdge e => [e] end) l.
Lemma file_nodes ns es : nodes_of (map ANode ns ++ map AnEdge es) = ns.
Proof. unfold nodes_of. rewrite flat_map_app. assert (E : flat_map (fun x => match x with ANode n => [n] | AnEdge _ => [] end) (map AnEdge es) = []) by (induction es; simpl; auto). rewrite E, app_nil_r. induction ns; simpl; congruence. Qed.
Lemma file_edges ns es : edges_of (map ANode ns ++ map AnEdge es) = es.
Proof. unfold edges_of. rewrite flat_map_app. assert (E : flat_map (fun x => match x with ANode _ => [] | AnEdge e => [e] end) (map ANode ns) = []) by (induction ns; simpl; auto). rewrite E. simpl. induction es; simpl; congruence. Qed.
Lemma flat_map_perm {A B} (f : A -> list B) l l' : Permutation l l' -> Permutation (flat_map f l) (flat_map f l').
Proof. induction 1; simpl; auto. - apply Permutation_app_head; auto. - rewrite !app_assoc. apply Permutation_app_tail, Permutation_app_comm. - etransitivity; eauto. Qed.
Lemma arrows_edges j l : arrows j l = map fst (filter (fun p => Z.eqb (snd p) j) (map ends_of (edges_of l))).
Proof. unfold arrows, edges_of. induction l as [|[n|e] l IH]; simpl; auto. rewrite IH. unfold ends_of. simpl. destruct (Z.eqb (n_id (e_j e)) j); reflexivity. Qed.
Lemma file_text show b : to_csv show b = items_text show (file_items b).
Proof. unfold to_csv, items_text, file_items. f_equal. rewrite !map_app, !map_map. reflexivity. Qed.
Lemma all_read show read l : number_format show read -> Forall clean_node (nodes_of l) -> forall nodes edges,
  foldM (csv_line read) (map ended (map (item_line show) l)) (nodes, edges) =
  Ok (fold_left (fun d n => dset d (n_id n) (new_node (n_id n) (n_name n) (n_values n) (n_probs n))) (nodes_of l) nodes, edges ++ map ends_of (edges_of l)).
Proof.
  intros HF. induction l as [|[n|e] l IH]; intros H nodes edges; cbn [map foldM item_line].
  - simpl. rewrite app_nil_r. reflexivity.
  - cbn [nodes_of flat_map List.app] in H. inversion H; subst. rewrite (node_read show read HF) by auto. cbn [rbind]. rewrite IH by auto. reflexivity.
  - rewrite edge_read. cbn [rbind]. rewrite IH by auto. cbn [nodes_of edges_of flat_map List.app map]. rewrite <- app_assoc. reflexivity.
Qed.
Theorem c115_described show read ops l : number_format show read -> clean_texts ops -> Permutation (file_items (build ops)) l ->
  exists ops', from_csv read (items_text show l) = Ok (build ops') /\ same_with_parents ops (fun j => arrows j l) ops'.
Proof.
  intros HF HC HP. pose proof (build_inv ops) as BI. set (b := build ops) in *.
  assert (PN : Permutation (get_nodes (b_g b)) (nodes_of l)). { rewrite <- (file_nodes (get_nodes (b_g b)) (get_edges (b_g b))). apply flat_map_perm, HP. }
  assert (PE : Permutation (get_edges (b_g b)) (edges_of l)). { rewrite <- (file_edges (get_nodes (b_g b)) (get_edges (b_g b))). apply flat_map_perm, HP. }
  assert (Hid0 : map n_id (get_nodes (b_g b)) = net_vars ops).
  { rewrite <- (bi_ids _ _ BI). unfold get_nodes, dvals, ids, dkeys. rewrite map_map. apply map_ext_in. intros [k n] H. apply (bi_kid _ _ BI k n H). }
  assert (Hid : Permutation (map n_id (nodes_of l)) (net_vars ops)). { rewrite <- Hid0. apply Permutation_map, Permutation_sym, PN. }
  assert (Hof : forall n, In n (nodes_of l) -> node_of ops (n_id n) = Some n).
  { intros n H. apply (Permutation_in _ (Permutation_sym PN)) in H. rewrite <- (bi_get _ _ BI). unfold get_nodes, dvals in H. apply in_map_iff in H. destruct H as ([k m] & E & H). cbn [snd] in E. subst m.
    rewrite (bi_kid _ _ BI k n H). apply dget_In_NoDup; [|exact H]. change (NoDup (ids (b_g b))). rewrite (bi_ids _ _ BI). apply firsts_NoDup. }
  set (fresh := fun n => new_node (n_id n) (n_name n) (n_values n) (n_probs n)).
  set (ns := map fresh (nodes_of l)).
  assert (Ens : map n_id ns = map n_id (nodes_of l)) by (unfold ns; rewrite map_map; reflexivity).
  assert (ND0 : NoDup (map n_id (nodes_of l))) by (apply (Permutation_NoDup (Permutation_sym Hid)), firsts_NoDup).
  assert (ND : NoDup (map n_id ns)) by (rewrite Ens; exact ND0).
  assert (Hcl : Forall clean_node (nodes_of l)).
  { apply Forall_forall. intros n H. assert (Hv : In (n_id n) (net_vars ops)) by (apply (Permutation_in _ Hid), in_map, H). specialize (HC _ Hv). specialize (Hof n H).
    unfold net_name, net_dom in HC. rewrite Hof in HC. destruct HC as [C1 C2]. split; [exact C1|]. apply Forall_forall. exact C2. }
  set (dict := map (fun n => (n_id n, fresh n)) (nodes_of l)).
  assert (Edv : dvals dict = ns). { unfold dict, dvals, ns. rewrite map_map. reflexivity. }
  assert (Eget : forall i, In i (net_vars ops) -> exists n, dgetE dict i = Ok n /\ In n ns /\ n_id n = i).
  { intros i H. apply (Permutation_in _ (Permutation_sym Hid)) in H. apply in_map_iff in H. destruct H as (n & <- & H). exists (fresh n). split; [|split; [apply in_map, H|reflexivity]].
    assert (G : dget dict (n_id n) = Some (fresh n)); [apply dget_In_NoDup|unfold dgetE; rewrite G; reflexivity].
    - unfold dkeys, dict. rewrite map_map. exact ND0.
    - unfold dict. apply in_map_iff. exists n. auto. }
  set (ps := map ends_of (edges_of l)).
  assert (Hps : forall p, In p ps -> In (fst p) (net_vars ops) /\ In (snd p) (net_vars ops)).
  { intros p Hp. apply edges_ends. fold b. revert Hp. apply Permutation_in, Permutation_map, Permutation_sym, PE. }
  assert (Ees : forall l, (forall p, In p l -> In (fst p) (net_vars ops) /\ In (snd p) (net_vars ops)) ->
    exists es, mapM (fun e => pa <- dgetE dict (fst e) ;; ch <- dgetE dict (snd e) ;; Ok (pa, ch)) l = Ok es /\
      map (fun e => (n_id (fst e), n_id (snd e))) es = l /\ forall e, In e es -> In (fst e) ns /\ In (snd e) ns).
  { clear - Eget. intros l0. induction l0 as [|[i k] l0 IH]; intros Hl; [exists []; repeat split; auto; destruct H|]. destruct (Hl (i, k) (or_introl eq_refl)) as [H1 H2]. cbn [fst snd] in H1, H2.
    destruct (Eget i H1) as (m & M1 & M2 & M3). destruct (Eget k H2) as (m' & M1' & M2' & M3'). destruct IH as (es & I1 & I2 & I3); [intros; apply Hl; right; assumption|].
    exists ((m, m') :: es). cbn [mapM fst snd]. rewrite M1, M1'. cbn [rbind]. rewrite I1. cbn [rbind]. split; [reflexivity|]. split; [cbn [map fst snd]; congruence|].
    intros e [<-|H]; [auto|apply I3, H]. }
  destruct (Ees ps Hps) as (es & E1 & E2 & E3).
  exists (plain_ops ns es). split.
  - unfold from_csv, items_text. rewrite <- (map_map (item_line show) (fun s => (s ++ String nl EmptyString)%string)).
    assert (Hall : forall c, c <> comma -> c <> bar -> special c -> Forall (free c) (map (item_line show) l)).
    { intros c C1 C2 S. apply Forall_forall; intros s Hs; apply in_map_iff in Hs; destruct Hs as ([n|e] & <- & Hx); cbn [item_line].
      - apply (node_line_free show read HF); auto. apply (proj1 (Forall_forall _ _) Hcl). unfold nodes_of. apply in_flat_map. exists (ANode n). split; [exact Hx|left; reflexivity].
      - apply edge_line_free; auto. }
    rewrite universal_id by (apply concat_free; [discriminate|apply Hall; [discriminate|discriminate|apply sp_cr]]).
    rewrite lines_all by (apply Hall; [discriminate|discriminate|apply sp_nl]).
    rewrite (all_read show read l HF Hcl). cbn [rbind List.app fst snd].
    rewrite (fold_dset_nil n_id fresh) by exact ND0. fold dict. fold ps.
    rewrite E1. cbn [rbind]. rewrite Edv, assemble_build. reflexivity.
  - assert (Hn : forall i, node_of (plain_ops ns es) i = match node_of ops i with Some n => Some (fresh n) | None => None end).
    { intros i. destruct (node_of ops i) as [n|] eqn:E.
      - assert (Hi : In i (net_vars ops)). { destruct (mem_spec i (net_vars ops)) as [H|H]; [exact H|]. apply node_of_None in H. congruence. }
        apply (Permutation_in _ (Permutation_sym Hid)) in Hi. apply in_map_iff in Hi. destruct Hi as (m & <- & Hm). rewrite (Hof m Hm) in E. inversion E; subst m.
        apply (plain_node ns es ND E3 (fresh n)). apply in_map, Hm.
      - apply node_of_None. rewrite (plain_vars ns es ND E3), Ens. intros H. apply node_of_None in E. apply E. apply (Permutation_in _ Hid H). }
    constructor.
    + rewrite (plain_vars ns es ND E3), Ens. exact Hid.
    + intros i. rewrite plain_par, arrows_edges. fold ps. rewrite <- E2.
      assert (F : forall l : list (bnode * bnode), map (fun e => n_id (fst e)) (filter (fun e => Z.eqb (n_id (snd e)) i) l) =
        map fst (filter (fun p => Z.eqb (snd p) i) (map (fun e => (n_id (fst e), n_id (snd e))) l))).
      { clear. intros l0. induction l0 as [|e l0 IH]; [reflexivity|]. cbn [filter map snd fst]. destruct (Z.eqb (n_id (snd e)) i); cbn [map fst]; rewrite IH; reflexivity. }
      rewrite F, E2. apply firsts_id.
      assert (Q : Permutation (map fst (filter (fun p => Z.eqb (snd p) i) ps)) (net_par ops i)).
      { rewrite <- (edges_order ops i). unfold ps. rewrite <- !arrows_edges. rewrite <- (file_edges [] (get_edges (b_g (build ops)))) at 1. fold b. simpl (map ANode [] ++ _). rewrite <- arrows_edges. unfold arrows. rewrite (flat_map_perm _ _ _ (Permutation_sym HP)). unfold file_items. rewrite flat_map_app.
        assert (Z0 : forall ns, flat_map (fun x => match x with AnEdge e => if Z.eqb (n_id (e_j e)) i then [n_id (e_i e)] else [] | ANode _ => [] end) (map ANode ns) = []) by (clear; induction ns; simpl; auto). rewrite Z0. reflexivity. }
      apply (Permutation_NoDup (Permutation_sym Q)). apply firsts_NoDup.
    + intros i. unfold net_dom. rewrite Hn. destruct (node_of ops i); reflexivity.
    + intros i. unfold net_cpt. rewrite Hn. destruct (node_of ops i); reflexivity.
    + intros i. unfold net_name. rewrite Hn. destruct (node_of ops i); reflexivity.
    + intros n H. apply (plain_in ns es E3) in H. unfold ns in H. apply in_map_iff in H. destruct H as (m & <- & _). unfold fresh. eauto 10.
Qed.
Lemma arrows_par ops j : arrows j (file_items (build ops)) = net_par ops j.
Proof. rewrite arrows_edges. unfold file_items. rewrite file_edges. apply edges_order. Qed.
Theorem c115 show read ops l : number_format show read -> clean_texts ops -> Permutation (file_items (build ops)) l -> (forall j, arrows j l = arrows j (file_items (build ops))) ->
  exists ops', from_csv read (items_text show l) = Ok (build ops') /\ same_but_order ops ops'.
Proof.
  intros HF HC HP HA. destruct (c115_described show read ops l HF HC HP) as [ops' [A [B1 B2 B3 B4 B5 B6]]]. exists ops'. split; auto. constructor; auto. intros i. rewrite B2, HA. apply arrows_par.
Qed.
Theorem c115_posteriors show read ops l : number_format show read -> clean_texts ops -> well_shaped ops -> connected ops -> Permutation (file_items (build ops)) l -> (forall j, arrows j l = arrows j (file_items (build ops))) ->
  exists b', from_csv read (items_text show l) = Ok b' /\
    forall o h, ord_ok o -> valid_history (net_of ops) h ->
      exists b2 j j' t, apply o b' = Ok (b2, j) /\ do_calls j h = (j', None) /\ get_posteriors j' = Ok t /\
        exact_table (net_of ops) (net_name ops) (shown (net_of ops) (calls h)) t.
Proof.
  intros HF HC HW HN HP HA. destruct (c115 show read ops l HF HC HP HA) as [ops' [A B]]. exists (build ops'). split; auto. intros o h. apply order_posteriors; auto.
Qed.

(** ** concrete files *)
Definition swapped (b : bbn) : list csv_item := map AnEdge (get_edges (b_g b)) ++ map ANode (rev (get_nodes (b_g b))).
Lemma swapped_perm b : Permutation (file_items b) (swapped b).
Proof. unfold file_items, swapped. rewrite Permutation_app_comm. apply Permutation_app_head. apply Permutation_map, Permutation_rev. Qed.
Lemma swapped_arrows b j : arrows j (swapped b) = arrows j (file_items b).
Proof.
  rewrite !arrows_edges. f_equal. f_equal. f_equal. unfold swapped, file_items. rewrite file_edges. unfold edges_of. rewrite flat_map_app.
  assert (E : forall ns, flat_map (fun x => match x with ANode _ => [] | AnEdge e => [e] end) (map ANode ns) = []) by (induction ns; simpl; auto). rewrite E, app_nil_r. induction (get_edges (b_g b)); simpl; congruence.
Qed.
Definition file_wrongb (read : string -> option Qc) (ops : list bop) (text : string) (i : Z) (y : string) : bool :=
  mem i (net_vars ops) && mem y (net_dom ops i) &&
  match from_csv read text with
  | Ok b => match apply ord_id b with
            | Ok (_, j) => match get_posteriors j with
                           | Ok t => match dget t (net_name ops i) with
                                     | Some m => match dget m y with Some q => negb (qeqb q (exact_posterior (net_of ops) no_evidence i y)) | None => false end
                                     | None => false end
                           | Err _ => false end
            | Err _ => false end
  | Err _ => false end.
Lemma file_wrongb_ok read ops text i y : file_wrongb read ops text i y = true ->
  exists b b2 j t, from_csv read text = Ok b /\ apply ord_id b = Ok (b2, j) /\ get_posteriors j = Ok t /\ ~ exact_table (net_of ops) (net_name ops) no_evidence t.
Proof.
  unfold file_wrongb. rewrite !andb_true_iff. intros [[H1 H2] H]. apply mem_In in H1, H2. destruct (from_csv read text) as [b|]; [|discriminate]. destruct (apply ord_id b) as [[b2 j]|] eqn:E; [|discriminate]. destruct (get_posteriors j) as [t|] eqn:E2; [|discriminate].
  exists b, b2, j, t. repeat (split; auto). intros [_ T]. specialize (T i H1). rewrite T in H. rewrite (table_entry (exact_posterior (net_of ops) no_evidence i)) in H by exact H2. match type of H with negb (qeqb ?x ?x) = true => rewrite (proj2 (qeqb_true x x) eq_refl) in H end. discriminate.
Qed.
Lemma c115_refuted : exists show read ops l b b2 j t, number_format show read /\ clean_texts ops /\ well_shaped ops /\ connected ops /\ Permutation (file_items (build ops)) l /\
  from_csv read (items_text show l) = Ok b /\ apply ord_id b = Ok (b2, j) /\ get_posteriors j = Ok t /\ ~ exact_table (net_of ops) (net_name ops) no_evidence t.
Proof.
  destruct (file_wrongb_ok read_frac diamond (items_text show_frac (rev (file_items (build diamond)))) 30%Z "t"%string) as (b & b2 & j & t & H); [vm_compute; reflexivity|].
  exists show_frac, read_frac, diamond, (rev (file_items (build diamond))), b, b2, j, t. split; [exact frac_format|]. split; [exact diamond_clean|]. split; [exact diamond_ok|]. split; [exact diamond_connected|]. split; [apply Permutation_rev|]. exact H.
Qed.
